(** Model of the discrete HMM filter and smoother.
    Arrays are functions [nat -> ext] (vectors) and [nat -> nat -> ext] (matrices, row then column)
    together with the number of states [K]; numbers are extended floats (Ext.v), so that the 0/0 and
    -inf behaviour of the code is visible. *)
From Coq Require Import Reals List.
From Verif Require Import Ext ScanModel.
Import ListNotations.

(** cuthbertlib/discrete/filtering.py:10-14 *)
Record FilterScanElement := { f_ : nat -> nat -> ext; log_g : nat -> ext }.

Section WithK.
  Variable K : nat.

  (** filtering.py:17-31 for one row of [state_probs] (the code broadcasts over the last axis). *)
  Definition cond_weights (probs lls : nat -> ext) (j : nat) : ext :=
    emul (probs j) (eexp (esub (lls j) (emaxn K lls))).
  Definition condition_on_obs_vec (probs lls : nat -> ext) : (nat -> ext) * ext :=
    let norm := esum K (cond_weights probs lls) in
    (fun j => ediv (cond_weights probs lls j) norm, eadd (elog norm) (emaxn K lls)).
  (** filtering.py:17-31 for a matrix: the same for every row. *)
  Definition condition_on_obs (probs : nat -> nat -> ext) (lls : nat -> ext)
    : (nat -> nat -> ext) * (nat -> ext) :=
    (fun i => fst (condition_on_obs_vec (probs i) lls),
     fun i => snd (condition_on_obs_vec (probs i) lls)).

  (** [@] on K x K matrices *)
  Definition matmul (A B : nat -> nat -> ext) : nat -> nat -> ext :=
    fun i k => esum K (fun j => emul (A i j) (B j k)).

  (** filtering.py:34-49 *)
  Definition filtering_operator (ij jk : FilterScanElement) : FilterScanElement :=
    let c := condition_on_obs (f_ ij) (log_g jk) in
    {| f_ := matmul (fst c) (f_ jk);
       log_g := fun i => eadd (log_g ij i) (snd c i) |}.

  (** smoothing.py:8-22 *)
  Definition get_reverse_kernel (dist : nat -> ext) (trans : nat -> nat -> ext) : nat -> nat -> ext :=
    let pred i := esum K (fun j => emul (trans j i) (dist j)) in
    fun i j => ediv (emul (trans j i) (dist j)) (pred i).

  (** smoothing.py:25-35 *)
  Definition smoothing_operator (ij jk : nat -> nat -> ext) : nat -> nat -> ext := matmul jk ij.

  Section Callbacks.
    Context {Inp Key : Type}.
    Variable get_init_dist : Inp -> nat -> ext.
    Variable get_trans_matrix : Inp -> nat -> nat -> ext.
    Variable get_obs_lls : Inp -> nat -> ext.
    Variable dummy_like : Inp -> Inp.

    (** cuthbert/discrete/filter.py:25-42 *)
    Record DiscreteFilterState := MkDFS { elem : FilterScanElement; fs_inputs : Inp }.
    Definition fdist (s : DiscreteFilterState) : nat -> ext := f_ (elem s) 0.
    Definition flog_normalizing_constant (s : DiscreteFilterState) : ext := log_g (elem s) 0.

    (** cuthbert/discrete/filter.py:70-90 *)
    Definition discrete_init_prepare (x : Inp) (key : option Key) : DiscreteFilterState :=
      MkDFS {| f_ := fun _ j => emul (get_init_dist x j) (Fin 1); log_g := fun _ => Fin 0 |} x.
    (** cuthbert/discrete/filter.py:93-116 *)
    Definition discrete_filter_prepare (x : Inp) (key : option Key) : DiscreteFilterState :=
      let c := condition_on_obs (get_trans_matrix x) (get_obs_lls x) in
      MkDFS {| f_ := fst c; log_g := snd c |} x.
    (** cuthbert/discrete/filter.py:119-132 *)
    Definition discrete_filter_combine (s1 s2 : DiscreteFilterState) : DiscreteFilterState :=
      MkDFS (filtering_operator (elem s1) (elem s2)) (fs_inputs s2).
    (** cuthbert/discrete/filter.py:45-67 *)
    Definition discrete_build_filter : Filter Inp Key DiscreteFilterState :=
      MkFilter discrete_init_prepare discrete_filter_prepare discrete_filter_combine.

    (** cuthbert/discrete/smoother.py:22-34 *)
    Record DiscreteSmootherState := MkDSS { sm_a : nat -> nat -> ext; sm_inputs : Inp }.
    Definition sdist (s : DiscreteSmootherState) : nat -> ext := sm_a s 0.
    (** cuthbert/discrete/smoother.py:54-74 *)
    Definition discrete_smoother_prepare (fs : DiscreteFilterState) (x : Inp) (key : option Key)
      : DiscreteSmootherState :=
      MkDSS (get_reverse_kernel (fdist fs) (get_trans_matrix x)) x.
    (** cuthbert/discrete/smoother.py:77-105; the driver always passes model_inputs *)
    Definition discrete_convert (fs : DiscreteFilterState) (x : Inp) (key : option Key)
      : DiscreteSmootherState :=
      MkDSS (fun _ j => fdist fs j) (dummy_like x).
    (** cuthbert/discrete/smoother.py:108-123 *)
    Definition discrete_smoother_combine (s1 s2 : DiscreteSmootherState) : DiscreteSmootherState :=
      MkDSS (smoothing_operator (sm_a s1) (sm_a s2)) (sm_inputs s1).
    (** cuthbert/discrete/smoother.py:37-51 *)
    Definition discrete_build_smoother
      : Smoother Inp Key DiscreteFilterState DiscreteSmootherState :=
      MkSmoother discrete_convert discrete_smoother_prepare discrete_smoother_combine.
  End Callbacks.
End WithK.
