(** Model of the discrete HMM filter and smoother in rounded arithmetic.

    Modelled: cuthbertlib/discrete/filtering.py:17-49, cuthbertlib/discrete/smoothing.py:8-35,
    cuthbert/discrete/filter.py:45-132 and cuthbert/discrete/smoother.py:37-123, with every addition,
    subtraction, multiplication, division, exp and log replaced by an arbitrary operation of a record
    [arith]; maxima are comparisons and therefore exact.  The order in which XLA adds the terms of a sum
    or of a dot product is not specified, so sums follow an arbitrary binary tree.
    Simplifications: numbers are real numbers (no NaN, infinity, overflow; what is assumed about the
    operations is stated with the theorems); fused multiply-add and wider accumulators are not modelled;
    the arrays returned by the user's callbacks are taken as they are. *)
From Coq Require Import Reals List Arith.
From Verif Require Import ScanModel.
Import ListNotations.
Open Scope R_scope.

(** The elementary operations of a number format. *)
Record arith := {
  fadd : R -> R -> R; fsub : R -> R -> R; fmul : R -> R -> R; fdiv : R -> R -> R;
  fexp : R -> R; flog : R -> R }.

(** Orders of summation: a leaf is the position of a term. *)
Inductive order := Leaf (i : nat) | Node (l r : order).

Fixpoint fsum (ar : arith) (o : order) (v : nat -> R) : R :=
  match o with
  | Leaf i => v i
  | Node l r => fadd ar (fsum ar l v) (fsum ar r v)
  end.

(** jnp.max over [0..K-1] *)
Fixpoint rmaxn (K : nat) (v : nat -> R) : R :=
  match K with
  | O => 0
  | S O => v O
  | S K' => Rmax (rmaxn K' v) (v K')
  end.

(** cuthbertlib/discrete/filtering.py:10-14 *)
Record FScan := MkFScan { ff : nat -> nat -> R; fg : nat -> R }.

Section WithArith.
  Variable ar : arith.
  Variable K : nat.
  (** summation orders of [.sum(axis=-1)] and of [@] / jnp.dot *)
  Variables osum odot : order.

  (** filtering.py:26-27 for one row *)
  Definition fcond_weights (probs lls : nat -> R) (j : nat) : R :=
    fmul ar (probs j) (fexp ar (fsub ar (lls j) (rmaxn K lls))).
  (** filtering.py:28-31 for one row *)
  Definition fcondition_vec (probs lls : nat -> R) : (nat -> R) * R :=
    let norm := fsum ar osum (fcond_weights probs lls) in
    (fun j => fdiv ar (fcond_weights probs lls j) norm, fadd ar (flog ar norm) (rmaxn K lls)).
  (** filtering.py:17-31 for a matrix *)
  Definition fcondition_on_obs (probs : nat -> nat -> R) (lls : nat -> R)
    : (nat -> nat -> R) * (nat -> R) :=
    (fun i => fst (fcondition_vec (probs i) lls), fun i => snd (fcondition_vec (probs i) lls)).
  (** [@] on K x K matrices *)
  Definition fmatmul (A B : nat -> nat -> R) : nat -> nat -> R :=
    fun i k => fsum ar odot (fun j => fmul ar (A i j) (B j k)).
  (** filtering.py:34-49 *)
  Definition ffiltering_operator (ij jk : FScan) : FScan :=
    let c := fcondition_on_obs (ff ij) (fg jk) in
    MkFScan (fmatmul (fst c) (ff jk)) (fun i => fadd ar (fg ij i) (snd c i)).
  (** smoothing.py:8-22: pred is jnp.dot(trans.T, dist), then trans.T * dist[None, :] / pred[:, None] *)
  Definition fget_reverse_kernel (dist : nat -> R) (trans : nat -> nat -> R) : nat -> nat -> R :=
    let pred i := fsum ar odot (fun j => fmul ar (trans j i) (dist j)) in
    fun i j => fdiv ar (fmul ar (trans j i) (dist j)) (pred i).
  (** smoothing.py:25-35 *)
  Definition fsmoothing_operator (ij jk : nat -> nat -> R) : nat -> nat -> R := fmatmul jk ij.

  Section Callbacks.
    Context {Inp Key : Type}.
    Variable get_init_dist : Inp -> nat -> R.
    Variable get_trans_matrix : Inp -> nat -> nat -> R.
    Variable get_obs_lls : Inp -> nat -> R.
    Variable dummy_like : Inp -> Inp.

    (** cuthbert/discrete/filter.py:25-42 *)
    Record FDFilterState := MkFDFS { felem : FScan; ffs_inputs : Inp }.
    Definition ffdist (s : FDFilterState) : nat -> R := ff (felem s) 0.
    Definition fflog_normalizing_constant (s : FDFilterState) : R := fg (felem s) 0.
    (** cuthbert/discrete/filter.py:70-90 *)
    Definition fd_init_prepare (x : Inp) (key : option Key) : FDFilterState :=
      MkFDFS (MkFScan (fun _ j => fmul ar (get_init_dist x j) 1) (fun _ => 0)) x.
    (** cuthbert/discrete/filter.py:93-116 *)
    Definition fd_filter_prepare (x : Inp) (key : option Key) : FDFilterState :=
      let c := fcondition_on_obs (get_trans_matrix x) (get_obs_lls x) in
      MkFDFS (MkFScan (fst c) (snd c)) x.
    (** cuthbert/discrete/filter.py:119-132 *)
    Definition fd_filter_combine (s1 s2 : FDFilterState) : FDFilterState :=
      MkFDFS (ffiltering_operator (felem s1) (felem s2)) (ffs_inputs s2).
    (** cuthbert/discrete/filter.py:45-67 *)
    Definition fd_build_filter : Filter Inp Key FDFilterState :=
      MkFilter fd_init_prepare fd_filter_prepare fd_filter_combine.

    (** cuthbert/discrete/smoother.py:22-34 *)
    Record FDSmootherState := MkFDSS { fsm_a : nat -> nat -> R; fsm_inputs : Inp }.
    Definition fsdist (s : FDSmootherState) : nat -> R := fsm_a s 0.
    (** cuthbert/discrete/smoother.py:54-74 *)
    Definition fd_smoother_prepare (fs : FDFilterState) (x : Inp) (key : option Key) : FDSmootherState :=
      MkFDSS (fget_reverse_kernel (ffdist fs) (get_trans_matrix x)) x.
    (** cuthbert/discrete/smoother.py:77-105; jnp.tile copies; the driver always passes model_inputs *)
    Definition fd_convert (fs : FDFilterState) (x : Inp) (key : option Key) : FDSmootherState :=
      MkFDSS (fun _ j => ffdist fs j) (dummy_like x).
    (** cuthbert/discrete/smoother.py:108-123 *)
    Definition fd_smoother_combine (s1 s2 : FDSmootherState) : FDSmootherState :=
      MkFDSS (fsmoothing_operator (fsm_a s1) (fsm_a s2)) (fsm_inputs s1).
    (** cuthbert/discrete/smoother.py:37-51 *)
    Definition fd_build_smoother : Smoother Inp Key FDFilterState FDSmootherState :=
      MkSmoother fd_convert fd_smoother_prepare fd_smoother_combine.
  End Callbacks.
End WithArith.
