(** C83: relative accuracy of the discrete filter and smoother in floating-point arithmetic. *)
From Coq Require Import Reals List Arith ZArith Permutation Lia Lra.
From Flocq Require Import Core Relative.
From Verif Require Import ScanModel DriverSpec DiscreteSpec Sums
  FloatDiscreteModel FloatDiscreteSpec FloatDiscreteProofs FloatDiscreteRuns FloatDiscreteSmooth.
Import ListNotations.
Open Scope R_scope.

(** The HMM whose arrays the callbacks return. *)
Definition hmm_step {Inp} (trans : Inp -> nat -> nat -> R) (lls : Inp -> nat -> R) (x : Inp) : step :=
  {| tr := trans x; lik := fun j => exp (lls x j) |}.

(** Nonnegative arrays, log likelihoods at most [L] in absolute value, and row masses (of the initial
    vector and of the transition rows weighted with the likelihoods) between exp(-L) and exp(L). *)
Definition moderate {Inp} (K : nat) (L : R) (init : Inp -> nat -> R) (trans : Inp -> nat -> nat -> R)
  (lls : Inp -> nat -> R) (x0 : Inp) (xs : list Inp) : Prop :=
  0 <= L /\
  ((forall j, (j < K)%nat -> 0 <= init x0 j) /\ near L (lsum (init x0) (seq 0 K)) 1) /\
  (forall x, In x xs -> forall i, (i < K)%nat ->
     (forall j, (j < K)%nat -> 0 <= trans x i j) /\
     Rabs (lls x i) <= L /\
     near L (lsum (fun j => trans x i j * exp (lls x j)) (seq 0 K)) 1).

(** Error allowed per time step: [u] is the relative error of one operation, [n] the number of steps. *)
Definition kappa (u : R) (K n : nat) (L : R) : R :=
  (4 * INR K + 76 + 54 * INR (S n) * L) * (- ln (1 - u)).

Theorem C83_filter :
  forall (u : R) (ar : arith) (K : nat) (osum odot : order) (Inp Key : Type) (split : Key -> nat -> list Key)
         (init : Inp -> nat -> R) (trans : Inp -> nat -> nat -> R) (lls : Inp -> nat -> R)
         (x0 : Inp) (xs : list Inp) (L : R) (parallel : bool) (key : option Key),
  arith_ok u ar -> (0 < K)%nat -> order_ok K osum -> order_ok K odot -> split_ok split ->
  moderate K L init trans lls x0 xs ->
  INR (S (length xs)) * kappa u K (length xs) L <= 1 ->
  exists states,
    filter split (fd_build_filter ar K osum odot init trans lls) (x0 :: xs) parallel key = Ok states /\
    length states = S (length xs) /\
    forall t s, nth_error states t = Some s -> (0 < t)%nat ->
      let ss := map (hmm_step trans lls) (firstn t xs) in
      0 < evidence K (init x0) ss /\
      Rabs (fflog_normalizing_constant s - ln (evidence K (init x0) ss)) <= INR (S t) * kappa u K (length xs) L /\
      forall j, (j < K)%nat ->
        near (2 * INR (S t) * kappa u K (length xs) L) (ffdist s j) (posterior K (init x0) ss t j).
Proof.
  intros u ar K osum odot Inp Key split init trans lls x0 xs L parallel key Hok HK Hos Hod Hs (HL & Hi & Hx) Hsm.
  destruct (filter_accuracy u ar Hok K osum odot Hos Hod split Hs init trans lls x0 xs L HL Hi Hx Hsm parallel key HK)
    as (sts & H1 & H2 & H3).
  exists sts. split; [exact H1|]. split; [exact H2|].
  intros t s Ht Hpos ss. destruct (H3 t s Ht) as (E1 & _ & E2). destruct (E2 Hpos) as [E3 E4].
  rewrite firstn_map in E1, E3. split; [exact E1|]. split; [exact E3|].
  intros j Hj. specialize (E4 j Hj). rewrite firstn_map in E4. exact E4.
Qed.
Print Assumptions C83_filter.

Theorem C83_smoother :
  forall (u : R) (ar : arith) (K : nat) (osum odot : order) (Inp Key : Type) (split : Key -> nat -> list Key)
         (init : Inp -> nat -> R) (trans : Inp -> nat -> nat -> R) (lls : Inp -> nat -> R) (dummy_like : Inp -> Inp)
         (x0 : Inp) (xs : list Inp) (L : R) (par1 par2 : bool) (key1 key2 : option Key),
  arith_ok u ar -> (0 < K)%nat -> order_ok K osum -> order_ok K odot -> split_ok split ->
  moderate K L init trans lls x0 xs ->
  INR (S (length xs)) * kappa u K (length xs) L <= 1 ->
  xs <> [] ->
  (* every state has positive predictive probability at every time *)
  (forall t x i, nth_error xs t = Some x -> (i < K)%nat ->
     0 < lsum (fun j => posterior K (init x0) (map (hmm_step trans lls) (firstn t xs)) t j * trans x j i) (seq 0 K)) ->
  exists fstates sstates,
    filter split (fd_build_filter ar K osum odot init trans lls) (x0 :: xs) par1 key1 = Ok fstates /\
    smoother split dummy_like ffs_inputs (fd_build_smoother ar odot trans dummy_like) fstates (Some xs) par2 key2
      = Ok sstates /\
    length sstates = S (length xs) /\
    forall t s, nth_error sstates t = Some s -> forall j, (j < K)%nat ->
      near (INR (S (length xs) - t) * ((4 * INR (S (length xs)) + 1) * kappa u K (length xs) L))
        (fsdist s j) (posterior K (init x0) (map (hmm_step trans lls) xs) t j).
Proof.
  intros u ar K osum odot Inp Key split init trans lls dl x0 xs L p1 p2 k1 k2 Hok HK Hos Hod Hs (HL & Hi & Hx) Hsm Hne Hp.
  apply (smoother_accuracy u ar Hok K HK osum odot Hos Hod split Hs init trans lls dl x0 xs L HL Hi Hx Hsm); auto.
  intros t s i Hst Hi'. rewrite nth_error_map in Hst. destruct (nth_error xs t) as [x|] eqn:Ex; [|discriminate].
  injection Hst as <-. rewrite firstn_map. exact (Hp t x i Ex Hi').
Qed.
Print Assumptions C83_smoother.

(** Rounding every exact result to nearest in a binary format with [prec] digits and unbounded exponents
    satisfies the assumptions with u = 2^-prec. *)
Definition rounded (prec : Z) : arith :=
  let rd := round radix2 (FLX_exp prec) ZnearestE in
  {| fadd := fun a b => rd (a + b); fsub := fun a b => rd (a - b); fmul := fun a b => rd (a * b);
     fdiv := fun a b => rd (a / b); fexp := fun a => rd (exp a); flog := fun a => rd (ln a) |}.

Theorem C83_formats : forall prec, (0 < prec)%Z -> arith_ok (bpow radix2 (- prec)) (rounded prec).
Proof.
  intros prec Hp.
  assert (E : bpow radix2 (- prec) = / 2 * bpow radix2 (- prec + 1)).
  { rewrite bpow_plus. cbn [bpow Z.pow_pos Pos.iter]. simpl. field. }
  assert (A : forall x, approx (bpow radix2 (- prec)) (round radix2 (FLX_exp prec) ZnearestE x) x).
  { intros x. unfold approx. rewrite E. now apply relative_error_N_FLX. }
  split.
  - split; [apply bpow_ge_0|]. apply (bpow_lt radix2 (- prec) 0). lia.
  - repeat split; intros; apply A.
Qed.
Print Assumptions C83_formats.

(** Case: a two-state HMM with a zero transition probability and a row that does not sum to one exactly,
    three steps, binary32 precision: the hypotheses hold with L = 1. *)
Definition case_init (_ : nat) (j : nat) : R := match j with O => 1/4 | _ => 3/4 end.
Definition case_trans (_ i j : nat) : R :=
  match i, j with O, O => 1/2 | O, _ => 1/2 | _, O => 0 | _, _ => 1 + /1024 end.
Definition case_lls (x j : nat) : R := match j with O => 0 | _ => - / 2 end.
Definition case_order : order := Node (Leaf 1) (Leaf 0).

Example C83_case :
  arith_ok (bpow radix2 (- 24)) (rounded 24) /\ order_ok 2 case_order /\
  moderate 2 1 case_init case_trans case_lls 0%nat [1; 2; 3]%nat /\
  INR 4 * kappa (bpow radix2 (- 24)) 2 3 1 <= 1.
Proof.
  assert (He1 : exp (- (1)) <= / 2).
  { rewrite exp_Ropp. apply Rinv_le_contravar; [lra|]. pose proof (exp_ineq1_le 1). lra. }
  assert (He2 : 2 <= exp 1) by (pose proof (exp_ineq1_le 1); lra).
  assert (Hh : / 2 <= exp (- / 2) <= 1).
  { split; [pose proof (exp_ineq1_le (- / 2)); lra|]. rewrite <- exp_0. apply exp_le_exp. lra. }
  split; [now apply (C83_formats 24)|]. split; [apply perm_swap|]. split.
  - split; [lra|]. split.
    + split; [intros [|j] Hj; cbn; lra|]. unfold near; cbn. split; lra.
    + intros x _ [|i] Hi; (split; [intros [|j] Hj; cbn; lra|]);
        (split; [cbn; rewrite ?Rabs_R0, ?Rabs_Ropp, ?Rabs_right; lra|]);
        unfold near; cbn; rewrite ?exp_0; split; lra.
  - assert (Hb : bpow radix2 (- 24) = / 16777216) by (cbn; lra).
    unfold kappa. rewrite Hb.
    assert (Hln : - ln (1 - / 16777216) <= / 16777215).
    { rewrite <- ln_Rinv by lra. pose proof (exp_ineq1_le (ln (/ (1 - / 16777216)))) as H.
      rewrite exp_ln in H by (apply Rinv_0_lt_compat; lra).
      replace (/ (1 - / 16777216)) with (1 + / 16777215) in * by lra. lra. }
    cbn [length INR]. simpl INR. nra.
Qed.
