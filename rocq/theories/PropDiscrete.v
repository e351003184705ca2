(** Properties C05-C09: discrete hidden Markov models. *)
From Coq Require Import Reals List Arith Lia Lra.
From Verif Require Import Ext ScanModel DriverSpec DiscreteModel DiscreteSpec DiscreteHyp Sums
  DiscreteProofs DiscreteTheorems DiscreteWitness.
Import ListNotations.
Open Scope R_scope.

(** C05: with finite log likelihoods the filter returns, in both modes and at every time, the exact
    posterior of the current state and the exact log evidence (sums over all state paths). *)
Theorem C05_discrete_filter_exact (K : nat) {Inp Key} (split : Key -> nat -> list Key)
        (get_init_dist : Inp -> nat -> ext) (get_trans_matrix : Inp -> nat -> nat -> ext)
        (get_obs_lls : Inp -> nat -> ext)
        (x0 : Inp) (xs : list Inp) (init : nat -> R) (ss : list step)
        (parallel : bool) (key : option Key) :
  (0 < K)%nat -> split_ok split ->
  good_init K (get_init_dist x0) init ->
  Forall2 (fun x s => good_step K (get_trans_matrix x) (get_obs_lls x) s) xs ss ->
  Forall (finite_lls K) ss ->
  exists states,
    filter split (discrete_build_filter K get_init_dist get_trans_matrix get_obs_lls)
           (x0 :: xs) parallel key = Ok states /\
    length states = S (length ss) /\
    forall t s, nth_error states t = Some s ->
      0 < evidence K init (firstn t ss) /\
      (forall j, (j < K)%nat -> fdist s j = Fin (posterior K init (firstn t ss) t j)) /\
      flog_normalizing_constant s = Fin (ln (evidence K init (firstn t ss))).
Proof. exact (discrete_filter_finite K split get_init_dist get_trans_matrix get_obs_lls x0 xs init ss parallel key). Qed.
Print Assumptions C05_discrete_filter_exact.

(** C06: the filtering operator is associative (on elements whose rows are normalised, up to
    pointwise equality of the K x K and K arrays) and respects that equality. *)
Theorem C06_discrete_operator_associative (K : nat) {Inp} :
  assoc_upto (discrete_filter_combine (Inp:=Inp) K)
    (fun s => normalised_elem K (elem s))
    (fun s1 s2 => same_elem K (elem s1) (elem s2) /\ fs_inputs s1 = fs_inputs s2).
Proof. exact (discrete_assoc K). Qed.
Print Assumptions C06_discrete_operator_associative.

(** C06: parallel and sequential filtering return the same arrays. *)
Theorem C06_discrete_parallel_eq_sequential (K : nat) {Inp Key} (split : Key -> nat -> list Key)
        (get_init_dist : Inp -> nat -> ext) (get_trans_matrix : Inp -> nat -> nat -> ext)
        (get_obs_lls : Inp -> nat -> ext)
        (x0 : Inp) (xs : list Inp) (init : nat -> R) (ss : list step) (key : option Key) :
  (0 < K)%nat -> split_ok split ->
  good_init K (get_init_dist x0) init ->
  Forall2 (fun x s => good_step K (get_trans_matrix x) (get_obs_lls x) s) xs ss ->
  Forall (rows_possible K) ss ->
  exists ps qs,
    filter split (discrete_build_filter K get_init_dist get_trans_matrix get_obs_lls) (x0 :: xs) true key = Ok ps /\
    filter split (discrete_build_filter K get_init_dist get_trans_matrix get_obs_lls) (x0 :: xs) false key = Ok qs /\
    Forall2 (fun p q => same_elem K (elem p) (elem q) /\ fs_inputs p = fs_inputs q) ps qs.
Proof. exact (fun HK Hs => discrete_parallel K HK split Hs get_init_dist get_trans_matrix get_obs_lls x0 xs init ss key). Qed.
Print Assumptions C06_discrete_parallel_eq_sequential.

(** C07: when every state has positive one-step predictive probability, the smoother returns the
    exact posterior marginals, for both filter modes, both smoother modes, and whether the model
    inputs are passed explicitly or taken from the filter states. *)
Theorem C07_discrete_smoother_exact (K : nat) {Inp Key} (split : Key -> nat -> list Key)
        (get_init_dist : Inp -> nat -> ext) (get_trans_matrix : Inp -> nat -> nat -> ext)
        (get_obs_lls : Inp -> nat -> ext) (dummy_like : Inp -> Inp)
        (x0 : Inp) (xs : list Inp) (init : nat -> R) (ss : list step)
        (par1 : bool) (key1 : option Key) (par2 : bool) (key2 : option Key) :
  (0 < K)%nat -> split_ok split -> ss <> [] ->
  good_init K (get_init_dist x0) init ->
  Forall2 (fun x s => good_step K (get_trans_matrix x) (get_obs_lls x) s) xs ss ->
  Forall (rows_possible K) ss ->
  (forall t s i, nth_error ss t = Some s -> (i < K)%nat ->
     0 < lsum (fun j => posterior K init (firstn t ss) t j * tr s j i) (seq 0 K)) ->
  exists fstates sstates,
    filter split (discrete_build_filter K get_init_dist get_trans_matrix get_obs_lls)
           (x0 :: xs) par1 key1 = Ok fstates /\
    smoother split dummy_like fs_inputs (discrete_build_smoother K get_trans_matrix dummy_like)
             fstates (Some xs) par2 key2 = Ok sstates /\
    smoother split dummy_like fs_inputs (discrete_build_smoother K get_trans_matrix dummy_like)
             fstates None par2 key2 = Ok sstates /\
    length sstates = S (length ss) /\
    forall t s, nth_error sstates t = Some s ->
      forall j, (j < K)%nat -> sdist s j = Fin (posterior K init ss t j).
Proof.
  exact (fun HK Hs Hne Hi Hst Hr Hp =>
    discrete_smoother_exact K HK split Hs get_init_dist get_trans_matrix get_obs_lls dummy_like
      x0 xs init ss Hi Hst Hr Hne par1 key1 par2 key2 (fun t s i => Hp t s i)).
Qed.
Print Assumptions C07_discrete_smoother_exact.

(** C09 (partial): -inf log likelihoods are handled exactly provided every state -- including
    unreachable ones -- can move to a state compatible with the observation.  Missing: the general
    case, which is false, see [C09_discrete_filter_zero_likelihood_refuted]. *)
Theorem C09_discrete_filter_zero_likelihood_partial (K : nat) {Inp Key} (split : Key -> nat -> list Key)
        (get_init_dist : Inp -> nat -> ext) (get_trans_matrix : Inp -> nat -> nat -> ext)
        (get_obs_lls : Inp -> nat -> ext)
        (x0 : Inp) (xs : list Inp) (init : nat -> R) (ss : list step)
        (parallel : bool) (key : option Key) :
  (0 < K)%nat -> split_ok split ->
  good_init K (get_init_dist x0) init ->
  Forall2 (fun x s => good_step K (get_trans_matrix x) (get_obs_lls x) s) xs ss ->
  Forall (rows_possible K) ss ->
  exists states,
    filter split (discrete_build_filter K get_init_dist get_trans_matrix get_obs_lls)
           (x0 :: xs) parallel key = Ok states /\
    length states = S (length ss) /\
    map fs_inputs states = x0 :: xs /\
    forall t s, nth_error states t = Some s ->
      0 < evidence K init (firstn t ss) /\
      (forall j, (j < K)%nat -> fdist s j = Fin (posterior K init (firstn t ss) t j)) /\
      flog_normalizing_constant s = Fin (ln (evidence K init (firstn t ss))).
Proof.
  exact (fun HK Hs Hi Hst Hr =>
    discrete_filter_exact K HK split Hs get_init_dist get_trans_matrix get_obs_lls
      x0 xs init ss Hi Hst Hr parallel key).
Qed.
Print Assumptions C09_discrete_filter_zero_likelihood_partial.

(** C09: false in general.  Two states, state 1 absorbing; the observation is impossible in state 1.
    Started in state 0 the evidence is 1/2, but the filter returns NaN. *)
Theorem C09_discrete_filter_zero_likelihood_refuted :
  exists (get_init_dist : unit -> nat -> ext) (get_trans_matrix : unit -> nat -> nat -> ext)
         (get_obs_lls : unit -> nat -> ext) (init : nat -> R) (s : step),
    good_init 2 (get_init_dist tt) init /\
    good_step 2 (get_trans_matrix tt) (get_obs_lls tt) s /\
    0 < evidence 2 init [s] /\
    forall split (key : option nat), split_ok split ->
    exists s0 s1,
      filter split (discrete_build_filter 2 get_init_dist get_trans_matrix get_obs_lls)
             [tt; tt] false key = Ok [s0; s1] /\
      fdist s1 0 = NaN /\ fdist s1 1 = NaN.
Proof. exact discrete_filter_witness. Qed.
Print Assumptions C09_discrete_filter_zero_likelihood_refuted.

(** C08: false in general.  Two states that never change, started in state 0, uninformative
    observation: the smoothing distribution is (1, 0) but the smoother returns NaN. *)
Theorem C08_discrete_smoother_unreachable_refuted :
  exists (get_init_dist : unit -> nat -> ext) (get_trans_matrix : unit -> nat -> nat -> ext)
         (get_obs_lls : unit -> nat -> ext) (init : nat -> R) (s : step),
    good_init 2 (get_init_dist tt) init /\
    good_step 2 (get_trans_matrix tt) (get_obs_lls tt) s /\
    finite_lls 2 s /\
    posterior 2 init [s] 0 0 = 1 /\ posterior 2 init [s] 0 1 = 0 /\
    forall split (key : option nat), split_ok split ->
    exists fstates s0 s1,
      filter split (discrete_build_filter 2 get_init_dist get_trans_matrix get_obs_lls)
             [tt; tt] false key = Ok fstates /\
      smoother split (fun x => x) fs_inputs (discrete_build_smoother 2 get_trans_matrix (fun x => x))
               fstates None false key = Ok [s0; s1] /\
      sdist s0 0 = NaN /\ sdist s0 1 = NaN.
Proof. exact discrete_smoother_witness. Qed.
Print Assumptions C08_discrete_smoother_unreachable_refuted.

(** Non-vacuity of C05-C07: a two-state chain with uniform transitions satisfies every hypothesis
    for any horizon; here two steps. *)
Example C05_C07_example :
  let init := fun _ : nat => 1 / 2 in
  let s := {| tr := fun _ _ => 1 / 2; lik := fun j => exp (INR j) |} in
  let gi := fun (_ : unit) (_ : nat) => Fin (1 / 2) in
  let gt := fun (_ : unit) (_ _ : nat) => Fin (1 / 2) in
  let gl := fun (_ : unit) (j : nat) => Fin (INR j) in
  good_init 2 (gi tt) init /\
  Forall2 (fun x s => good_step 2 (gt x) (gl x) s) [tt; tt] [s; s] /\
  Forall (finite_lls 2) [s; s] /\ Forall (rows_possible 2) [s; s] /\
  (forall t s' i, nth_error [s; s] t = Some s' -> (i < 2)%nat ->
     0 < lsum (fun j => posterior 2 init (firstn t [s; s]) t j * tr s' j i) (seq 0 2)).
Proof. exact discrete_example. Qed.
