(** C61, positive part for noiseless transitions at odd times, and C82: the filter documented for dynamax
    models. *)
From Coq Require Import Reals Lra Lia List.
From mathcomp Require Import all_ssreflect all_algebra.
From Verif Require Import RStruct MxBase ZmodTac KalmanModel DynamaxModel GaussSpec KalmanSpec MvnProofs MvnProofs2
  KalmanProofs FilterOp KalmanRuns TriaExist PropKalman PropLinKalman PropSingular ParityRuns.
From Verif Require ScanModel ScanProofs DriverSpec DriverProofs.
Set Implicit Arguments.
Unset Strict Implicit.
Unset Printing Implicit Defensive.
Local Open Scope ring_scope.
Import GRing.Theory Num.Theory Order.Theory.

(** C61: the transitions into odd times may be noiseless if their matrices are invertible; both modes then
    return the exact means, covariances and evidence. [odd_noiseless] counts transitions from 0, so transition
    [t] leads to time [t + 1]. *)
Theorem C61_noiseless_at_odd_times tria nx ny Inp Key (split : Key -> nat -> list Key)
    (get_init_params : Inp -> 'cV[R]_nx * 'M[R]_nx) (get_dynamics_params : Inp -> 'M[R]_nx * 'cV[R]_nx * 'M[R]_nx)
    (get_observation_params : Inp -> 'M[R]_(ny, nx) * 'cV[R]_ny * 'M[R]_ny * 'cV[option R]_ny)
    (inputs : list Inp) (parallel : bool) key :
  tria_ok tria -> DriverSpec.split_ok split -> inputs <> nil ->
  (forall x, List.nth_error inputs 0 = Some x ->
     is_trig_mx (get_init_params x).2 /\ (get_init_params x).2 \in unitmx) ->
  (forall t x, List.nth_error inputs (S t) = Some x ->
     let: s := step_of get_dynamics_params get_observation_params x in
     obsR s \in unitmx /\ (lQ s \in unitmx \/ lF s \in unitmx /\ ~~ odd t)) ->
  exists states,
    ScanModel.filter split (kalman_build_filter tria (Key := Key) get_init_params get_dynamics_params get_observation_params)
      inputs parallel key = ScanModel.Ok states /\
    List.Forall2 (fun s b => [/\ kf_mean s = bmean b, cov (kf_chol_cov s) = bcov b &
                                 kf_log_normalizing_constant s = bell b]) states
      (exact get_init_params get_dynamics_params get_observation_params inputs).
Proof.
move=> ok sok ne h0 hS.
have [st [E [L H]]] := @filter_exact_odd tria ok nx ny Inp Key _ _ _ split sok inputs parallel key ne (conj h0 hS).
exists st; split=> //; apply: Forall2_of_nth.
  by rewrite L; case: (inputs) ne => //= x xs _; rewrite kf_beliefs_length List.map_length.
by move=> t s b E1 E2; have [h1 h2 _ h3] := H _ _ _ E1 E2.
Qed.
Print Assumptions C61_noiseless_at_odd_times.

(** ** C82. Specification: the filter of a dynamax model, which updates the prior with y_0 and then alternates
    predict and update *)
Section Spec.
Variables (nx ny : nat) (m0 : 'cV[R]_nx) (P0 F : 'M[R]_nx) (c : 'cV[R]_nx) (Q : 'M[R]_nx)
  (H : 'M[R]_(ny, nx)) (d : 'cV[R]_ny) (Rn : 'M[R]_ny) (y : nat -> 'cV[option R]_ny).
Fixpoint dynamax_belief (t : nat) : belief nx :=
  match t with
  | 0%N => Belief (cond_mean m0 P0 (obs_rows (y 0) H) (obs_rows (y 0) d) (obs_block (y 0) Rn) (obs_values (y 0)))
               (cond_cov P0 (obs_rows (y 0) H) (obs_block (y 0) Rn))
               (gauss (obs_values (y 0)) (obs_rows (y 0) H *m m0 + obs_rows (y 0) d)
                  (innovation_cov P0 (obs_rows (y 0) H) (obs_block (y 0) Rn)))
  | t'.+1 => kf_step (dynamax_belief t') (LgStep F c Q H d Rn (y t))
  end.
End Spec.

Lemma nth_seq' a n t : (t < n)%coq_nat -> List.nth_error (List.seq a n) t = Some (a + t)%coq_nat.
Proof.
elim: n a t => [|n IH] a [|t] /= h; try lia.
- by rewrite PeanoNat.Nat.add_0_r.
- by rewrite IH; [congr Some; lia|lia].
Qed.

Theorem C82_dynamax_filter tria nx ny Key (split : Key -> nat -> list Key) m0 L0 F c Lq (H : 'M[R]_(ny, nx)) d X y
    (n : nat) (parallel : bool) key :
  tria_ok tria -> DriverSpec.split_ok split -> is_trig_mx L0 -> L0 \in unitmx -> Lq \in unitmx ->
  (forall t, obs_block (y t) (cov X) \in unitmx) ->
  exists states,
    ScanModel.filter split (@dynamax_filter nx ny m0 L0 F c Lq H d X y tria Key) (dynamax_inputs n) parallel key
      = ScanModel.Ok states /\ List.length states = n.+1 /\
    forall t s, List.nth_error states t.+1 = Some s ->
      let: b := dynamax_belief m0 (cov L0) F c (cov Lq) H d (cov X) y t in
      [/\ kf_mean s = bmean b, cov (kf_chol_cov s) = bcov b & kf_log_normalizing_constant s = bell b].
Proof.
move=> ok sok t0 u0 uq uR.
pose gi := dynamax_init_params m0 L0; pose gd := dynamax_dynamics_params F c Lq.
pose go := dynamax_observation_params H d X y.
have ne : dynamax_inputs n <> nil by [].
have [||st [E FF]] := @C61_noiseless_at_odd_times tria nx ny nat Key split gi gd go (dynamax_inputs n) parallel key ok sok ne.
- by move=> x _; split.
- move=> t x Ex; have lt := nth_lt Ex; rewrite List.seq_length in lt.
  move: Ex; rewrite nth_seq' // => -[<-] {x}.
  rewrite /step_of /gd /go /dynamax_dynamics_params /dynamax_observation_params /obsR.
  case: eqP => e /=; last by split; [exact: uR|left; rewrite /cov gram_unit].
  split; first exact: uR.
  by right; rewrite unitmx1; split=> //; have -> : t = 0%N by lia.
exists st; split=> //.
have L : List.length st = n.+1.
  by rewrite (Forall2_length' FF) /dynamax_inputs /= kf_beliefs_length List.map_length List.seq_length.
split=> // t s Es.
have lt := nth_lt Es; rewrite L in lt.
have nthE : List.nth_error (exact gi gd go (dynamax_inputs n)) t.+1
    = Some (dynamax_belief m0 (cov L0) F c (cov Lq) H d (cov X) y t).
  elim: t lt {Es s} => [|t IH] lt.
    rewrite /exact /dynamax_inputs /=; case: (n) lt => [|m] lt /=; first by lia.
    transitivity (Some (kf_step (init_belief gi 0%N) (step_of gd go 1%N))); first by case: (List.map _ _).
    congr Some; rewrite /kf_step /init_belief /pred_mean /pred_cov /step_of /obsH /obsd /obsR /obsy /=.
    by rewrite !mul1mx trmx1 mulmx1 addr0 /cov mul0mx addr0 add0r.
  have lt' : (t.+1 < n.+1)%coq_nat by lia.
  have Ex : List.nth_error (List.map (step_of gd go) (List.seq 1 n)) t.+1 = Some (step_of gd go t.+2).
    by rewrite List.nth_error_map nth_seq' //; lia.
  exact: (kf_beliefs_step Ex (IH lt')).
exact: Forall2_nth FF Es nthE.
Qed.
Print Assumptions C82_dynamax_filter.

(** the model of the example in two dimensions, every third observation missing *)
Example C82_case (parallel : bool) (n : nat) : exists states,
  ScanModel.filter tt_split (@dynamax_filter 2 1 0 1%:M (const_mx 1) 0 1%:M (const_mx 1) 0 1%:M
      (fun t => if (t %% 3 == 0)%N then const_mx None else const_mx (Some 1)) some_tria unit) (dynamax_inputs n) parallel None
    = ScanModel.Ok states /\ List.length states = n.+1.
Proof.
have [||||||st [E [L _]]] := @C82_dynamax_filter some_tria 2 1 unit tt_split 0 1%:M (const_mx 1) 0 1%:M (const_mx 1) 0 1%:M
  (fun t => if (t %% 3 == 0)%N then const_mx None else const_mx (Some 1)) n parallel None.
- exact: some_tria_ok.
- exact: tt_split_ok.
- exact: scalar_mx_is_trig.
- exact: unitmx1.
- exact: unitmx1.
- by move=> t; rewrite obs_block1 unitmx1.
by exists st.
Qed.
