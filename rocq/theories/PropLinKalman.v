(** C49, C50, C59: runs of the linearised filters. *)
From Coq Require Import Reals Lra List.
From mathcomp Require Import all_ssreflect all_algebra.
From Verif Require Import RStruct MxBase ZmodTac KalmanModel LinalgModel LinearizeModel LinKalmanModel GaussSpec KalmanSpec
  LinalgSpec LinearizeSpec LinSpec MvnProofs MvnProofs2 KalmanProofs LinearizeProofs LinearizeProofs2
  LinearizeProofs3 PropMvn PropLinearize InvSqrtProofs TriaExist KalmanRuns LinRuns LinObs PropLinObs ScanEven.
From Verif Require ScanModel DriverSpec DriverProofs.
Set Implicit Arguments.
Unset Strict Implicit.
Unset Printing Implicit Defensive.
Local Open Scope ring_scope.
Import GRing.Theory Num.Theory Order.Theory.

(** ** C49 for the moments filters *)
Lemma any_beliefsE nx ny (b : belief nx) (l : list (lgstep nx ny)) :
  any_beliefs b (List.map (fun s => existT _ ny s) l) = kf_beliefs b l.
Proof. by elim: l b => //= s l IH b; rewrite IH. Qed.

Section Moments.
Variable tria : forall m k : nat, 'M[R]_(m, k) -> 'M[R]_m.
Variable jacobian : forall n p, ('cV[option R]_n -> 'cV[option R]_p) -> 'cV[option R]_n -> 'M[option R]_(p, n).
Hypothesis tria_spec : tria_ok tria.
Hypothesis jac_spec : jacobian_ok jacobian.
Variables nx ny : nat.
Variables Inp Key : Type.
Variable split : Key -> nat -> list Key.
Hypothesis split_spec : DriverSpec.split_ok split.
Variables (dummy_mean : 'cV[R]_nx) (dummy_mx : 'M[R]_nx).
Notation St := (@LinState nx Inp).
Variable get_init_params : Inp -> 'cV[R]_nx * 'M[R]_nx.
Variable get_dynamics_params : St -> Inp -> moments_fn nx nx * 'cV[option R]_nx.
Variable get_observation_params : St -> Inp -> moments_fn nx ny * 'cV[option R]_nx * 'cV[option R]_ny.
(** the exact model: transition F x + c with noise factor L, observation H x + d with noise factor X *)
Variables (dynamics : Inp -> 'M[R]_nx * 'cV[R]_nx * 'M[R]_nx)
          (observation : Inp -> 'M[R]_(ny, nx) * 'cV[R]_ny * 'M[R]_ny * 'cV[option R]_ny).
Definition moments_step x : lgstep nx ny :=
  let: (F, c, Lq) := dynamics x in
  let: (H, d, X, y) := observation x in LgStep F c (cov Lq) H d (cov X) y.
(** at step input [x] the moments are those of the exact model, whatever the linearisation points *)
Definition affine_input x : Prop := forall s,
  (exists dyn p, get_dynamics_params s x = (dyn, map_mx Some p) /\
    let: (F, c, Lq) := dynamics x in affine_moments dyn F c Lq) /\
  (exists obs p, get_observation_params s x = (obs, map_mx Some p, (observation x).2) /\
    let: (H, d, X, _) := observation x in affine_moments obs H d X).
Definition moments_exact (inputs : list Inp) : list (belief nx) :=
  match inputs with
  | nil => nil
  | x :: rest => kf_beliefs (Belief (get_init_params x).1 (cov (get_init_params x).2) 0) (List.map moments_step rest)
  end.
Notation flt := (moments_build_filter (Key := Key) dummy_mean dummy_mx tria jacobian get_init_params get_dynamics_params
  get_observation_params).
Lemma linearize_affine n m (f : moments_fn n m) F c L (p : 'cV[R]_n) :
  affine_moments f F c L -> linearize_moments jacobian f (map_mx Some p) = (map_mx Some F, map_mx Some c, map_mx Some L).
Proof. by move=> h; exact: (C47_affine_exact p jac_spec h). Qed.
Lemma moments_exactE inputs : moments_exact inputs
  = lin_exact (fun x => Belief (get_init_params x).1 (cov (get_init_params x).2) 0) (fun x => existT _ ny (moments_step x)) inputs.
Proof. by case: inputs => //= x l; rewrite -any_beliefsE List.map_map. Qed.

Theorem C49_moments_sequential inputs key :
  inputs <> nil ->
  (forall t x, List.nth_error inputs t.+1 = Some x -> affine_input x /\ obsR (moments_step x) \in unitmx) ->
  exists states, ScanModel.filter split (flt false) inputs false key = ScanModel.Ok (List.map Some states) /\
    List.Forall2 (fun s b => [/\ lin_mean s = bmean b, cov (lin_chol_cov s) = bcov b & lin_ell s = bell b])
      states (moments_exact inputs).
Proof.
move=> ne af; rewrite moments_exactE; apply: (lin_seq_exact tria_spec split_spec) => // [x k _|t x k s Ex].
  by rewrite /= /moments_init_prepare; case: (get_init_params x) => m0 L0; eexists.
have [afx uR] := af _ _ Ex; move: uR; rewrite /moments_step /obsR /any_kf_step /=.
rewrite /moments_step.
case Ed: (dynamics x) => [[F c] Lq]; case Eo: (observation x) => [[[H d] X] y] /= uR.
exists ny, F, c, Lq, H, d, X, y; split=> // mp Lp m L ell Ep Eu.
have [[dyn [p [E1 h1]]] _] := afx s; rewrite Ed in h1.
rewrite /= /moments_combine /lin_pass_prepare [lin_inputs _]/= E1 (linearize_affine _ h1) /real_params !nan_free_some Ep.
set s1 := lin_state_dummy_elem _ _ _ _ _ _ _.
have [_ [obs [q [E2 h2]]]] := afx s1; rewrite Eo in h2 E2.
rewrite E2 (linearize_affine _ h2) /real_obs_params !nan_free_rows_some Eu; eexists; split; first by reflexivity.
by split.
Qed.
Theorem C49_moments_associative inputs (parallel : bool) key :
  inputs <> nil ->
  (forall x, List.nth_error inputs 0 = Some x -> is_trig_mx (get_init_params x).2 /\ (get_init_params x).2 \in unitmx) ->
  (forall t x, List.nth_error inputs t.+1 = Some x ->
    [/\ affine_input x, (dynamics x).2 \in unitmx & obsR (moments_step x) \in unitmx]) ->
  exists states, ScanModel.filter split (flt true) inputs parallel key = ScanModel.Ok (List.map Some states) /\
    List.Forall2 (fun s b => [/\ lin_mean s = bmean b, cov (lin_chol_cov s) = bcov b & lin_ell s = bell b])
      states (moments_exact inputs).
Proof.
move=> ne ini af; rewrite moments_exactE; apply: (lin_assoc_exact tria_spec split_spec) => // [x k Ex|t x k Ex].
  have [t u] := ini _ Ex; rewrite /= /moments_init_prepare; case: (get_init_params x) t u => m0 L0 /= t u.
  by exists m0, L0, dummy_mean.
have [afx uQ uR] := af _ _ Ex; move: uQ uR; rewrite /moments_step /obsR /any_kf_step /=.
rewrite /moments_step /moments_assoc_prepare.
case Ed: (dynamics x) => [[F c] Lq]; case Eo: (observation x) => [[[H d] X] y] /= uQ uR.
exists ny, F, c, Lq, H, d, X, y, dummy_mean.
have [[dyn [p [E1 h1]]] [obs [q [E2 h2]]]] := afx (lin_dummy_state dummy_mean dummy_mx x); rewrite Ed in h1; rewrite Eo in h2 E2.
by rewrite E1 E2 (linearize_affine _ h1) (linearize_affine _ h2) /= !nan_free_some !nan_free_rows_some.
Qed.
End Moments.
Print Assumptions C49_moments_sequential.
Print Assumptions C49_moments_associative.

(** ** C49 for the Taylor filters *)
Section Taylor.
Variable tria : forall m k : nat, 'M[R]_(m, k) -> 'M[R]_m.
Variable svd : forall n, 'M[R]_n -> 'M[R]_n * 'rV[R]_n.
Variable grad : forall n, ('cV[option R]_n -> option R) -> 'cV[option R]_n -> 'cV[option R]_n.
Variable jacobian : forall n p, ('cV[option R]_n -> 'cV[option R]_p) -> 'cV[option R]_n -> 'M[option R]_(p, n).
Hypothesis tria_spec : tria_ok tria.
Hypothesis grad_spec : grad_ok grad.
Hypothesis jac_spec : jacobian_ok jacobian.
Variables (rtol : R) (ignore : bool).
Hypothesis rtol0 : 0 <= rtol.
Variable nx : nat.
Hypothesis nx0 : (0 < nx)%N.
Variables Inp Key : Type.
Variable split : Key -> nat -> list Key.
Hypothesis split_spec : DriverSpec.split_ok split.
Variables (dummy_mean : 'cV[R]_nx) (dummy_mx : 'M[R]_nx).
Notation St := (@LinState nx Inp).
Variable get_init_log_density : Inp -> log_pot nx * 'cV[option R]_nx.
Variable get_dynamics_log_density : St -> Inp -> log_cond nx nx * 'cV[option R]_nx * 'cV[option R]_nx.
Variable get_observation_func : St -> Inp -> ObservationOutput nx.

(** an observation function stands for the linear observation [q]: a conditional density of a full or
    partial observation vector, or a Gaussian potential on all or some coordinates of the state *)
Inductive observes : ObservationOutput nx -> anyobs nx -> Prop :=
| ObsFull ny f p y (H : 'M[R]_(ny, nx)) d Rn : linear_gaussian f H d Rn -> recoverable svd rtol Rn ->
    observes (CondDensity f (map_mx Some p) (map_mx Some y)) (existT _ ny (H, d, Rn, map_mx Some y))
| ObsPartial ny f p y (H : 'M[R]_(ny, nx)) d Rn : ignore -> linear_gaussian_at f H d Rn y -> recoverable_at svd rtol y Rn ->
    observes (CondDensity f (map_mx Some p) y) (existT _ ny (H, d, Rn, y))
| ObsPotential f p m Rn : gaussian_potential f m Rn -> recoverable svd rtol Rn ->
    observes (Potential f (map_mx Some p)) (existT _ nx (1%:M, 0, Rn, map_mx Some m))
| ObsPotentialAt f p z Rn : ignore -> gaussian_potential_at f z Rn -> recoverable_at svd rtol z Rn ->
    observes (Potential f (map_mx Some p)) (existT _ nx (1%:M, 0, Rn, z)).
(** the exact model *)
Variables (init_mean : Inp -> 'cV[R]_nx) (init_cov : Inp -> 'M[R]_nx)
          (dynamics : Inp -> 'M[R]_nx * 'cV[R]_nx * 'M[R]_nx) (observation : Inp -> anyobs nx).
Definition taylor_step x : anystep nx := let: (F, c, Q) := dynamics x in any_step F c Q (observation x).
Definition taylor_exact (inputs : list Inp) : list (belief nx) :=
  match inputs with
  | nil => nil
  | x :: rest => any_beliefs (Belief (init_mean x) (init_cov x) 0) (List.map taylor_step rest)
  end.
Definition gaussian_init x : Prop := exists f p,
  [/\ get_init_log_density x = (f, map_mx Some p), gaussian_potential f (init_mean x) (init_cov x) &
      recoverable svd rtol (init_cov x)].
Definition gaussian_dynamics x : Prop := forall s, exists f p q,
  let: (F, c, Q) := dynamics x in
  [/\ get_dynamics_log_density s x = (f, map_mx Some p, map_mx Some q), linear_gaussian f F c Q & recoverable svd rtol Q].
(** both linearisation points NaN: the state does not move *)
Definition skipped_dynamics x : Prop :=
  (forall s, exists f, get_dynamics_log_density s x = (f, const_mx None, const_mx None)) /\ dynamics x = (1%:M, 0, 0).
Definition gaussian_observation x : Prop := forall s, observes (get_observation_func s x) (observation x).
Notation flt := (taylor_build_filter (Key := Key) dummy_mean dummy_mx tria jacobian svd grad rtol ignore
  get_init_log_density get_dynamics_log_density get_observation_func).

Lemma observes_acts o q : observes o q -> let: existT ny (H, d, Rn, y) := q in
  acts_like (process_observation tria jacobian svd grad rtol ignore o) H d Rn y.
Proof.
case=> [ny f p y H d Rn fE rc|ny f p y H d Rn -> fE rc|f p m Rn fE rc|f p z Rn -> fE rc].
- exact: acts_full.
- exact: acts_missing.
- exact: acts_potential.
- exact: acts_potential_at.
Qed.
Lemma taylor_initE x : gaussian_init x -> exists L, [/\ taylor_init tria jacobian svd grad rtol ignore get_init_log_density x
    = Some (init_mean x, L), is_trig_mx L & cov L = init_cov x].
Proof.
move=> [f [p [E [c fE] rc]]].
have lg : linear_gaussian (fun _ : 'cV[option R]_nx => f) (0 : 'M[R]_nx) (init_mean x) (init_cov x).
  by exists c => x0 y; rewrite fE mul0mx add0r.
have [L [EL t LL]] := C46_log_density_exact ignore p p tria_spec grad_spec jac_spec rtol0 lg rc.
by exists L; rewrite /taylor_init E EL !nan_free_some.
Qed.
Lemma taylor_dynamicsE s x : gaussian_dynamics x -> exists L,
  taylor_dynamics tria jacobian svd grad rtol ignore get_dynamics_log_density s x = Some ((dynamics x).1, L) /\
  cov L = (dynamics x).2 /\ L \in unitmx.
Proof.
move=> /(_ s) [f [p [q]]]; case Ed: (dynamics x) => [[F c] Q] [E fE rc].
have [L [EL t LL]] := C46_log_density_exact ignore p q tria_spec grad_spec jac_spec rtol0 fE rc.
exists L; rewrite /taylor_dynamics E EL.
have -> : [forall i, isnan ((map_mx Some q : 'cV[option R]_nx) i ord0)] = false.
  by apply/negbTE/forallPn; exists (Ordinal nx0); rewrite mxE.
rewrite /= !nan_free_some; split=> //; split=> //.
by rewrite -gram_unit LL; case: rc => pR _ _; exact: (@pd_unit R_realFieldType).
Qed.
Lemma taylor_skipE s x : skipped_dynamics x ->
  taylor_dynamics tria jacobian svd grad rtol ignore get_dynamics_log_density s x = Some (1%:M, 0, 0).
Proof.
move=> [/(_ s) [f E] _]; rewrite /taylor_dynamics E.
case: (linearize_log_density _ _ _ _ _ _ _ _ _) => [[F c] L].
have -> : [forall i, isnan ((const_mx None : 'cV[option R]_nx) i ord0)] = true by apply/forallP => i; rewrite mxE.
by rewrite /= !nan_free_some.
Qed.
Lemma taylor_exactE inputs : taylor_exact inputs
  = lin_exact (fun x => Belief (init_mean x) (init_cov x) 0) taylor_step inputs.
Proof. by []. Qed.

Theorem C49_taylor_sequential inputs key :
  inputs <> nil -> (forall x, List.nth_error inputs 0 = Some x -> gaussian_init x) ->
  (forall t x, List.nth_error inputs t.+1 = Some x ->
    (gaussian_dynamics x \/ skipped_dynamics x) /\ gaussian_observation x) ->
  exists states, ScanModel.filter split (flt false) inputs false key = ScanModel.Ok (List.map Some states) /\
    List.Forall2 (fun s b => [/\ lin_mean s = bmean b, cov (lin_chol_cov s) = bcov b & lin_ell s = bell b])
      states (taylor_exact inputs).
Proof.
move=> ne ini stp; rewrite taylor_exactE; apply: (lin_seq_exact tria_spec split_spec) => // [x k Ex|t x k s Ex].
  have [L [E t LL]] := taylor_initE (ini _ Ex); rewrite /= /taylor_init_prepare E; eexists; split; first by reflexivity.
  by split.
have [dyn obs] := stp _ _ Ex.
have [L [EL LQ]] : exists L, taylor_dynamics tria jacobian svd grad rtol ignore get_dynamics_log_density s x
    = Some ((dynamics x).1, L) /\ cov L = (dynamics x).2.
  case: dyn => [/(taylor_dynamicsE s) [L [E [LL _]]]|sk]; first by exists L.
  exists 0; rewrite (taylor_skipE s sk); have [_ ->] := sk; by rewrite /cov mul0mx.
case Ed: (dynamics x) EL LQ => [[F c] Q] /= EL LQ.
case Ep: (predict tria (lin_mean s) (lin_chol_cov s) F c L) => [mp Lp].
pose s1 := lin_state_dummy_elem dummy_mean dummy_mx mp Lp (lin_ell s) x (lin_mean s).
move: (observes_acts (obs s1)); rewrite /taylor_step /any_kf_step Ed.
case Eq: (observation x) => [ny [[[H d] Rn] y]] /=.
case Eo: (process_observation _ _ _ _ _ _ _) => [ny' H' d' X' y'] [Hr [dr [X [/= Er u st]]]].
exists ny', F, c, L, Hr, dr, X, y'; split=> //; last by move=> b; rewrite LQ st.
move=> mp' Lp' m L' ell; rewrite Ep => -[<- <-] Eu.
rewrite /taylor_combine /lin_pass_prepare [lin_inputs _]/= EL Ep -/s1 Eo.
move: Er; rewrite /real_obs_params => ->; rewrite Eu; eexists; split; first by reflexivity.
by split.
Qed.
(** the associative Taylor filter, sequential or parallel *)
Theorem C49_taylor_associative inputs (parallel : bool) key :
  inputs <> nil -> (forall x, List.nth_error inputs 0 = Some x -> gaussian_init x) ->
  (forall t x, List.nth_error inputs t.+1 = Some x -> gaussian_dynamics x /\ gaussian_observation x) ->
  exists states, ScanModel.filter split (flt true) inputs parallel key = ScanModel.Ok (List.map Some states) /\
    List.Forall2 (fun s b => [/\ lin_mean s = bmean b, cov (lin_chol_cov s) = bcov b & lin_ell s = bell b])
      states (taylor_exact inputs).
Proof.
move=> ne ini stp; rewrite taylor_exactE; apply: (lin_assoc_exact tria_spec split_spec) => // [x k Ex|t x k Ex].
  have gi := ini _ Ex; have [L [E t LL]] := taylor_initE gi; rewrite /= /taylor_assoc_init_prepare E.
  exists (init_mean x), L, dummy_mean; split=> //; first by rewrite LL.
  by rewrite -gram_unit -/(cov _) LL; case: gi => f [p [_ _ [pR _ _]]]; exact: (@pd_unit R_realFieldType).
have [dyn obs] := stp _ _ Ex; set s := lin_dummy_state dummy_mean dummy_mx x.
have [L [EL [LQ uL]]] := taylor_dynamicsE s dyn.
case Ed: (dynamics x) EL LQ => [[F c] Q] /= EL LQ.
move: (observes_acts (obs s)); rewrite /taylor_step /any_kf_step Ed.
case Eq: (observation x) => [ny [[[H d] Rn] y]] /=.
case Eo: (process_observation _ _ _ _ _ _ _) => [ny' H' d' X' y'] [Hr [dr [X [/= Er u st]]]].
exists ny', F, c, L, Hr, dr, X, y', dummy_mean; split=> //; last by move=> b; rewrite LQ st.
by rewrite /taylor_assoc_prepare -/s EL Eo; move: Er; rewrite /real_obs_params => ->.
Qed.
End Taylor.
Print Assumptions C49_taylor_sequential.
Print Assumptions C49_taylor_associative.

(** ** C50: mean_prev *)
Definition keeps_prev nx Inp Key (obj : ScanModel.Filter Inp Key (option (@LinState nx Inp))) : Prop :=
  forall s1 s2 s, ScanModel.filter_combine obj s1 s2 = Some s -> exists s0, s1 = Some s0 /\ lin_mean_prev s = lin_mean s0.
Lemma keeps_prev_sequential nx Inp Key (split : Key -> nat -> list Key)
    (obj : ScanModel.Filter Inp Key (option (@LinState nx Inp))) inputs key states t s :
  DriverSpec.split_ok split -> keeps_prev obj ->
  ScanModel.filter split obj inputs false key = ScanModel.Ok states ->
  List.nth_error states t.+1 = Some (Some s) ->
  exists s0, List.nth_error states t = Some (Some s0) /\ lin_mean_prev s = lin_mean s0.
Proof.
move=> ok kp E Es; have ne : inputs <> nil by move=> e; rewrite e in E.
have [st [E' [L [R0 RS]]]] := DriverProofs.filter_sequential _ ok obj inputs key ne.
move: E'; rewrite E => -[e]; rewrite -{}e {st} in L R0 RS.
have lt := nth_lt Es.
have [x Ex] : exists x, List.nth_error inputs t.+1 = Some x by apply: nth_ex; rewrite -L.
have [o Eo] : exists o, List.nth_error states t = Some o by apply: nth_ex; apply: PeanoNat.Nat.lt_trans lt; constructor.
move: Es; rewrite (RS t x o Ex Eo) => -[/kp [s0 [e h]]]; exists s0; by rewrite Eo e.
Qed.
Lemma keeps_prev_parallel nx Inp Key (split : Key -> nat -> list Key)
    (obj : ScanModel.Filter Inp Key (option (@LinState nx Inp))) inputs key states k s :
  DriverSpec.split_ok split -> keeps_prev obj ->
  ScanModel.filter split obj inputs true key = ScanModel.Ok states ->
  List.nth_error states (2 * k + 2) = Some (Some s) ->
  exists s0, List.nth_error states (2 * k + 1) = Some (Some s0) /\ lin_mean_prev s = lin_mean s0.
Proof.
move=> ok kp; case: inputs => [//|x xs]; rewrite /ScanModel.filter.
case: (ScanModel.prepare_keys _ _ _) => [//|k0 ks] [<-] Es.
have := nth_lt Es; rewrite ScanProofs.assoc_scan_length => lt.
have [e Ee] := nth_ex lt.
have [p [Ep E2]] := assoc_scan_even (ScanModel.filter_combine obj) _ _ _ Ee.
by move: Es; rewrite E2 => -[/kp [s0 [e0 h]]]; exists s0; rewrite Ep e0.
Qed.
Section Prev.
Variable tria : forall m k : nat, 'M[R]_(m, k) -> 'M[R]_m.
Variable svd : forall n, 'M[R]_n -> 'M[R]_n * 'rV[R]_n.
Variable grad : forall n, ('cV[option R]_n -> option R) -> 'cV[option R]_n -> 'cV[option R]_n.
Variable jacobian : forall n p, ('cV[option R]_n -> 'cV[option R]_p) -> 'cV[option R]_n -> 'M[option R]_(p, n).
Variables (rtol : R) (ignore : bool) (nx ny : nat) (Inp Key : Type) (dummy_mean : 'cV[R]_nx) (dummy_mx : 'M[R]_nx).
Notation St := (@LinState nx Inp).
Variable get_init_params : Inp -> 'cV[R]_nx * 'M[R]_nx.
Variable get_dynamics_params : St -> Inp -> moments_fn nx nx * 'cV[option R]_nx.
Variable get_observation_params : St -> Inp -> moments_fn nx ny * 'cV[option R]_nx * 'cV[option R]_ny.
Variable get_init_log_density : Inp -> log_pot nx * 'cV[option R]_nx.
Variable get_dynamics_log_density : St -> Inp -> log_cond nx nx * 'cV[option R]_nx * 'cV[option R]_nx.
Variable get_observation_func : St -> Inp -> ObservationOutput nx.
Variable associative : bool.
Notation moments := (moments_build_filter (Key := Key) dummy_mean dummy_mx tria jacobian get_init_params get_dynamics_params
  get_observation_params associative).
Notation taylor := (taylor_build_filter (Key := Key) dummy_mean dummy_mx tria jacobian svd grad rtol ignore
  get_init_log_density get_dynamics_log_density get_observation_func associative).
Lemma assoc_keeps (s1 s2 : option St) s : lin_assoc_combine tria s1 s2 = Some s ->
  exists s0, s1 = Some s0 /\ lin_mean_prev s = lin_mean s0.
Proof. by case: s1 => [s1|//]; case: s2 => [s2|//] [<-]; exists s1. Qed.
Lemma moments_keeps : keeps_prev moments.
Proof.
rewrite /keeps_prev /moments_build_filter; case: associative => /= s1 s2 s; first exact: assoc_keeps.
case: s1 => [s1|//]; case: s2 => [s2|//]; rewrite /moments_combine.
case: (get_dynamics_params _ _) => dyn pt; case: (real_params _) => [[[F c] L]|//].
case: (predict _ _ _ _ _ _) => mp Lp; case: (get_observation_params _ _) => [[obs q] y].
case: (real_obs_params _ _) => [[[H d] X]|//]; case: (update _ _ _ _ _ _ _ _) => [[m L'] ell] [<-].
by exists s1.
Qed.
Lemma taylor_keeps : keeps_prev taylor.
Proof.
rewrite /keeps_prev /taylor_build_filter; case: associative => /= s1 s2 s; first exact: assoc_keeps.
case: s1 => [s1|//]; case: s2 => [s2|//]; rewrite /taylor_combine.
case: (taylor_dynamics _ _ _ _ _ _ _ _) => [[[F c] L]|//].
case: (predict _ _ _ _ _ _) => mp Lp; case: (process_observation _ _ _ _ _ _ _) => n H d X y.
case: (real_obs_params _ _) => [[[H' d'] X']|//]; case: (update _ _ _ _ _ _ _ _) => [[m L'] ell] [<-].
by exists s1.
Qed.
End Prev.
(** sequential runs: all filters *)
Theorem C50_sequential tria svd grad jacobian rtol ignore nx ny Inp Key (split : Key -> nat -> list Key)
    dummy_mean dummy_mx ini (dyn : LinState nx -> Inp -> _) (obs : _ -> _ -> moments_fn nx ny * _ * _)
    linit ldyn lobs (associative : bool) (taylor : bool) inputs key states t s :
  DriverSpec.split_ok split ->
  let obj := if taylor
    then taylor_build_filter (Key := Key) dummy_mean dummy_mx tria jacobian svd grad rtol ignore linit ldyn lobs associative
    else moments_build_filter (Key := Key) dummy_mean dummy_mx tria jacobian ini dyn obs associative in
  ScanModel.filter split obj inputs false key = ScanModel.Ok states ->
  List.nth_error states t.+1 = Some (Some s) ->
  exists s0, List.nth_error states t = Some (Some s0) /\ lin_mean_prev s = lin_mean s0.
Proof.
move=> ok obj; apply: keeps_prev_sequential => //.
by rewrite /obj; case: taylor obj => _; [exact: taylor_keeps|exact: moments_keeps].
Qed.
Print Assumptions C50_sequential.
(** parallel runs: even times only *)
Theorem C50_parallel_even_partial tria svd grad jacobian rtol ignore nx ny Inp Key (split : Key -> nat -> list Key)
    dummy_mean dummy_mx ini (dyn : LinState nx -> Inp -> _) (obs : _ -> _ -> moments_fn nx ny * _ * _)
    linit ldyn lobs (associative : bool) (taylor : bool) inputs key states k s :
  DriverSpec.split_ok split ->
  let obj := if taylor
    then taylor_build_filter (Key := Key) dummy_mean dummy_mx tria jacobian svd grad rtol ignore linit ldyn lobs associative
    else moments_build_filter (Key := Key) dummy_mean dummy_mx tria jacobian ini dyn obs associative in
  ScanModel.filter split obj inputs true key = ScanModel.Ok states ->
  List.nth_error states (2 * k + 2)%coq_nat = Some (Some s) ->
  exists s0, List.nth_error states (2 * k + 1)%coq_nat = Some (Some s0) /\ lin_mean_prev s = lin_mean s0.
Proof.
move=> ok obj; apply: keeps_prev_parallel => //.
by rewrite /obj; case: taylor obj => _; [exact: taylor_keeps|exact: moments_keeps].
Qed.
Print Assumptions C50_parallel_even_partial.

(** the full statement is false: at time 3 the scan combines (0,1) with (2,3) *)
Definition walk_dyn (s : @LinState 1 unit) (x : unit) : moments_fn 1 1 * 'cV[option R]_1 :=
  (fun z => (map_mx Some (map_mx (odflt 0) z + const_mx 1), map_mx Some 1%:M), map_mx Some 0).
Definition walk_obs (s : @LinState 1 unit) (x : unit) : moments_fn 1 1 * 'cV[option R]_1 * 'cV[option R]_1 :=
  (fun z => (map_mx Some (map_mx (odflt 0) z), map_mx Some 1%:M), map_mx Some 0, const_mx None).
Definition walk_filter tria jacobian : ScanModel.Filter unit unit (option (@LinState 1 unit)) :=
  moments_build_filter 0 0 tria jacobian (fun _ : unit => (0 : 'cV[R]_1, 1%:M : 'M[R]_1)) walk_dyn walk_obs true.
Definition tt_split (k : unit) (n : nat) := List.repeat k n.
Lemma tt_split_ok : DriverSpec.split_ok tt_split. Proof. by move=> k n; exact: List.repeat_length. Qed.
Definition walk_inputs := tt :: tt :: tt :: tt :: nil.
Lemma none_observed n : size (observed (const_mx None : 'cV[option R]_n)) = 0%N.
Proof. by rewrite size_filter; apply/eqP; rewrite -leqn0 leqNgt -has_count; apply/hasPn => i _; rewrite mxE. Qed.
Lemma kf_step_none nx ny (b : belief nx) F c Q (H : 'M[R]_(ny, nx)) d Rn :
  bmean (kf_step b (LgStep F c Q H d Rn (const_mx None))) = F *m bmean b + c.
Proof. by rewrite /kf_step /= /cond_mean /obsy /obsH /= (mul_zero _ _ (none_observed ny)) addr0. Qed.
Lemma four A B (r : A -> B -> Prop) l b0 b1 b2 b3 : List.Forall2 r l (b0 :: b1 :: b2 :: b3 :: nil) ->
  exists a0 a1 a2 a3, [/\ l = a0 :: a1 :: a2 :: a3 :: nil, r a0 b0, r a1 b1, r a2 b2 & r a3 b3].
Proof.
move=> F; inversion F as [|a0 ? l0 ? h0 F0]; subst; inversion F0 as [|a1 ? l1 ? h1 F1]; subst.
inversion F1 as [|a2 ? l2 ? h2 F2]; subst; inversion F2 as [|a3 ? l3 ? h3 F3]; subst; inversion F3; subst.
by exists a0, a1, a2, a3.
Qed.
Lemma walk_exact tria jacobian parallel : tria_ok tria -> jacobian_ok jacobian ->
  exists s0 s1 s2 s3, ScanModel.filter tt_split (walk_filter tria jacobian) walk_inputs parallel None
    = ScanModel.Ok (Some s0 :: Some s1 :: Some s2 :: Some s3 :: nil) /\
    [/\ lin_mean s0 = const_mx 0, lin_mean s1 = const_mx 1, lin_mean s2 = const_mx 2%:R & lin_mean s3 = const_mx 3%:R].
Proof.
move=> ok jok.
have [//|x _|t x _|st [E F]] := @C49_moments_associative tria jacobian ok jok 1 1 unit unit tt_split tt_split_ok 0 0
  (fun=> (0, 1%:M)) walk_dyn walk_obs (fun=> (1%:M, const_mx 1, 1%:M)) (fun=> (1%:M, 0, 1%:M, const_mx None)) walk_inputs parallel None.
- by rewrite unitmx1 scalar_mx_is_trig.
- split; last first.
  + exact: unit_zero (none_observed 1).
  + by rewrite unitmx1.
  move=> s; split.
    exists (walk_dyn s x).1, 0; split=> // z; rewrite /= odflt_some mul1mx; by congr (_, _).
  exists (walk_obs s x).1.1, 0; split=> // z; by rewrite /= odflt_some mul1mx addr0.
move: F; set st0 : lgstep 1 1 := LgStep 1%:M (const_mx 1) (cov 1%:M) 1%:M 0 (cov 1%:M) (const_mx None).
have [b0 e0] : exists b, b = Belief (0 : 'cV[R]_1) (cov 1%:M) 0 by eexists.
rewrite [moments_exact _ _ _ _](_ : _ = kf_beliefs b0 (st0 :: st0 :: st0 :: nil)); last by rewrite e0.
rewrite /kf_beliefs.
have [b1 e1] : exists b, b = kf_step b0 st0 by eexists.
have [b2 e2] : exists b, b = kf_step b1 st0 by eexists.
have [b3 e3] : exists b, b = kf_step b2 st0 by eexists.
rewrite -e1 -e2 -e3 => F4; have [s0 [s1 [s2 [s3 [e [h0 _ _] [h1 _ _] [h2 _ _] [h3 _ _]]]]]] := four F4.
exists s0, s1, s2, s3; rewrite E e; split=> //.
rewrite h0 h1 h2 h3 e3 kf_step_none e2 kf_step_none e1 kf_step_none e0 /= !mul1mx.
split; apply/matrixP => i j; rewrite !mxE ?add0r //.
by rewrite -addrA addrC [RHS]mulrS addrC -mulr2n.
Qed.
Lemma parallel_four Inp Key St (split : Key -> nat -> list Key) (obj : ScanModel.Filter Inp Key St) x0 x1 x2 x3 :
  let f := ScanModel.filter_combine obj in
  exists e0 e1 e2 e3, ScanModel.filter split obj (x0 :: x1 :: x2 :: x3 :: nil) true None
    = ScanModel.Ok (e0 :: f e0 e1 :: f (f e0 e1) e2 :: f (f e0 e1) (f e2 e3) :: nil).
Proof. by do 4 eexists; reflexivity. Qed.
Theorem C50_parallel_refuted : exists (tria : forall m k : nat, 'M[R]_(m, k) -> 'M[R]_m) jacobian states s2 s3,
  [/\ tria_ok tria, jacobian_ok jacobian,
      ScanModel.filter tt_split (walk_filter tria jacobian) walk_inputs true None = ScanModel.Ok states,
      List.nth_error states 2 = Some (Some s2) & List.nth_error states 3 = Some (Some s3) /\ lin_mean_prev s3 <> lin_mean s2].
Proof.
have [s0 [s1 [s2 [s3 [E [m0 m1 m2 m3]]]]]] := @walk_exact some_tria some_jacobian true (@some_tria_ok) some_jacobian_ok.
exists some_tria, some_jacobian; do 3 eexists; split; [exact: some_tria_ok|exact: some_jacobian_ok|exact E|by []|split=> //].
have -> : lin_mean_prev s3 = lin_mean s1.
  have [e0 [e1 [e2 [e3 E']]]] := parallel_four tt_split (walk_filter some_tria some_jacobian) tt tt tt tt.
  have [_ h1 _ h3] : [/\ e0 = Some s0, ScanModel.filter_combine (walk_filter some_tria some_jacobian) e0 e1 = Some s1, True &
      ScanModel.filter_combine (walk_filter some_tria some_jacobian)
        (ScanModel.filter_combine (walk_filter some_tria some_jacobian) e0 e1)
        (ScanModel.filter_combine (walk_filter some_tria some_jacobian) e2 e3) = Some s3].
    by move: E; rewrite [ScanModel.filter _ _ _ _ _]E' => -[-> <- _ <-].
  have [s [es ->]] := assoc_keeps h3.
  by move: es; rewrite h1 => -[->].
rewrite m1 m2 => /matrixP /(_ ord0 ord0); rewrite !mxE => /eqP.
by rewrite eq_sym -subr_eq0 -[X in _ - X](mulr1n 1) -natrB ?pnatr_eq0.
Qed.
Print Assumptions C50_parallel_refuted.
