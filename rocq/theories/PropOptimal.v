(** Property C66: covariances of the Kalman filter and smoother are minimal. *)
From Coq Require Import Reals Lra Lia List.
From mathcomp Require Import all_ssreflect all_algebra.
From Verif Require Import RStruct MxBase ZmodTac KalmanModel GaussSpec KalmanSpec LinearFilterSpec MvnProofs MvnProofs2
  KalmanProofs BayesProofs TriaExist FilterOp ScanStep KalmanRuns SmootherProofs Trajectory LinearFilter PropKalman
  PropSmoothing PropSingular.
From Verif Require ScanModel DriverSpec DriverProofs.
Set Implicit Arguments.
Unset Strict Implicit.
Unset Printing Implicit Defensive.
Local Open Scope ring_scope.
Import GRing.Theory Num.Theory Order.Theory.

Section Helpers.
Variables (nx ny : nat) (Inp Key : Type).
Variables (get_init_params : Inp -> 'cV[R]_nx * 'M[R]_nx) (get_dynamics_params : Inp -> 'M[R]_nx * 'cV[R]_nx * 'M[R]_nx)
    (get_observation_params : Inp -> 'M[R]_(ny, nx) * 'cV[R]_ny * 'M[R]_ny * 'cV[option R]_ny).
Lemma step_of_ok x : regular get_dynamics_params get_observation_params x ->
  step_ok (step_of get_dynamics_params get_observation_params x).
Proof.
rewrite /regular /step_ok /step_of.
case: (get_dynamics_params x) => [[F c] Lq]; case: (get_observation_params x) => [[[H d] X] y] /= u.
split=> //; first exact: gram_psd.
by rewrite /obsR /= /cov obs_block_gram; exact: gram_psd.
Qed.
Lemma init_psd x : psd (bcov (init_belief get_init_params x)).
Proof. by rewrite /init_belief; case: (get_init_params x) => m L; exact: gram_psd. Qed.
End Helpers.

(** whatever gains a linear recursive estimator uses, its error covariance is at least the filter's *)
Theorem C66_minimum_variance tria (nx ny : nat) (Inp Key : Type)
    (get_init_params : Inp -> 'cV[R]_nx * 'M[R]_nx)
    (get_dynamics_params : Inp -> 'M[R]_nx * 'cV[R]_nx * 'M[R]_nx)
    (get_observation_params : Inp -> 'M[R]_(ny, nx) * 'cV[R]_ny * 'M[R]_ny * 'cV[option R]_ny)
    (split : Key -> nat -> list Key) (x0 : Inp) (rest : list Inp) (parallel : bool) (key : option Key) states
    (gain : nat -> forall y : 'cV[option R]_ny, 'M[R]_(nx, size (observed y))) t s P :
  tria_ok tria -> DriverSpec.split_ok split ->
  let step := step_of get_dynamics_params get_observation_params in
  (forall x, List.In x rest -> obsH (step x) *m lQ (step x) *m (obsH (step x))^T + obsR (step x) \in unitmx) ->
  ScanModel.filter split (kalman_build_filter tria (Key := Key) get_init_params get_dynamics_params get_observation_params)
      (x0 :: rest) parallel key = ScanModel.Ok states ->
  List.nth_error states t = Some s ->
  List.nth_error (error_covs gain 0 (cov (get_init_params x0).2) (List.map step rest)) t = Some P ->
  at_most (cov (kf_chol_cov s)) P.
Proof.
move=> ok sok step reg E Es EP.
have reg' : forall t x, List.nth_error (x0 :: rest) (S t) = Some x -> regular get_dynamics_params get_observation_params x.
  by move=> u x /= /(@List.nth_error_In _ _ _ _); exact: reg.
have [st [E' F]] := C61_singular_moments get_init_params parallel key ok sok (fun e : x0 :: rest = nil => @List.nil_cons _ x0 rest (esym e)) reg'.
move: E; rewrite E' => - [] e; subst st.
have [b Eb] : exists b, List.nth_error (exact get_init_params get_dynamics_params get_observation_params (x0 :: rest)) t = Some b.
  by apply: nth_ex; rewrite -(Forall2_length' F); exact: nth_lt Es.
have [_ ->] := Forall2_nth F Es Eb.
apply: (minimum_variance (k := 0) (b := init_belief get_init_params x0) _ _ _ Eb EP).
- exact: init_psd.
- by rewrite /init_belief; case: (get_init_params x0) => m L /=; exact: at_most_refl.
- by move=> s0 /List.in_map_iff [x [<- h]]; apply: step_of_ok; exact: reg.
Qed.
Print Assumptions C66_minimum_variance.

(** observing more entries, whatever their values, never increases a filtering covariance *)
Theorem C66_more_observations tria (nx ny : nat) (Inp Key : Type)
    (get_init_params : Inp -> 'cV[R]_nx * 'M[R]_nx)
    (get_dynamics_params : Inp -> 'M[R]_nx * 'cV[R]_nx * 'M[R]_nx)
    (obs obs' : Inp -> 'M[R]_(ny, nx) * 'cV[R]_ny * 'M[R]_ny * 'cV[option R]_ny)
    (split split' : Key -> nat -> list Key) (inputs : list Inp) (parallel parallel' : bool) (key key' : option Key)
    states states' t s s' :
  tria_ok tria -> DriverSpec.split_ok split -> DriverSpec.split_ok split' ->
  (forall x, let: (H, d, Lr, y) := obs x in let: (H', d', Lr', y') := obs' x in
     [/\ H = H', cov Lr = cov Lr' & forall i, isSome (y' i ord0) -> isSome (y i ord0)]) ->
  (forall x o, List.In x (List.tl inputs) -> List.In o [:: obs; obs'] -> let: st := step_of get_dynamics_params o x in
     obsH st *m lQ st *m (obsH st)^T + obsR st \in unitmx) ->
  ScanModel.filter split (kalman_build_filter tria (Key := Key) get_init_params get_dynamics_params obs)
      inputs parallel key = ScanModel.Ok states ->
  ScanModel.filter split' (kalman_build_filter tria (Key := Key) get_init_params get_dynamics_params obs')
      inputs parallel' key' = ScanModel.Ok states' ->
  List.nth_error states t = Some s -> List.nth_error states' t = Some s' ->
  at_most (cov (kf_chol_cov s)) (cov (kf_chol_cov s')).
Proof.
move=> ok sok sok' sub reg E E' Es Es'.
have ne : inputs <> nil.
  by move=> e; move: E Es; rewrite e /ScanModel.filter /=; case: parallel.
have reg1 o : List.In o [:: obs; obs'] -> forall t x, List.nth_error inputs (S t) = Some x -> regular get_dynamics_params o x.
  move=> ho u x Ex; apply: reg ho; case: (inputs) Ex => //= a l; exact: List.nth_error_In.
have r1 := reg1 obs (or_introl erefl); have r2 := reg1 obs' (or_intror (or_introl erefl)).
have [st [F1 F]] := C61_singular_moments get_init_params parallel key ok sok ne r1.
have [st' [F1' F']] := C61_singular_moments get_init_params parallel' key' ok sok' ne r2.
move: E E'; rewrite F1 F1' => - [] e [] e'; subst st st'.
case: inputs ne reg {reg1} r1 r2 F F' {F1 F1'} => // x0 rest _ reg r1 r2 F F'.
have [b Eb] : exists b, List.nth_error (exact get_init_params get_dynamics_params obs (x0 :: rest)) t = Some b.
  by apply: nth_ex; rewrite -(Forall2_length' F); exact: nth_lt Es.
have [b' Eb'] : exists b, List.nth_error (exact get_init_params get_dynamics_params obs' (x0 :: rest)) t = Some b.
  by apply: nth_ex; rewrite -(Forall2_length' F'); exact: nth_lt Es'.
have [_ ->] := Forall2_nth F Es Eb; have [_ ->] := Forall2_nth F' Es' Eb'.
apply: (more_observations _ _ _ _ _ _ Eb Eb'); try exact: init_psd; try exact: at_most_refl.
- elim: (rest) => [|x l IH] /=; constructor=> //.
  rewrite /sees_more /step_of; move: (sub x); case: (get_dynamics_params x) => [[G c] Lq].
  by case: (obs x) => [[[H d] Lr] y]; case: (obs' x) => [[[H' d'] Lr'] y'] /= [].
- by move=> s0 /List.in_map_iff [x [<- h]]; apply: step_of_ok; apply: reg => //; left.
- by move=> s0 /List.in_map_iff [x [<- h]]; apply: step_of_ok; apply: reg => //; right; left.
Qed.
Print Assumptions C66_more_observations.

(** the update never increases the predicted covariance *)
Theorem C66_update_below_prediction tria (nx ny : nat) (Inp Key : Type)
    (get_init_params : Inp -> 'cV[R]_nx * 'M[R]_nx)
    (get_dynamics_params : Inp -> 'M[R]_nx * 'cV[R]_nx * 'M[R]_nx)
    (get_observation_params : Inp -> 'M[R]_(ny, nx) * 'cV[R]_ny * 'M[R]_ny * 'cV[option R]_ny)
    (split : Key -> nat -> list Key) (inputs : list Inp) (parallel : bool) (key : option Key) states t s s' x F c Lq :
  tria_ok tria -> DriverSpec.split_ok split ->
  (forall t x, List.nth_error inputs (S t) = Some x ->
     let: st := step_of get_dynamics_params get_observation_params x in
     obsH st *m lQ st *m (obsH st)^T + obsR st \in unitmx) ->
  ScanModel.filter split (kalman_build_filter tria (Key := Key) get_init_params get_dynamics_params get_observation_params)
      inputs parallel key = ScanModel.Ok states ->
  List.nth_error states t = Some s -> List.nth_error states (S t) = Some s' ->
  List.nth_error inputs (S t) = Some x -> get_dynamics_params x = (F, c, Lq) ->
  at_most (cov (kf_chol_cov s')) (F *m cov (kf_chol_cov s) *m F^T + cov Lq).
Proof.
move=> ok sok reg E Es Es' Ex Ed.
have ne : inputs <> nil by move=> e; rewrite e in Ex.
have [st [E' FF]] := C61_singular_moments get_init_params parallel key ok sok ne reg.
move: E; rewrite E' => - [] e; subst st.
case: inputs ne reg Ex FF {E'} => // x0 rest _ reg Ex FF.
have [b Eb] : exists b, List.nth_error (exact get_init_params get_dynamics_params get_observation_params (x0 :: rest)) t = Some b.
  by apply: nth_ex; rewrite -(Forall2_length' FF); exact: nth_lt Es.
have Ex' : List.nth_error (List.map (step_of get_dynamics_params get_observation_params) rest) t
    = Some (step_of get_dynamics_params get_observation_params x) by rewrite List.nth_error_map (Ex : List.nth_error rest t = _).
have Eb' := kf_beliefs_step Ex' Eb.
have [_ ->] := Forall2_nth FF Es Eb; have [_ ->] := Forall2_nth FF Es' Eb'.
have okx : step_ok (step_of get_dynamics_params get_observation_params x) by apply: step_of_ok; exact: (reg t).
have pb : psd (bcov b).
  apply: (beliefs_psd (init_psd get_init_params x0) _ Eb) => s0 /List.in_map_iff [z [<- h]].
  by apply: step_of_ok; have [u Eu] := List.In_nth_error _ _ h; exact: (reg u).
have := kf_step_below pb okx; rewrite /pred_cov /step_of Ed.
by case: (get_observation_params x) => [[[H d] X] y].
Qed.
Print Assumptions C66_update_below_prediction.

(** smoothing never increases a filtering covariance, in any combination of modes *)
Theorem C66_smoother_below_filter tria (nx ny : nat) (Inp Key : Type)
    (get_init_params : Inp -> 'cV[R]_nx * 'M[R]_nx)
    (get_dynamics_params : Inp -> 'M[R]_nx * 'cV[R]_nx * 'M[R]_nx)
    (get_observation_params : Inp -> 'M[R]_(ny, nx) * 'cV[R]_ny * 'M[R]_ny * 'cV[option R]_ny)
    (split : Key -> nat -> list Key) (dummy_like : Inp -> Inp) (inputs_of : @KalmanFilterState nx Inp -> Inp)
    (dummy_mx : 'M[R]_nx) (store_gain store_cov : bool) (x0 : Inp) (rest : list Inp)
    (parallel parallel' : bool) (key key' : option Key) filtered smoothed :
  tria_ok tria -> DriverSpec.split_ok split -> rest <> nil ->
  (forall x, List.In x rest ->
     let: st := step_of get_dynamics_params get_observation_params x in
     obsH st *m lQ st *m (obsH st)^T + obsR st \in unitmx) ->
  ScanModel.filter split (kalman_build_filter tria (Key := Key) get_init_params get_dynamics_params get_observation_params)
      (x0 :: rest) parallel key = ScanModel.Ok filtered ->
  (forall t f x F c Lq, List.nth_error filtered t = Some f -> List.nth_error rest t = Some x ->
     get_dynamics_params x = (F, c, Lq) -> F *m cov (kf_chol_cov f) *m F^T + cov Lq \in unitmx) ->
  ScanModel.smoother split dummy_like inputs_of
    (kalman_build_smoother tria (Key := Key) get_dynamics_params dummy_like dummy_mx store_gain store_cov)
    filtered (Some rest) parallel' key' = ScanModel.Ok smoothed ->
  forall t f s, List.nth_error filtered t = Some f -> List.nth_error smoothed t = Some s ->
  at_most (cov (ks_chol_cov s)) (cov (kf_chol_cov f)).
Proof.
move=> ok sok ner reg E uP E'.
have reg' : forall t x, List.nth_error (x0 :: rest) (S t) = Some x -> regular get_dynamics_params get_observation_params x.
  by move=> u x /= /(@List.nth_error_In _ _ _ _); exact: reg.
have len : List.length filtered = S (List.length rest).
  have [st [E1 FF]] := C61_singular_moments get_init_params parallel key ok sok
    (fun e : x0 :: rest = nil => @List.nil_cons _ x0 rest (esym e)) reg'.
  move: E; rewrite E1 => - [] e; subst st.
  by rewrite (Forall2_length' FF) /= kf_beliefs_length List.map_length.
have [st [E1 [Ls [Hlast Hstep]]]] := C17_smoother_run_exact dummy_like inputs_of dummy_mx store_gain store_cov parallel' key' ok sok ner len uP.
move: E'; rewrite E1 => - [] e; subst st.
have below : forall k t f s, (t + k)%N = List.length rest -> List.nth_error filtered t = Some f -> List.nth_error smoothed t = Some s ->
    at_most (cov (ks_chol_cov s)) (cov (kf_chol_cov f)); last first.
  move=> t f s Ef Es; apply: (below (List.length rest - t)%N t f s _ Ef Es).
  by have := nth_lt Ef; rewrite len => /ssrnat.leP h; rewrite subnKC.
elim=> [|k IH] t f s ek Ef Es.
  by move: ek; rewrite addn0 => ek; subst t; have [_ ->] := Hlast _ _ Ef Es; exact: at_most_refl.
have lt : (t < List.length rest)%coq_nat by apply/ssrnat.ltP; rewrite -ek addnS ltnS leq_addr.
have [x Ex] := nth_ex lt.
have [f' Ef'] : exists f', List.nth_error filtered (S t) = Some f' by apply: nth_ex; rewrite len; lia.
have [s' Es'] : exists s', List.nth_error smoothed (S t) = Some s' by apply: nth_ex; rewrite Ls; lia.
case Ed: (get_dynamics_params x) => [[F c] Lq].
have [_ -> _ _] := Hstep _ _ _ _ _ _ _ _ Ef Ex Es Es' Ed.
apply: rts_below; apply: at_most_trans (IH (S t) f' s' _ Ef' Es') _; first by rewrite addSn -addnS.
exact: (C66_update_below_prediction ok sok reg' E Ef Ef' (Ex : List.nth_error (x0 :: rest) (S t) = Some x) Ed).
Qed.
Print Assumptions C66_smoother_below_filter.

(** demo run: hypotheses hold for a run of any length; a zero gain is a competitor *)
Example C66_hypotheses_met (T : nat) :
  (forall x, List.In x (iota 1 T) -> let: st := step_of demo_dyn demo_obs x in
     obsH st *m lQ st *m (obsH st)^T + obsR st \in unitmx) /\
  (forall (L : 'M[R]_2) t, let: (F, c, Lq) := demo_dyn t in F *m cov L *m F^T + cov Lq \in unitmx) /\
  (exists v, ~~ (variance (error_cov_step (fun _ y => 0) 0 0 (step_of demo_dyn demo_obs 1%N)) v <= 0)).
Proof.
split; last split.
- move=> x _; apply: (@nondegenerate_regular _ _ _ demo_dyn demo_obs x); rewrite /step_of /= /obsR /= ?obs_block1 ?cov1 unitmx1 //.
- by move=> L t; exact: (C17_hypotheses_met 0 L t).
- exists (const_mx 1).
  rewrite /error_cov_step /variance /step_of /= mul0mx subr0 mulmx0 !mul0mx trmx1 mulmx1 mul1mx add0r addr0 cov1 mulmx1.
  by rewrite !mxE !big_ord_recl big_ord0 !mxE -ltNge !mulr1 addr0 addr_gt0 ?ltr01.
Qed.
