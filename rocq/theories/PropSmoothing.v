(** Properties C16-C20: Kalman smoothing and posterior sampling. *)
From Coq Require Import Reals Lra Lia List.
From mathcomp Require Import all_ssreflect all_algebra.
From Verif Require Import RStruct MxBase ZmodTac KalmanModel GaussSpec KalmanSpec MvnProofs MvnProofs2
  KalmanProofs BayesProofs TriaExist FilterOp ScanStep KalmanRuns SmootherProofs Trajectory SamplerProofs PropKalman.
From Verif Require ScanModel DriverSpec DriverProofs.
Set Implicit Arguments.
Unset Strict Implicit.
Unset Printing Implicit Defensive.
Local Open Scope ring_scope.
Import GRing.Theory Num.Theory Order.Theory.

(** C16 *)
Theorem C16_smoother_update tria (nx : nat) (m : 'cV[R]_nx) (chol_P : 'M[R]_nx) (ms : 'cV[R]_nx)
    (chol_Ps F : 'M[R]_nx) (c : 'cV[R]_nx) (chol_Q : 'M[R]_nx) mean chol gain :
  tria_ok tria ->
  let P := cov chol_P in
  let Pp := F *m P *m F^T + cov chol_Q in
  let G := P *m F^T *m invmx Pp in
  Pp \in unitmx ->
  smoother_update tria m chol_P ms chol_Ps F c chol_Q = (mean, chol, gain) ->
  [/\ mean = m + G *m (ms - (F *m m + c)), is_trig_mx chol,
      cov chol = P + G *m (cov chol_Ps - Pp) *m G^T & gain = G].
Proof. by move=> ok P Pp G u E; exact: (smoother_updateE ok u E). Qed.
Print Assumptions C16_smoother_update.
(** the scan elements give the same result, whatever the [E] of the later element *)
Theorem C16_scan_pair tria (nx : nat) (m : 'cV[R]_nx) (chol_P : 'M[R]_nx) (ms : 'cV[R]_nx)
    (chol_Ps F E0 : 'M[R]_nx) (c : 'cV[R]_nx) (chol_Q : 'M[R]_nx) mean chol gain :
  tria_ok tria -> F *m cov chol_P *m F^T + cov chol_Q \in unitmx ->
  smoother_update tria m chol_P ms chol_Ps F c chol_Q = (mean, chol, gain) ->
  let prepared := smoother_params tria m chol_P F c chol_Q in
  let e := smoothing_operator tria (MkSSE ms E0 chol_Ps) prepared in
  [/\ sg e = mean, is_trig_mx (sD e), cov (sD e) = cov chol, sE prepared = gain & sE e = gain *m E0].
Proof.
move=> ok u E prepared e; have [-> _ -> ->] := smoother_updateE ok u E.
have [p1 _ _ _] := smoother_paramsE (c := c) (m := m) ok u erefl.
by have [-> t -> ->] := smoother_pair (c := c) (m := m) ok u (ms := ms) (E0 := E0) (Ls := chol_Ps) erefl; split.
Qed.
Print Assumptions C16_scan_pair.
(** the prepared element is the conditional law of x given the next state x' *)
Theorem C16_prepared_is_conditional tria (nx : nat) (m : 'cV[R]_nx) (chol_P F : 'M[R]_nx) (c : 'cV[R]_nx)
    (chol_Q : 'M[R]_nx) (x x' : 'cV[R]_nx) :
  tria_ok tria -> chol_P \in unitmx -> chol_Q \in unitmx ->
  let e := smoother_params tria m chol_P F c chol_Q in
  let P := cov chol_P in let Q := cov chol_Q in
  gauss x' (F *m x + c) Q + gauss x m P
  = gauss x' (F *m m + c) (F *m P *m F^T + Q) + gauss x (sE e *m x' + sg e) (cov (sD e)).
Proof.
move=> ok uP uQ e P Q; have pP : pd P := unit_pd uP; have pQ : pd Q := unit_pd uQ.
have u : F *m P *m F^T + Q \in unitmx by apply: pd_unit; apply: (innov_pd F (pd_psd pP) pQ).
have [-> -> _ ->] := smoother_paramsE (c := c) (m := m) ok u erefl.
rewrite addrC (gauss_split F m x c x' pP pQ) /innovation_cov; congr (_ + _).
have h := rts_condE (covT chol_P) (covT chol_Q) u; rewrite /rts_cond_cov /rts_gain /rts_pred in h.
rewrite /P /Q h; congr (gauss _ _ _); rewrite /cond_mean /kalman_gain /innovation_cov mulmxBr.
by rewrite addrCA [RHS]addrC !addrA [RHS]addrC !addrA.
Qed.
Print Assumptions C16_prepared_is_conditional.
Example C16_hypotheses_met (n : nat) : (1%:M : 'M[R]_n) \in unitmx /\
  (1%:M *m cov (1%:M : 'M[R]_n) *m 1%:M^T + cov (1%:M : 'M[R]_n)) \in unitmx /\
  (1%:M *m cov (0 : 'M[R]_n) *m 1%:M^T + cov (1%:M : 'M[R]_n)) \in unitmx.
Proof. exact: C11_hypotheses_met. Qed.

(** C17 *)
Theorem C17_operator_associative tria (nx : nat) (e1 e2 e3 : SmootherScanElement nx) :
  tria_ok tria ->
  let l := smoothing_operator tria (smoothing_operator tria e1 e2) e3 in
  let r := smoothing_operator tria e1 (smoothing_operator tria e2 e3) in
  [/\ sg l = sg r, sE l = sE r & sD l *m (sD l)^T = sD r *m (sD r)^T].
Proof. by move=> ok l r; have [h1 h2 h3] := smoothing_op_assoc ok e1 e2 e3; split; [exact: h1|exact: h2|exact: h3]. Qed.
Print Assumptions C17_operator_associative.
Theorem C17_parallel_is_sequential tria (nx : nat) (Inp Key : Type)
    (get_dynamics_params : Inp -> 'M[R]_nx * 'cV[R]_nx * 'M[R]_nx)
    (split : Key -> nat -> list Key) (dummy_like : Inp -> Inp)
    (inputs_of : @KalmanFilterState nx Inp -> Inp) (dummy_mx : 'M[R]_nx) (store_gain store_cov : bool)
    (fs : list (@KalmanFilterState nx Inp)) (trans : list Inp) (key : option Key) :
  tria_ok tria -> DriverSpec.split_ok split ->
  trans <> nil -> List.length fs = S (List.length trans) ->
  let sm := kalman_build_smoother tria (Key := Key) get_dynamics_params dummy_like dummy_mx store_gain store_cov in
  exists ps ss,
    ScanModel.smoother split dummy_like inputs_of sm fs (Some trans) true key = ScanModel.Ok ps /\
    ScanModel.smoother split dummy_like inputs_of sm fs (Some trans) false key = ScanModel.Ok ss /\
    List.length ps = List.length fs /\ List.length ss = List.length fs /\
    forall t p s, List.nth_error ps t = Some p -> List.nth_error ss t = Some s ->
      [/\ ks_mean p = ks_mean s, cov (ks_chol_cov p) = cov (ks_chol_cov s), ks_gain p = ks_gain s &
          ks_chol_cov_given_next p = ks_chol_cov_given_next s].
Proof.
move=> ok sok ne len sm.
have [ps [ss [Ep [Es F]]]] := DriverProofs.smoother_parallel _ sok dummy_like inputs_of sm _ _ fs trans key ne len
   (ks_assoc ok Key get_dynamics_params dummy_like dummy_mx store_gain store_cov) (fun _ _ _ _ => I) (fun _ _ _ _ _ _ => I).
have [x0 Ex0] : exists x, List.nth_error trans 0 = Some x by apply: nth_ex; case: (trans) ne => //= *; lia.
have [ss' [Es' [_ [L1 _]]]] := DriverProofs.smoother_sequential _ sok dummy_like inputs_of sm fs trans x0 trans key
  ne len Ex0 (or_introl erefl).
move: Es'; rewrite Es => -[e]; subst ss'.
exists ps, ss; split=> //; split=> //; split; first by rewrite (Forall2_length' F) L1 len.
split; first by rewrite L1 len.
move=> t p s Et Et'; have [e1 e2 e3 _] := Forall2_nth F Et Et'.
by move: e1; rewrite /sdec /ks_mean /ks_chol_cov => -[-> _ ->].
Qed.
Print Assumptions C17_parallel_is_sequential.
(** a smoothing pass, in either mode, is the Rauch-Tung-Striebel recursion on means and covariances *)
Theorem C17_smoother_run_exact tria (nx : nat) (Inp Key : Type)
    (get_dynamics_params : Inp -> 'M[R]_nx * 'cV[R]_nx * 'M[R]_nx)
    (split : Key -> nat -> list Key) (dummy_like : Inp -> Inp)
    (inputs_of : @KalmanFilterState nx Inp -> Inp) (dummy_mx : 'M[R]_nx) (store_gain store_cov : bool)
    (fs : list (@KalmanFilterState nx Inp)) (trans : list Inp) (parallel : bool) (key : option Key) :
  tria_ok tria -> DriverSpec.split_ok split ->
  trans <> nil -> List.length fs = S (List.length trans) ->
  (forall t f x F c Lq, List.nth_error fs t = Some f -> List.nth_error trans t = Some x ->
     get_dynamics_params x = (F, c, Lq) -> rts_pred (cov (kf_chol_cov f)) F (cov Lq) \in unitmx) ->
  let sm := kalman_build_smoother tria (Key := Key) get_dynamics_params dummy_like dummy_mx store_gain store_cov in
  let T := List.length trans in
  exists states,
    ScanModel.smoother split dummy_like inputs_of sm fs (Some trans) parallel key = ScanModel.Ok states /\
    List.length states = S T /\
    (forall f s, List.nth_error fs T = Some f -> List.nth_error states T = Some s ->
       ks_mean s = kf_mean f /\ cov (ks_chol_cov s) = cov (kf_chol_cov f)) /\
    (forall t f x s s' F c Lq, List.nth_error fs t = Some f -> List.nth_error trans t = Some x ->
       List.nth_error states t = Some s -> List.nth_error states (S t) = Some s' ->
       get_dynamics_params x = (F, c, Lq) ->
       let m := kf_mean f in let P := cov (kf_chol_cov f) in let Q := cov Lq in
       [/\ ks_mean s = rts_mean m P F c Q (ks_mean s'),
           cov (ks_chol_cov s) = rts_cov P F Q (cov (ks_chol_cov s')),
           store_gain -> ks_gain s = Some (rts_gain P F Q) &
           store_cov -> exists V, [/\ ks_chol_cov_given_next s = Some V, is_trig_mx V &
                                      cov V = rts_cond_cov P F Q]]).
Proof.
move=> ok sok ne len reg sm T.
by have [st [E [[h1 h2 h3] _]]] := smoother_exact ok sok dummy_like inputs_of dummy_mx store_gain store_cov parallel key ne len reg; exists st.
Qed.
Print Assumptions C17_smoother_run_exact.
Example C17_hypotheses_met (m : 'cV[R]_2) (L : 'M[R]_2) (t : nat) :
  let: (F, c, Lq) := demo_dyn t in rts_pred (cov L) F (cov Lq) \in unitmx.
Proof. by apply: pd_unit; apply: pdDr; [apply: psd_conj; exact: gram_psd|apply: unit_pd; exact: unitmx1]. Qed.

(** C18: the joint density of states and observations, trajectory by trajectory, from the outputs of the
    filter and of the smoother. [step_of] reads the model parameters off an input. *)
Theorem C18_trajectory_density tria (nx ny : nat) (Inp Key : Type)
    (get_init_params : Inp -> 'cV[R]_nx * 'M[R]_nx)
    (get_dynamics_params : Inp -> 'M[R]_nx * 'cV[R]_nx * 'M[R]_nx)
    (get_observation_params : Inp -> 'M[R]_(ny, nx) * 'cV[R]_ny * 'M[R]_ny * 'cV[option R]_ny)
    (split : Key -> nat -> list Key) (dummy_like : Inp -> Inp)
    (inputs_of : @KalmanFilterState nx Inp -> Inp) (dummy_mx : 'M[R]_nx)
    (x0 : Inp) (rest : list Inp) (par1 par2 : bool) (key1 key2 : option Key) fs :
  tria_ok tria -> DriverSpec.split_ok split ->
  rest <> nil ->
  nondegenerate get_init_params get_dynamics_params get_observation_params (x0 :: rest) ->
  ScanModel.filter split (kalman_build_filter tria get_init_params get_dynamics_params get_observation_params)
    (x0 :: rest) par1 key1 = ScanModel.Ok fs ->
  exists ss fT,
    ScanModel.smoother split dummy_like inputs_of
      (kalman_build_smoother tria get_dynamics_params dummy_like dummy_mx true true)
      fs (Some rest) par2 key2 = ScanModel.Ok ss /\
    List.nth_error fs (List.length rest) = Some fT /\
    List.length ss = S (List.length rest) /\
    forall x : nat -> 'cV[R]_nx,
      log_joint x (get_init_params x0).1 (cov (get_init_params x0).2)
        (fun t => step_of get_dynamics_params get_observation_params (List.nth t rest x0)) (List.length rest)
      = kf_log_normalizing_constant fT
        + log_backward x (kf_mean fT) (cov (kf_chol_cov fT)) (gain_at ss)
            (fun t => mean_at ss t - gain_at ss t *m mean_at ss t.+1) (fun t => cov (cond_at ss t)) (List.length rest).
Proof. by move=> ok sok ne nd E; exact: (trajectory_runs ok sok dummy_like inputs_of dummy_mx par2 key2 ne nd E). Qed.
Print Assumptions C18_trajectory_density.
Example C18_hypotheses_met (T : nat) :
  nondegenerate demo_init demo_dyn demo_obs (0%N :: iota 1 T.+1) /\ iota 1 T.+1 <> nil.
Proof. by split=> //; exact: (C15_hypotheses_met T.+1). Qed.

(** C19: the factor built in the README from the stored gain and conditional factor *)
Theorem C19_two_step_factor tria (nx : nat) (Inp Key : Type)
    (get_dynamics_params : Inp -> 'M[R]_nx * 'cV[R]_nx * 'M[R]_nx)
    (split : Key -> nat -> list Key) (dummy_like : Inp -> Inp)
    (inputs_of : @KalmanFilterState nx Inp -> Inp) (dummy_mx : 'M[R]_nx)
    (fs : list (@KalmanFilterState nx Inp)) (trans : list Inp) (parallel : bool) (key : option Key) states t s s' :
  tria_ok tria -> DriverSpec.split_ok split ->
  trans <> nil -> List.length fs = S (List.length trans) ->
  (forall t f x F c Lq, List.nth_error fs t = Some f -> List.nth_error trans t = Some x ->
     get_dynamics_params x = (F, c, Lq) -> rts_pred (cov (kf_chol_cov f)) F (cov Lq) \in unitmx) ->
  ScanModel.smoother split dummy_like inputs_of
    (kalman_build_smoother tria (Key := Key) get_dynamics_params dummy_like dummy_mx true true)
    fs (Some trans) parallel key = ScanModel.Ok states ->
  List.nth_error states t = Some s -> List.nth_error states (S t) = Some s' ->
  exists G V, [/\ ks_gain s = Some G, ks_chol_cov_given_next s = Some V &
    let L' := ks_chol_cov s' in
    let J := block_mx L' 0 (G *m L') V in
    J *m J^T = block_mx (cov L') (cov L' *m G^T) (G *m cov L') (cov (ks_chol_cov s))].
Proof.
move=> ok sok ne len reg E Et Et'.
have [st [E' [[h1 h2 h3] _]]] := smoother_exact ok sok dummy_like inputs_of dummy_mx true true parallel key ne len reg.
move: E'; rewrite E => -[e]; subst st.
have lt := nth_lt Et'.
have [f Ef] : exists f, List.nth_error fs t = Some f by apply: nth_ex; lia.
have [x Ex] : exists x, List.nth_error trans t = Some x by apply: nth_ex; lia.
case Ed: (get_dynamics_params x) => [[F c] Lq].
have [_ eC /(_ isT) eG /(_ isT) [V [eV _ cV]]] := h3 _ _ _ _ _ _ _ _ Ef Ex Et Et' Ed.
exists (rts_gain (cov (kf_chol_cov f)) F (cov Lq)), V; split=> //.
move=> L' J; rewrite -/(cov J) -/(joint_factor L' V _) joint_cov; congr block_mx.
rewrite eC cV /rts_cov /rts_cond_cov mulmxBr mulmxBl.
by rewrite addrCA.
Qed.
Print Assumptions C19_two_step_factor.
(** ... and it is the factor of the joint law of (x_{t+1}, x_t) given all observations *)
Theorem C19_two_step_density (n : nat) (L' V G : 'M[R]_n) (x' x m' m : 'cV[R]_n) :
  L' \in unitmx -> V \in unitmx ->
  gauss (col_mx x' x) (col_mx m' m) (cov (block_mx L' 0 (G *m L') V))
  = gauss x' m' (cov L') + gauss x (m + G *m (x' - m')) (cov V).
Proof.
by move=> uL uV; rewrite (joint_density G x' x m' m uL uV) mulmxBr; congr (_ + gauss _ _ _); rewrite addrCA.
Qed.
Print Assumptions C19_two_step_density.
Example C19_hypotheses_met (n : nat) : (1%:M : 'M[R]_n) \in unitmx.
Proof. exact: unitmx1. Qed.

(** C20 *)
Theorem C20_operator_associative (n : nat) (a b c : SamplerScanElement n) :
  sampling_operator (sampling_operator a b) c = sampling_operator a (sampling_operator b c).
Proof. exact: sampling_op_assoc. Qed.
Print Assumptions C20_operator_associative.
(** the sampled path, for every noise array: a draw from the last filtering law followed by draws from
    the backward kernels *)
Theorem C20_path tria (n : nat) (ps : seq ('cV[R]_n * 'M[R]_n * 'M[R]_n * 'cV[R]_n * 'M[R]_n)) (mT : 'cV[R]_n)
    (LT : 'M[R]_n) (eps : nat -> 'cV[R]_n) :
  tria_ok tria ->
  (forall t m L F c Lq, List.nth_error ps t = Some (m, L, F, c, Lq) -> rts_pred (cov L) F (cov Lq) \in unitmx) ->
  let xs := sampled tria ps mT LT eps in
  let T := List.length ps in
  [/\ List.length xs = T.+1, List.nth_error xs T = Some (mT + LT *m eps T) &
   forall t m L F c Lq x', List.nth_error ps t = Some (m, L, F, c, Lq) -> List.nth_error xs t.+1 = Some x' ->
   exists D, [/\ is_trig_mx D, cov D = rts_cond_cov (cov L) F (cov Lq) &
     List.nth_error xs t = Some (rts_mean m (cov L) F c (cov Lq) x' + D *m eps t)]].
Proof. by move=> ok u; exact: (sampled_rts ok mT LT eps u). Qed.
Print Assumptions C20_path.
(** the path is affine in the noise, with the smoothing means, covariances and cross-covariances *)
Theorem C20_law tria (n : nat) (ps : seq ('cV[R]_n * 'M[R]_n * 'M[R]_n * 'cV[R]_n * 'M[R]_n)) (mT : 'cV[R]_n)
    (LT : 'M[R]_n) :
  tria_ok tria ->
  (forall t m L F c Lq, List.nth_error ps t = Some (m, L, F, c, Lq) -> rts_pred (cov L) F (cov Lq) \in unitmx) ->
  let T := List.length ps in
  exists (ms : nat -> 'cV[R]_n) (A : nat -> nat -> 'M[R]_n),
  let C t u := \sum_(s < T.+1) A t s *m (A u s)^T in
  [/\ forall (eps : nat -> 'cV[R]_n) (t : nat), (t <= T)%N ->
        List.nth_error (sampled tria ps mT LT eps) t = Some (ms t + \sum_(s < T.+1) A t s *m eps s),
      ms T = mT, C T T = cov LT &
      forall t m L F c Lq, List.nth_error ps t = Some (m, L, F, c, Lq) ->
      [/\ ms t = rts_mean m (cov L) F c (cov Lq) (ms t.+1),
          C t t = rts_cov (cov L) F (cov Lq) (C t.+1 t.+1) &
          forall u, (t < u)%N -> (u <= T)%N -> C t u = rts_gain (cov L) F (cov Lq) *m C t.+1 u]].
Proof. by move=> ok u; exact: (sampled_law ok mT LT u). Qed.
Print Assumptions C20_law.
Example C20_hypotheses_met (T : nat) :
  let ps := nseq T ((0 : 'cV[R]_2), (1%:M : 'M[R]_2), (const_mx 1 : 'M[R]_2), (0 : 'cV[R]_2), (1%:M : 'M[R]_2)) in
  forall t m L F c Lq, List.nth_error ps t = Some (m, L, F, c, Lq) -> rts_pred (cov L) F (cov Lq) \in unitmx.
Proof.
move=> ps t m L F c Lq; rewrite {}/ps; elim: T t => [|T IH] [|t] //=; last exact: IH.
by move=> [_ <- <- _ <-]; apply: pd_unit; apply: pdDr; [apply: psd_conj; exact: gram_psd|apply: unit_pd; exact: unitmx1].
Qed.
