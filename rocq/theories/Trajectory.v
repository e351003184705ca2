(** The joint density of trajectory and observations factorises into evidence and backward kernels. *)
From Coq Require Import Reals Lra Lia List.
From mathcomp Require Import all_ssreflect all_algebra.
From Verif Require Import RStruct MxBase ZmodTac KalmanModel GaussSpec KalmanSpec MvnProofs MvnProofs2
  KalmanProofs BayesProofs TriaExist ScanStep KalmanRuns SmootherProofs.
From Verif Require ScanModel ScanProofs DriverSpec DriverProofs.
Set Implicit Arguments.
Unset Strict Implicit.
Unset Printing Implicit Defensive.
Local Open Scope ring_scope.
Import GRing.Theory Num.Theory Order.Theory.

Lemma psd_det_pos n (P : 'M[R]_n) : psd P -> P \in unitmx -> Rlt 0 (\det P).
Proof.
by move=> /chol_exists [L [_ e]]; rewrite -e gram_unit => u; exact: det_gram_pos.
Qed.
Lemma psd_unit_pd n (P : 'M[R]_n) : psd P -> P \in unitmx -> pd P.
Proof. by move=> /chol_exists [L [_ <-]]; exact: gram_pd. Qed.
Lemma pd_det_pos n (P : 'M[R]_n) : pd P -> Rlt 0 (\det P).
Proof. by move=> pP; apply: psd_det_pos; [exact: pd_psd|exact: pd_unit]. Qed.
Lemma innov_pd n p (P : 'M[R]_n) (H : 'M[R]_(p, n)) (Rn : 'M[R]_p) : psd P -> pd Rn -> pd (innovation_cov P H Rn).
Proof. by move=> pP pR; apply: pdDr => //; exact: psd_conj. Qed.
Lemma cond_psd n p (P : 'M[R]_n) (H : 'M[R]_(p, n)) (Rn : 'M[R]_p) : psd P -> pd Rn -> psd (cond_cov P H Rn).
Proof.
move=> pP pR; have [sP _] := pP; have [sR _] := pR.
rewrite (joseph erefl erefl (pd_unit (innov_pd H pP pR))) -?mulmxA.
rewrite !mulmxA.
by apply: psdD; apply: psd_conj => //; exact: pd_psd.
Qed.
Lemma cond_pd n p (P : 'M[R]_n) (H : 'M[R]_(p, n)) (Rn : 'M[R]_p) : pd P -> pd Rn -> pd (cond_cov P H Rn).
Proof.
move=> pP pR; apply: psd_unit_pd; first by apply: cond_psd => //; exact: pd_psd.
have [sP _] := pP; have [sR _] := pR.
exact: (cond_unit erefl erefl (pd_unit (innov_pd H (pd_psd pP) pR)) (pd_unit pP) (pd_unit pR) erefl).
Qed.
Lemma gauss_split n p (P : 'M[R]_n) (H : 'M[R]_(p, n)) (Rn : 'M[R]_p) (m x : 'cV[R]_n) (d y : 'cV[R]_p) :
  pd P -> pd Rn ->
  gauss x m P + gauss y (H *m x + d) Rn
  = gauss y (H *m m + d) (innovation_cov P H Rn) + gauss x (cond_mean m P H d Rn y) (cond_cov P H Rn).
Proof.
move=> pP pR; have [sP _] := pP; have [sR _] := pR; have pS := innov_pd H (pd_psd pP) pR.
by have [] := gauss_bayes m x d y sP sR (pd_unit pS) (pd_det_pos pP) (pd_det_pos pR) (pd_det_pos pS).
Qed.
Lemma rts_condE n (P F Q : 'M[R]_n) : P^T = P -> Q^T = Q -> rts_pred P F Q \in unitmx ->
  rts_cond_cov P F Q = cond_cov P F Q.
Proof.
move=> sP sQ u; have sS : (rts_pred P F Q)^T = rts_pred P F Q.
  by rewrite /rts_pred linearD /= !trmx_mul trmxK sP sQ mulmxA.
have h : rts_pred P F Q *m (rts_gain P F Q)^T = F *m P.
  rewrite -[in LHS]sS -trmx_mul /rts_gain mulmxKV //.
  by rewrite trmx_mul trmxK sP.
by rewrite /rts_cond_cov -mulmxA h /cond_cov /kalman_gain -/(rts_pred P F Q) !mulmxA.
Qed.

Section Spec.
Variables nx ny : nat.
Variables (step : nat -> lgstep nx ny) (b : nat -> belief nx).
Hypothesis bS : forall t, b t.+1 = kf_step (b t) (step t).
Hypothesis pd0 : pd (bcov (b 0)).
Lemma beliefs_pd T : (forall t, (t < T)%N -> pd (lQ (step t)) /\ pd (obsR (step t))) ->
  forall t, (t <= T)%N -> pd (bcov (b t)).
Proof.
move=> nd; elim=> [//|t IH] lt; have [pQ pR] := nd t lt.
rewrite bS /kf_step /=; apply: cond_pd => //; apply: pdDr => //.
by apply: psd_conj; apply: pd_psd; apply: IH; exact: ltnW.
Qed.
Lemma trajectory_factor (x : nat -> 'cV[R]_nx) T :
  (forall t, (t < T)%N -> pd (lQ (step t)) /\ pd (obsR (step t))) ->
  log_joint x (bmean (b 0)) (bcov (b 0)) step T
  = (bell (b T) - bell (b 0))
    + log_backward x (bmean (b T)) (bcov (b T))
       (fun t => rts_gain (bcov (b t)) (lF (step t)) (lQ (step t)))
       (fun t => bmean (b t) - rts_gain (bcov (b t)) (lF (step t)) (lQ (step t))
                   *m (lF (step t) *m bmean (b t) + lc (step t)))
       (fun t => rts_cond_cov (bcov (b t)) (lF (step t)) (lQ (step t))) T.
Proof.
rewrite /log_joint /log_backward; elim: T => [|T IH] nd.
  by rewrite !big_ord0 subrr add0r.
have [pQ pR] := nd T (ltnSn T).
have pP := beliefs_pd nd (leqnSn T).
rewrite !big_ord_recr /= addrA IH; last by move=> t lt; apply: nd; exact: ltnW.
have e1 := gauss_split (lF (step T)) (bmean (b T)) (x T) (lc (step T)) (x T.+1) pP pQ.
have pPp : pd (pred_cov (b T) (step T)) := innov_pd (lF (step T)) (pd_psd pP) pQ.
have e2 := gauss_split (obsH (step T)) (pred_mean (b T) (step T)) (x T.+1) (obsd (step T)) (obsy (step T)) pPp pR.
have [sP _] := pP; have [sQ _] := pQ.
rewrite (rts_condE sP sQ (pd_unit pPp)) bS /kf_step /=.
have -> : gauss (x T) (rts_gain (bcov (b T)) (lF (step T)) (lQ (step T)) *m x T.+1
            + (bmean (b T) - rts_gain (bcov (b T)) (lF (step T)) (lQ (step T)) *m (lF (step T) *m bmean (b T) + lc (step T))))
            (cond_cov (bcov (b T)) (lF (step T)) (lQ (step T)))
        = gauss (x T) (cond_mean (bmean (b T)) (bcov (b T)) (lF (step T)) (lc (step T)) (lQ (step T)) (x T.+1))
            (cond_cov (bcov (b T)) (lF (step T)) (lQ (step T))).
  by congr gauss; rewrite /cond_mean mulmxBr -/(rts_gain _ _ _) addrCA.
move: e1 e2; rewrite -/(pred_mean (b T) (step T)) -/(pred_cov (b T) (step T)).
repeat (move: (gauss _ _ _) => ?).
move: (bell _) (bell _) (\sum_(i < T) _) => ? ? ?; toR => *; lra.
Qed.
End Spec.

(** ** outputs of the library *)
Section Runs.
Variable tria : forall m l : nat, 'M[R]_(m, l) -> 'M[R]_m.
Hypothesis tria_spec : tria_ok tria.
Variables nx ny : nat.
Variables Inp Key : Type.
Variable get_init_params : Inp -> 'cV[R]_nx * 'M[R]_nx.
Variable get_dynamics_params : Inp -> 'M[R]_nx * 'cV[R]_nx * 'M[R]_nx.
Variable get_observation_params : Inp -> 'M[R]_(ny, nx) * 'cV[R]_ny * 'M[R]_ny * 'cV[option R]_ny.
Variable split : Key -> nat -> list Key.
Hypothesis split_spec : DriverSpec.split_ok split.
Variables (dummy_like : Inp -> Inp) (inputs_of : @KalmanFilterState nx Inp -> Inp) (dummy_mx : 'M[R]_nx).
Let flt := kalman_build_filter tria (Key := Key) get_init_params get_dynamics_params get_observation_params.
Let sm := kalman_build_smoother tria (Key := Key) get_dynamics_params dummy_like dummy_mx true true.

(** stored outputs of a smoothing run, by time *)
Definition gain_at (ss : list (@KalmanSmootherState nx Inp)) t : 'M[R]_nx :=
  if List.nth_error ss t is Some s then odflt 0 (ks_gain s) else 0.
Definition mean_at (ss : list (@KalmanSmootherState nx Inp)) t : 'cV[R]_nx :=
  if List.nth_error ss t is Some s then ks_mean s else 0.
Definition cond_at (ss : list (@KalmanSmootherState nx Inp)) t : 'M[R]_nx :=
  if List.nth_error ss t is Some s then odflt 0 (ks_chol_cov_given_next s) else 0.

Lemma trajectory_runs x0 rest (par1 par2 : bool) key1 key2 fs :
  rest <> nil ->
  nondegenerate get_init_params get_dynamics_params get_observation_params (x0 :: rest) ->
  ScanModel.filter split flt (x0 :: rest) par1 key1 = ScanModel.Ok fs ->
  exists ss fT, ScanModel.smoother split dummy_like inputs_of sm fs (Some rest) par2 key2 = ScanModel.Ok ss /\
    List.nth_error fs (List.length rest) = Some fT /\
    List.length ss = S (List.length rest) /\
    forall x : nat -> 'cV[R]_nx,
    log_joint x (get_init_params x0).1 (cov (get_init_params x0).2)
      (fun t => step_of get_dynamics_params get_observation_params (List.nth t rest x0)) (List.length rest)
    = kf_log_normalizing_constant fT
      + log_backward x (kf_mean fT) (cov (kf_chol_cov fT))
          (gain_at ss) (fun t => mean_at ss t - gain_at ss t *m mean_at ss t.+1) (fun t => cov (cond_at ss t))
          (List.length rest).
Proof.
move=> ne nd Ef.
have [fs' [Ef' [Lf Hf]]] := filter_exact tria_spec split_spec par1 key1 (ltac:(by []) : x0 :: rest <> nil) nd.
move: Ef'; rewrite Ef => -[e]; rewrite -{}e {fs'} in Lf Hf.
have [nd0 ndS] := nd.
pose step t := step_of get_dynamics_params get_observation_params (List.nth t rest x0).
pose b := nat_rect (fun _ => belief nx) (init_belief get_init_params x0) (fun t bt => kf_step bt (step t)).
set T := List.length rest in Lf *.
have stepE t x : List.nth_error rest t = Some x -> step t = step_of get_dynamics_params get_observation_params x.
  by move=> h; rewrite /step (List.nth_error_nth _ _ _ h).
have bE t : (t <= T)%coq_nat -> List.nth_error (exact get_init_params get_dynamics_params get_observation_params (x0 :: rest)) t = Some (b t).
  elim: t => [|t IH] lt; first by rewrite /=; case: (List.map _ _).
  have [x Ex] : exists x, List.nth_error rest t = Some x by apply: nth_ex; rewrite -/T; lia.
  have /= -> := kf_beliefs_step (s := step t) _ (IH ltac:(lia)).
  - by [].
  - by rewrite List.nth_error_map Ex /= (stepE _ _ Ex).
have cL0 : pd (bcov (b 0%N)).
  rewrite /= /init_belief; have := nd0 x0 erefl; case: (get_init_params x0) => m0 L0 /= [_ u]; exact: unit_pd.
have pdt t : (t < T)%N -> pd (lQ (step t)) /\ pd (obsR (step t)).
  move=> /ssrnat.ltP lt; have [x Ex] : exists x, List.nth_error rest t = Some x by exact: nth_ex.
  have [] := ndS t x Ex; rewrite (stepE _ _ Ex) /step_of.
  case: (get_dynamics_params x) => [[F c] Lq]; case: (get_observation_params x) => [[[H d] X] y] /=.
  rewrite /obsR /= => uQ uR; split; first exact: gram_pd.
  by move: uR; rewrite /cov obs_block_gram; exact: gram_pd.
have pdb := beliefs_pd (step := step) (b := b) (fun t => erefl) cL0 pdt.
have fsE t f : List.nth_error fs t = Some f -> [/\ kf_mean f = bmean (b t), cov (kf_chol_cov f) = bcov (b t) & kf_log_normalizing_constant f = bell (b t)].
  move=> Et; have lt := nth_lt Et; rewrite Lf /= -/T in lt.
  by have [h1 h2 h3 h4 h5] := Hf _ _ _ Et (bE t ltac:(lia)).
have regs t f x F c Lq : List.nth_error fs t = Some f -> List.nth_error rest t = Some x ->
     get_dynamics_params x = (F, c, Lq) -> rts_pred (cov (kf_chol_cov f)) F (cov Lq) \in unitmx.
  move=> Et Ex Ed; have [_ -> _] := fsE _ _ Et.
  have lt : (t < T)%N by apply/ssrnat.ltP; exact: nth_lt Ex.
  apply: pd_unit; apply: innov_pd; first by apply: pd_psd; apply: pdb; exact: ltnW.
  have [pQ _] := pdt _ lt; move: pQ; rewrite (stepE _ _ Ex) /step_of Ed.
  by case: (get_observation_params x) => [[[H d] X] y].
have [ss [Es [[Ls HT HS] _]]] := smoother_exact tria_spec split_spec dummy_like inputs_of dummy_mx true true par2 key2
   ne Lf regs.
have [fT EfT] : exists f, List.nth_error fs T = Some f by apply: nth_ex; rewrite Lf /=; lia.
exists ss, fT; split=> //; split=> //; split=> // x.
have [-> -> ->] := fsE _ _ EfT.
have e0 : (get_init_params x0).1 = bmean (b 0%N) /\ cov (get_init_params x0).2 = bcov (b 0%N) /\ bell (b 0%N) = 0.
  by rewrite /= /init_belief; case: (get_init_params x0).
rewrite e0.1 e0.2.1 (trajectory_factor (step := step) (b := b) (fun t => erefl) cL0 x pdt) e0.2.2 subr0.
congr (_ + (_ + _)); apply: eq_bigr => t _.
have lt : (t < T)%coq_nat by apply/ssrnat.ltP.
have [f Et] : exists f, List.nth_error fs t = Some f by apply: nth_ex; rewrite Lf /=; lia.
have [z Ez] : exists z, List.nth_error rest t = Some z by exact: nth_ex.
have [s Est] : exists s, List.nth_error ss t = Some s by apply: nth_ex; lia.
have [s' Es'] : exists s, List.nth_error ss t.+1 = Some s by apply: nth_ex; lia.
case Ed: (get_dynamics_params z) => [[F c] Lq].
have [k1 k2 k3 k4] := HS _ _ _ _ _ _ _ _ Et Ez Est Es' Ed.
have [V [v1 v2 v3]] := k4 erefl.
have [f1 f2 f3] := fsE _ _ Et.
have [s1 s2 s3] : [/\ lF (step t) = F, lc (step t) = c & lQ (step t) = cov Lq].
  by rewrite (stepE _ _ Ez) /step_of Ed; case: (get_observation_params z) => [[[H d] X] y].
rewrite /gain_at /mean_at /cond_at Est Es' (k3 erefl) v1 /= v3 k1 s1 s2 s3 f1 f2.
by congr gauss; rewrite /rts_mean mulmxBr; congr (_ + _); mxzmod.
Qed.
End Runs.
