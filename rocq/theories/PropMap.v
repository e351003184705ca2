(** Property C75: the smoothed means are the most probable trajectory. *)
From Coq Require Import Reals Lra Lia List.
From mathcomp Require Import all_ssreflect all_algebra.
From Verif Require Import RStruct MxBase ZmodTac KalmanModel GaussSpec KalmanSpec MvnProofs MvnProofs2
  KalmanProofs BayesProofs TriaExist ScanStep KalmanRuns SmootherProofs Trajectory PropKalman PropSmoothing.
From Verif Require InvSqrtProofs ScanModel DriverSpec DriverProofs.
Set Implicit Arguments.
Unset Strict Implicit.
Unset Printing Implicit Defensive.
Local Open Scope ring_scope.
Import GRing.Theory Num.Theory Order.Theory.

Lemma mahalanobis_pd n (P : 'M[R]_n) v : pd P -> 0 <= mahalanobis P v /\ (mahalanobis P v = 0 -> v = 0).
Proof.
move=> pP; have pI := InvSqrtProofs.pd_inv pP; have [_ h] := pI; have [_ h'] := pd_psd pI.
split; first exact: h'.
by case: (eqVneq v 0) => // /h + h0; rewrite [qf _ _]h0 ltxx.
Qed.
Lemma gauss_mode n (x m : 'cV[R]_n) P : pd P -> gauss x m P <= gauss m m P /\ (gauss x m P = gauss m m P -> x = m).
Proof.
move=> pP; have [h0 h1] := mahalanobis_pd (x - m) pP.
have e : mahalanobis P (m - m) = 0 by rewrite subrr /mahalanobis mulmx0 mxE.
rewrite /gauss e mulr0; move: (_ * ln (2%:R * PI)) (_ * ln (\det P)) => A B; split.
  by rewrite !ler_add2r mulNr oppr_le0 mulr_ge0 // invr_ge0 ler0n.
move=> /addIr /addIr /eqP; rewrite mulf_eq0 oppr_eq0 invr_eq0 pnatr_eq0 /= => /eqP /h1 /eqP.
by rewrite subr_eq0 => /eqP.
Qed.

Section Spec.
Variables nx ny : nat.
Variables (m : 'cV[R]_nx) (P : 'M[R]_nx) (G : nat -> 'M[R]_nx) (g : nat -> 'cV[R]_nx) (V : nat -> 'M[R]_nx).
(** a path along which every backward kernel sits at its mean *)
Lemma backward_mode T (mu x : nat -> 'cV[R]_nx) : pd P -> (forall t, (t < T)%N -> pd (V t)) ->
  mu T = m -> (forall t, (t < T)%N -> mu t = G t *m mu t.+1 + g t) ->
  log_backward x m P G g V T <= log_backward mu m P G g V T /\
  (log_backward x m P G g V T = log_backward mu m P G g V T -> forall t, (t <= T)%N -> x t = mu t).
Proof.
move=> pP pV eT eS; have [g1 g2] := gauss_mode (x T) m pP.
pose a t := gauss (x t) (G t *m x t.+1 + g t) (V t); pose c t := gauss (mu t) (G t *m mu t.+1 + g t) (V t).
have ac t : (t < T)%N -> a t <= c t /\ (a t = c t -> x t.+1 = mu t.+1 -> x t = mu t).
  move=> lt; have [k1 k2] := gauss_mode (x t) (G t *m x t.+1 + g t) (pV t lt).
  have e : c t = gauss (G t *m x t.+1 + g t) (G t *m x t.+1 + g t) (V t).
    by rewrite /c eS // /gauss !subrr.
  rewrite e; split=> // h h'; rewrite (k2 h) h'; exact/esym/eS.
have les : \sum_(t < T) a t <= \sum_(t < T) c t by apply: ler_sum => t _; have [] := ac t (ltn_ord t).
rewrite /log_backward eT; split; first exact: ler_add.
move=> h.
have eqT : gauss (x T) m P = gauss m m P.
  apply/eqP; rewrite eq_le g1 /= -(ler_add2r (\sum_(t < T) c t)) -h ler_add2l.
  exact: les.
have eqs : \sum_(t < T) a t = \sum_(t < T) c t by move: h; rewrite eqT => /addrI.
have eqt t : (t < T)%N -> a t = c t.
  move=> lt; have : \sum_(i < T) (c i - a i) = 0 by rewrite sumrB eqs subrr.
  move/eqP; rewrite psumr_eq0; last by move=> i _; rewrite subr_ge0; have [] := ac i (ltn_ord i).
  by move=> /allP /(_ (Ordinal lt) (mem_index_enum _)) /= /eqP /eqP; rewrite subr_eq0 => /eqP.
move=> t lt; have -> : t = (T - (T - t))%N by rewrite subKn.
move: (T - t)%N (leq_subr t T) => k; elim: k => [_|k IH lk].
  by rewrite subn0 eT; exact: g2.
have e : (T - k)%N = (T - k.+1).+1 by rewrite subnSK.
have lk' : (T - k.+1 < T)%N by rewrite ltn_subrL (leq_trans _ lk).
have [_ h2] := ac _ lk'; apply: h2; first exact: eqt.
by rewrite -e; apply: IH; exact: ltnW.
Qed.
End Spec.

Definition cov_at nx Inp (ss : list (@KalmanSmootherState nx Inp)) t : 'M[R]_nx :=
  if List.nth_error ss t is Some s then cov (ks_chol_cov s) else 0.

Section Runs.
Variable tria : forall m l : nat, 'M[R]_(m, l) -> 'M[R]_m.
Variables (nx ny : nat) (Inp Key : Type).
Variable get_init_params : Inp -> 'cV[R]_nx * 'M[R]_nx.
Variable get_dynamics_params : Inp -> 'M[R]_nx * 'cV[R]_nx * 'M[R]_nx.
Variable get_observation_params : Inp -> 'M[R]_(ny, nx) * 'cV[R]_ny * 'M[R]_ny * 'cV[option R]_ny.
Variable split : Key -> nat -> list Key.
Variables (dummy_like : Inp -> Inp) (inputs_of : @KalmanFilterState nx Inp -> Inp) (dummy_mx : 'M[R]_nx).

Lemma runs_backward (store_gain store_cov par1 par2 : bool) (key1 key2 : option Key)
    (x0 : Inp) (rest : list Inp) fs ss :
  tria_ok tria -> DriverSpec.split_ok split -> rest <> nil ->
  nondegenerate get_init_params get_dynamics_params get_observation_params (x0 :: rest) ->
  ScanModel.filter split (kalman_build_filter tria get_init_params get_dynamics_params get_observation_params)
    (x0 :: rest) par1 key1 = ScanModel.Ok fs ->
  ScanModel.smoother split dummy_like inputs_of
    (kalman_build_smoother tria get_dynamics_params dummy_like dummy_mx store_gain store_cov)
    fs (Some rest) par2 key2 = ScanModel.Ok ss ->
  let T := List.length rest in
  let logp x := log_joint x (get_init_params x0).1 (cov (get_init_params x0).2)
    (fun t => step_of get_dynamics_params get_observation_params (List.nth t rest x0)) T in
  exists fT G V, [/\ List.length ss = S T, List.nth_error fs T = Some fT,
    (forall x, logp x = kf_log_normalizing_constant fT
       + log_backward x (mean_at ss T) (cov_at ss T) G (fun t => mean_at ss t - G t *m mean_at ss t.+1) V T),
    pd (cov_at ss T) &
    forall t, (t < T)%N -> [/\ pd (V t), cov_at ss t = G t *m cov_at ss t.+1 *m (G t)^T + V t,
       store_gain -> gain_at ss t = G t & store_cov -> cov (cond_at ss t) = V t]].
Proof.
move=> tria_spec split_spec ne nd Ef Esm T logp.
have [fs' [Ef' [Lf Hf]]] := filter_exact tria_spec split_spec par1 key1 (ltac:(by []) : x0 :: rest <> nil) nd.
move: Ef'; rewrite Ef => -[e]; rewrite -{}e {fs'} in Lf Hf.
have [nd0 ndS] := nd.
pose step t := step_of get_dynamics_params get_observation_params (List.nth t rest x0).
pose b := nat_rect (fun _ => belief nx) (init_belief get_init_params x0) (fun t bt => kf_step bt (step t)).
have stepE t x : List.nth_error rest t = Some x -> step t = step_of get_dynamics_params get_observation_params x.
  by move=> h; rewrite /step (List.nth_error_nth _ _ _ h).
have bE t : (t <= T)%coq_nat -> List.nth_error (exact get_init_params get_dynamics_params get_observation_params (x0 :: rest)) t = Some (b t).
  elim: t => [|t IH] lt; first by rewrite /=; case: (List.map _ _).
  have [x Ex] : exists x, List.nth_error rest t = Some x by apply: nth_ex; rewrite -/T; lia.
  have /= -> := kf_beliefs_step (s := step t) _ (IH ltac:(lia)).
  - by [].
  - by rewrite List.nth_error_map Ex /= (stepE _ _ Ex).
have cL0 : pd (bcov (b 0%N)).
  rewrite /= /init_belief; have := nd0 x0 erefl; case: (get_init_params x0) => m0 L0 /= [_ u]; exact: unit_pd.
have pdt t : (t < T)%N -> pd (lQ (step t)) /\ pd (obsR (step t)).
  move=> /ssrnat.ltP lt; have [x Ex] : exists x, List.nth_error rest t = Some x by exact: nth_ex.
  have [] := ndS t x Ex; rewrite (stepE _ _ Ex) /step_of.
  case: (get_dynamics_params x) => [[F c] Lq]; case: (get_observation_params x) => [[[H d] X] y] /=.
  rewrite /obsR /= => uQ uR; split; first exact: gram_pd.
  by move: uR; rewrite /cov obs_block_gram; exact: gram_pd.
have pdb := beliefs_pd (step := step) (b := b) (fun t => erefl) cL0 pdt.
have fsE t f : List.nth_error fs t = Some f -> [/\ kf_mean f = bmean (b t), cov (kf_chol_cov f) = bcov (b t) & kf_log_normalizing_constant f = bell (b t)].
  move=> Et; have lt := nth_lt Et; rewrite Lf /= -/T in lt.
  by have [h1 h2 h3 h4 h5] := Hf _ _ _ Et (bE t ltac:(lia)).
have regs t f x F c Lq : List.nth_error fs t = Some f -> List.nth_error rest t = Some x ->
     get_dynamics_params x = (F, c, Lq) -> rts_pred (cov (kf_chol_cov f)) F (cov Lq) \in unitmx.
  move=> Et Ex Ed; have [_ -> _] := fsE _ _ Et.
  have lt : (t < T)%N by apply/ssrnat.ltP; exact: nth_lt Ex.
  apply: pd_unit; apply: innov_pd; first by apply: pd_psd; apply: pdb; exact: ltnW.
  have [pQ _] := pdt _ lt; move: pQ; rewrite (stepE _ _ Ex) /step_of Ed.
  by case: (get_observation_params x) => [[[H d] X] y].
have [ss' [Es [[Ls HT HS] _]]] := smoother_exact tria_spec split_spec dummy_like inputs_of dummy_mx store_gain store_cov par2 key2
   ne Lf regs.
move: Es; rewrite Esm => -[e]; rewrite -{}e {ss'} in Ls HT HS.
have fact y : logp y = (bell (b T) - bell (b 0%N))
    + log_backward y (bmean (b T)) (bcov (b T))
       (fun t => rts_gain (bcov (b t)) (lF (step t)) (lQ (step t)))
       (fun t => bmean (b t) - rts_gain (bcov (b t)) (lF (step t)) (lQ (step t))
                   *m (lF (step t) *m bmean (b t) + lc (step t)))
       (fun t => rts_cond_cov (bcov (b t)) (lF (step t)) (lQ (step t))) T.
  have e0 : (get_init_params x0).1 = bmean (b 0%N) /\ cov (get_init_params x0).2 = bcov (b 0%N).
    by rewrite /= /init_belief; case: (get_init_params x0).
  by rewrite /logp e0.1 e0.2 (trajectory_factor (step := step) (b := b) (fun t => erefl) cL0 y pdt).
have pV t : (t < T)%N -> pd (rts_cond_cov (bcov (b t)) (lF (step t)) (lQ (step t))).
  move=> lt; have [pQ _] := pdt _ lt; have pP := pdb t (ltnW lt); have [sP _] := pP; have [sQ _] := pQ.
  rewrite rts_condE //; first exact: cond_pd.
  by apply: pd_unit; apply: innov_pd => //; exact: pd_psd.
have [fT EfT] : exists f, List.nth_error fs T = Some f by apply: nth_ex; rewrite Lf /=; lia.
have [sT EsT] : exists s, List.nth_error ss T = Some s by apply: nth_ex; lia.
have [hT1 hT2] := HT _ _ EfT EsT.
have [fT1 fT2 fT3] := fsE _ _ EfT.
have sTm : mean_at ss T = bmean (b T) by rewrite /mean_at EsT hT1.
have sTc : cov_at ss T = bcov (b T) by rewrite /cov_at EsT hT2.
have sS t : (t < T)%N -> let P := bcov (b t) in let F := lF (step t) in let Q := lQ (step t) in
    [/\ mean_at ss t - rts_gain P F Q *m mean_at ss t.+1 = bmean (b t) - rts_gain P F Q *m (F *m bmean (b t) + lc (step t)),
        cov_at ss t = rts_gain P F Q *m cov_at ss t.+1 *m (rts_gain P F Q)^T + rts_cond_cov P F Q,
        store_gain -> gain_at ss t = rts_gain P F Q & store_cov -> cov (cond_at ss t) = rts_cond_cov P F Q].
  move=> /ssrnat.ltP lt.
  have [f Et] : exists f, List.nth_error fs t = Some f by apply: nth_ex; rewrite Lf /=; lia.
  have [z Ez] : exists z, List.nth_error rest t = Some z by exact: nth_ex.
  have [s Est] : exists s, List.nth_error ss t = Some s by apply: nth_ex; lia.
  have [s' Es'] : exists s, List.nth_error ss t.+1 = Some s by apply: nth_ex; lia.
  case Ed: (get_dynamics_params z) => [[F c] Lq].
  have [k1 k2 k3 k4] := HS _ _ _ _ _ _ _ _ Et Ez Est Es' Ed.
  have [f1 f2 _] := fsE _ _ Et.
  have [s1 s2 s3] : [/\ lF (step t) = F, lc (step t) = c & lQ (step t) = cov Lq].
    by rewrite (stepE _ _ Ez) /step_of Ed; case: (get_observation_params z) => [[[H d] X] y].
  rewrite /mean_at /cov_at /gain_at /cond_at Est Es' s1 s2 s3; split.
  - by rewrite k1 /rts_mean f1 f2 mulmxBr; mxzmod.
  - by rewrite k2 /rts_cov /rts_cond_cov f2 mulmxBr mulmxBl; mxzmod.
  - by move=> /k3 ->; rewrite f2.
  - by move=> /k4 [V [-> _ /= ->]]; rewrite f2.
exists fT, (fun t => rts_gain (bcov (b t)) (lF (step t)) (lQ (step t))),
  (fun t => rts_cond_cov (bcov (b t)) (lF (step t)) (lQ (step t))).
split=> //; last first.
- by move=> t lt; have [_ ? ? ?] := sS t lt; split=> //; exact: pV.
- by rewrite sTc; exact: pdb.
move=> x; rewrite fact sTm sTc fT3 [bell (b 0%N)](_ : _ = 0); last by rewrite /= /init_belief; case: (get_init_params x0).
rewrite subr0 /log_backward; congr (_ + (_ + _)); apply: eq_bigr => t _.
by have [-> _ _ _] := sS t (ltn_ord t).
Qed.

(** [log_joint x ...] is log p(x_0, ..., x_T, y_1, ..., y_T) (KalmanSpec.v) *)
Theorem C75_most_probable_trajectory (store_gain store_cov par1 par2 : bool) (key1 key2 : option Key)
    (x0 : Inp) (rest : list Inp) fs ss :
  tria_ok tria -> DriverSpec.split_ok split -> rest <> nil ->
  nondegenerate get_init_params get_dynamics_params get_observation_params (x0 :: rest) ->
  ScanModel.filter split (kalman_build_filter tria get_init_params get_dynamics_params get_observation_params)
    (x0 :: rest) par1 key1 = ScanModel.Ok fs ->
  ScanModel.smoother split dummy_like inputs_of
    (kalman_build_smoother tria get_dynamics_params dummy_like dummy_mx store_gain store_cov)
    fs (Some rest) par2 key2 = ScanModel.Ok ss ->
  let T := List.length rest in
  let logp x := log_joint x (get_init_params x0).1 (cov (get_init_params x0).2)
    (fun t => step_of get_dynamics_params get_observation_params (List.nth t rest x0)) T in
  let smoothed t := if List.nth_error ss t is Some s then ks_mean s else 0 in
  List.length ss = S T /\
  forall x : nat -> 'cV[R]_nx,
    logp x <= logp smoothed /\ (logp x = logp smoothed -> forall t, (t <= T)%N -> x t = smoothed t).
Proof.
move=> tria_spec split_spec ne nd Ef Esm T logp smoothed.
have [fT [G [V [Ls _ fact pT pV]]]] := runs_backward tria_spec split_spec ne nd Ef Esm.
split=> // x; rewrite /logp !fact.
have [h1 h2] := @backward_mode _ (mean_at ss T) (cov_at ss T) G (fun t => mean_at ss t - G t *m mean_at ss t.+1) V T
  smoothed x pT (fun t lt => let: And4 p _ _ _ := pV t lt in p) erefl (fun t lt => ltac:(by rewrite addrCA subrr addr0)).
split; first by rewrite ler_add2l.
by move=> /addrI; exact: h2.
Qed.
End Runs.
Print Assumptions C75_most_probable_trajectory.
Example C75_hypotheses_met (T : nat) :
  nondegenerate demo_init demo_dyn demo_obs (0%N :: iota 1 T.+1) /\ iota 1 T.+1 <> nil.
Proof. exact: (C18_hypotheses_met T). Qed.
