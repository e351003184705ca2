(** Minimum-variance properties of the Kalman recursion. *)
From Coq Require Import Reals Lra Lia List.
From mathcomp Require Import all_ssreflect all_algebra.
From Verif Require Import RStruct MxBase ZmodTac KalmanModel GaussSpec KalmanSpec LinearFilterSpec MvnProofs MvnProofs2
  KalmanProofs BayesProofs TriaExist FilterOp ScanStep KalmanRuns SmootherProofs Trajectory LinearizeProofs2.
Set Implicit Arguments.
Unset Strict Implicit.
Unset Printing Implicit Defensive.
Local Open Scope ring_scope.
Import GRing.Theory Num.Theory Order.Theory.

Lemma variance_qf n (P : 'M[R]_n) v : variance P v = qf P v. Proof. by []. Qed.
Lemma varianceB n (P P' : 'M[R]_n) v : variance (P' - P) v = variance P' v - variance P v.
Proof. by rewrite /variance mulmxBr mulmxBl !mxE. Qed.
Lemma varianceD n (P P' : 'M[R]_n) v : variance (P' + P) v = variance P' v + variance P v.
Proof. by rewrite /variance mulmxDr mulmxDl !mxE. Qed.
Lemma variance_conj n k (A : 'M[R]_(n, k)) P v : variance (A *m P *m A^T) v = variance P (A^T *m v).
Proof. by rewrite /variance trmx_mul trmxK !mulmxA. Qed.
Lemma at_most_refl n (P : 'M[R]_n) : at_most P P. Proof. by move=> v. Qed.
Lemma at_most_trans n (A B C : 'M[R]_n) : at_most A B -> at_most B C -> at_most A C.
Proof. by move=> h h' v; apply: le_trans (h v) (h' v). Qed.
Lemma at_most_conj n k (A : 'M[R]_(n, k)) P P' : at_most P P' -> at_most (A *m P *m A^T) (A *m P' *m A^T).
Proof. by move=> h v; rewrite !variance_conj. Qed.
Lemma at_mostD n (A B A' B' : 'M[R]_n) : at_most A A' -> at_most B B' -> at_most (A + B) (A' + B').
Proof. by move=> h h' v; rewrite !varianceD; apply: ler_add. Qed.
Lemma at_most_psd n (A D B : 'M[R]_n) : psd D -> B = A + D -> at_most A B.
Proof. by move=> [_ p] -> v; rewrite varianceD ler_addl; exact: p. Qed.

Section Optimal.
Variables nx ny : nat.
Variables (P : 'M[R]_nx) (H : 'M[R]_(ny, nx)) (Rn : 'M[R]_ny).
Hypothesis sP : P^T = P.
Hypothesis pS : pd (innovation_cov P H Rn).

Lemma optimal_gain (K : 'M[R]_(nx, ny)) :
  (1%:M - K *m H) *m P *m (1%:M - K *m H)^T + K *m Rn *m K^T
  = cond_cov P H Rn
    + (K - kalman_gain P H Rn) *m innovation_cov P H Rn *m (K - kalman_gain P H Rn)^T.
Proof.
set S := innovation_cov P H Rn; set G := kalman_gain P H Rn.
have [sS _] := pS; have uS : S \in unitmx := (@pd_unit R_realFieldType _ _ pS).
have GS : G *m S = P *m H^T by rewrite /G /kalman_gain -/S mulmxKV.
have SG : S *m G^T = H *m P by rewrite -[S]sS -trmx_mul GS trmx_mul trmxK sP.
have E1 : (K - G) *m S *m (K - G)^T = K *m S *m K^T - K *m H *m P - (P *m H^T *m K^T - G *m H *m P).
  rewrite [(K - G)^T]linearB /= mulmxBr !mulmxBl GS.
  have -> : K *m S *m G^T = K *m H *m P by rewrite -mulmxA SG mulmxA.
  have -> : P *m H^T *m G^T = G *m H *m P by rewrite -GS -mulmxA SG mulmxA.
  zmod.
rewrite E1 /cond_cov -/G.
have -> : K *m S *m K^T = K *m H *m P *m H^T *m K^T + K *m Rn *m K^T.
  by rewrite /S /innovation_cov mulmxDr mulmxDl !mulmxA.
rewrite [(1%:M - K *m H)^T]linearB /= trmx1 trmx_mul.
rewrite mulmxBr mulmx1 mulmxBl mul1mx mulmxBl !mulmxA.
zmod.
Qed.
Lemma cond_below (K : 'M[R]_(nx, ny)) :
  at_most (cond_cov P H Rn) ((1%:M - K *m H) *m P *m (1%:M - K *m H)^T + K *m Rn *m K^T).
Proof. by apply: at_most_psd (optimal_gain K); apply: psd_conj; exact: pd_psd. Qed.
Lemma cond_below_prior : at_most (cond_cov P H Rn) P.
Proof. by have := cond_below 0; rewrite !mul0mx addr0 subr0 trmx1 mulmx1 mul1mx. Qed.
End Optimal.

(** more observed coordinates give a smaller conditional covariance *)
Section Masks.
Variables nx ny : nat.
Variables y1 y2 : 'cV[option R]_ny.
Hypothesis sub : forall i, isSome (y2 i ord0) -> isSome (y1 i ord0).
Lemma Sel_sub : Sel y2 *m (Sel y1)^T *m Sel y1 = Sel y2.
Proof.
apply/matrixP => a j; rewrite -mulmxA Sel_mul mxE.
have [b eb] := sel_exists (sub (sel_isSome a)).
by rewrite -eb SelT_mul !SelE eb.
Qed.
Lemma obs_blockE (y : 'cV[option R]_ny) (A : 'M[R]_ny) : obs_block y A = Sel y *m A *m (Sel y)^T.
Proof.
rewrite Sel_mul; apply: trmx_inj; rewrite trmx_mul trmxK Sel_mul.
by apply/matrixP => a b; rewrite !mxE.
Qed.
Lemma cond_mask (P P' : 'M[R]_nx) (H : 'M[R]_(ny, nx)) (Rn : 'M[R]_ny) :
  P^T = P -> P'^T = P' -> at_most P P' ->
  pd (innovation_cov P (obs_rows y1 H) (obs_block y1 Rn)) -> pd (innovation_cov P' (obs_rows y2 H) (obs_block y2 Rn)) ->
  at_most (cond_cov P (obs_rows y1 H) (obs_block y1 Rn)) (cond_cov P' (obs_rows y2 H) (obs_block y2 Rn)).
Proof.
move=> sP sP' le p1 p2.
pose K2 := kalman_gain P' (obs_rows y2 H) (obs_block y2 Rn).
pose E := Sel y2 *m (Sel y1)^T.
have EH : E *m obs_rows y1 H = obs_rows y2 H by rewrite -!Sel_mul mulmxA Sel_sub.
have ER : E *m obs_block y1 Rn *m E^T = obs_block y2 Rn.
  rewrite !obs_blockE !mulmxA Sel_sub -!mulmxA; congr (_ *m (_ *m _)).
  by apply: trmx_inj; rewrite trmx_mul trmxK !trmxK Sel_sub.
have := optimal_gain sP' p2 K2; rewrite subrr mul0mx mul0mx addr0 => <-.
apply: at_most_trans (cond_below sP p1 (K2 *m E)) _.
rewrite -[K2 *m E *m obs_rows y1 H]mulmxA EH trmx_mul.
have -> : K2 *m E *m obs_block y1 Rn *m (E^T *m K2^T) = K2 *m obs_block y2 Rn *m K2^T.
  by rewrite -ER !mulmxA.
by apply: at_mostD (at_most_refl _); apply: at_most_conj.
Qed.
End Masks.

Section Runs.
Variables nx ny : nat.
Definition step_ok (s : lgstep nx ny) : Prop :=
  [/\ psd (lQ s), psd (obsR s) & innovation_cov (lQ s) (obsH s) (obsR s) \in unitmx].
Lemma pred_psd b (s : lgstep nx ny) : psd (bcov b) -> step_ok s -> psd (pred_cov b s).
Proof. by move=> p [pQ _ _]; apply: psdD => //; exact: psd_conj. Qed.
Lemma pred_pd b (s : lgstep nx ny) : psd (bcov b) -> step_ok s -> pd (innovation_cov (pred_cov b s) (obsH s) (obsR s)).
Proof.
move=> p [pQ pR u]; have -> : innovation_cov (pred_cov b s) (obsH s) (obsR s) =
   obsH s *m (lF s *m bcov b *m (lF s)^T) *m (obsH s)^T + innovation_cov (lQ s) (obsH s) (obsR s).
  by rewrite /innovation_cov /pred_cov mulmxDr mulmxDl addrA.
apply: pdDr; first by do 2 apply: psd_conj.
by apply: psd_unit_pd => //; apply: psdD => //; exact: psd_conj.
Qed.
Lemma kf_step_psd b (s : lgstep nx ny) : psd (bcov b) -> step_ok s -> psd (bcov (kf_step b s)).
Proof.
move=> p ok; have pp := pred_psd p ok; have [sP _] := pp.
have := optimal_gain sP (pred_pd p ok) (kalman_gain (pred_cov b s) (obsH s) (obsR s)).
rewrite subrr !mul0mx addr0 /= => <-; case: ok => _ pR _.
by apply: psdD; exact: psd_conj.
Qed.
Lemma kf_step_below b (s : lgstep nx ny) : psd (bcov b) -> step_ok s -> at_most (bcov (kf_step b s)) (pred_cov b s).
Proof. by move=> p ok; have [sP _] := pred_psd p ok; exact: (cond_below_prior sP (pred_pd p ok)). Qed.

Lemma beliefs_psd b (ss : list (lgstep nx ny)) : psd (bcov b) -> (forall s, List.In s ss -> step_ok s) ->
  forall t b', List.nth_error (kf_beliefs b ss) t = Some b' -> psd (bcov b').
Proof.
elim: ss b => [|s ss IH] b p ok [|t] b' //=; [by move=> [<-]|by case: t|by move=> [<-]|].
by apply: IH; [apply: kf_step_psd => //; apply: ok; left|move=> s' h; apply: ok; right].
Qed.

Lemma minimum_variance gain (ss : list (lgstep nx ny)) : forall k b P, psd (bcov b) -> at_most (bcov b) P ->
  (forall s, List.In s ss -> step_ok s) ->
  forall t b' P', List.nth_error (kf_beliefs b ss) t = Some b' -> List.nth_error (error_covs gain k P ss) t = Some P' ->
  at_most (bcov b') P'.
Proof.
elim: ss => [|s ss IH] k b P p le ok [|t] b' P' //=; try by move=> [<-] [<-].
  by case: t.
apply: (IH k.+1); [|  |by move=> s' h; apply: ok; right].
  by apply: kf_step_psd => //; apply: ok; left.
have oks : step_ok s by apply: ok; left.
have [sP _] := pred_psd p oks.
apply: at_most_trans (cond_below sP (pred_pd p oks) (gain k (ly s))) _.
apply: at_mostD (at_most_refl _); apply: at_most_conj.
by apply: at_mostD (at_most_refl _); apply: at_most_conj.
Qed.

Lemma more_observations (ss ss' : list (lgstep nx ny)) : List.Forall2 (@sees_more nx ny) ss ss' -> forall b b',
  psd (bcov b) -> psd (bcov b') -> at_most (bcov b) (bcov b') ->
  (forall s, List.In s ss -> step_ok s) -> (forall s, List.In s ss' -> step_ok s) ->
  forall t c c', List.nth_error (kf_beliefs b ss) t = Some c -> List.nth_error (kf_beliefs b' ss') t = Some c' ->
  at_most (bcov c) (bcov c').
Proof.
elim=> [|s s' rs rs' [eF eQ eH eR sub] _ IH] b b' p p' le ok ok' [|t] c c' //=; try by move=> [<-] [<-].
  by case: t.
have oks : step_ok s by apply: ok; left.
have oks' : step_ok s' by apply: ok'; left.
apply: IH; [exact: kf_step_psd|exact: kf_step_psd| |by move=> z h; apply: ok; right|by move=> z h; apply: ok'; right].
have [sP _] := pred_psd p oks; have [sP' _] := pred_psd p' oks'.
have := pred_pd p oks; have := pred_pd p' oks'.
rewrite /= /obsH /obsR -eH -eR => q' q.
apply: cond_mask => //; rewrite /pred_cov eF eQ.
by apply: at_mostD (at_most_refl _); apply: at_most_conj.
Qed.

(** smoothing: P_s = P + G (P_s' - Pp) G^T *)
Lemma rts_below n (P F Q P' : 'M[R]_n) : at_most P' (rts_pred P F Q) -> at_most (rts_cov P F Q P') P.
Proof.
move=> le v; rewrite /rts_cov varianceD variance_conj varianceB ger_addl subr_le0; exact: le.
Qed.
End Runs.
