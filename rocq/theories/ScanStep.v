(** One scan step of the Kalman filter is predict followed by update. *)
From Coq Require Import Reals Lra.
From mathcomp Require Import all_ssreflect all_algebra.
From Verif Require Import RStruct MxBase ZmodTac KalmanModel GaussSpec MvnProofs MvnProofs2 KalmanProofs BayesProofs OpAlgebra FilterOp.
Set Implicit Arguments.
Unset Strict Implicit.
Unset Printing Implicit Defensive.
Local Open Scope ring_scope.
Import GRing.Theory Num.Theory Order.Theory.

(** ** algebra *)
Section StepAlg.
Variables nx ny : nat.
Variables (P Q F : 'M[R]_nx) (H : 'M[R]_(ny, nx)) (Rn S St : 'M[R]_ny) (K : 'M[R]_(nx, ny)) (Pp : 'M[R]_nx)
  (Hf : 'M[R]_(ny, nx)) (m : 'cV[R]_nx) (r : 'cV[R]_ny) (D J : 'M[R]_nx).
Hypotheses (sP : P^T = P) (sQ : Q^T = Q) (sS : S^T = S) (sSt : St^T = St).
Hypotheses (HfE : Hf = H *m F) (PpE : Pp = F *m P *m F^T + Q)
  (StE : St = Hf *m P *m Hf^T + S) (uS : S \in unitmx) (uSt : St \in unitmx)
  (KE : K = Q *m H^T *m invmx S) (JE : J = Hf^T *m invmx S *m Hf)
  (hD : D *m (1%:M + P *m J) = 1%:M).
Let W := Hf *m P *m Hf^T.
Lemma WE : Hf *m P *m Hf^T = St - S. Proof. by rewrite StE addrK. Qed.
Lemma DE : D = 1%:M - P *m Hf^T *m invmx St *m Hf.
Proof.
suff h : (1%:M + P *m J) *m (1%:M - P *m Hf^T *m invmx St *m Hf) = 1%:M.
  by move: h; set X := 1%:M - _ => h; rewrite -[LHS]mulmx1 -h mulmxA hD mul1mx.
have -> : (1%:M + P *m J) *m (1%:M - P *m Hf^T *m invmx St *m Hf)
  = 1%:M + P *m Hf^T *m invmx S *m Hf - P *m Hf^T *m invmx St *m Hf
    - P *m Hf^T *m invmx S *m (Hf *m P *m Hf^T) *m invmx St *m Hf.
  by rewrite JE; mxzmod.
rewrite WE mulmxBr mulmxBl -!(mulmxA _ (invmx S) S) mulVmx // mulmx1.
by rewrite mulmxBl -(mulmxA _ St (invmx St)) mulmxV // mulmx1; zmod.
Qed.
Lemma DPE : D *m P = P - P *m Hf^T *m invmx St *m Hf *m P.
Proof. by rewrite DE mulmxBl mul1mx. Qed.
Lemma HfD : Hf *m D = S *m invmx St *m Hf.
Proof.
have -> : Hf *m D = Hf - (Hf *m P *m Hf^T) *m invmx St *m Hf by rewrite DE; mxzmod.
by rewrite WE !mulmxBl mulmxV // mul1mx; zmod.
Qed.
Lemma KS : K *m S = Q *m H^T. Proof. by rewrite KE mulmxKV. Qed.
Lemma SKT : S *m K^T = H *m Q. Proof. by rewrite -[in LHS]sS -trmx_mul KS !trmxE sQ. Qed.
Lemma A2D : (F - K *m Hf) *m D = F - Pp *m H^T *m invmx St *m Hf.
Proof.
rewrite mulmxBl -(mulmxA K) HfD !mulmxA KS DE PpE HfE.
by rewrite !trmxE; mxzmod.
Qed.
Lemma step_mean : (F - K *m Hf) *m D *m (m + P *m (Hf^T *m (invmx S *m r))) + K *m r
  = F *m m + Pp *m H^T *m invmx St *m (r - Hf *m m).
Proof.
rewrite A2D.
have -> : (F - Pp *m H^T *m invmx St *m Hf) *m (m + P *m (Hf^T *m (invmx S *m r))) =
  F *m m - Pp *m H^T *m invmx St *m Hf *m m + F *m P *m Hf^T *m invmx S *m r
  - Pp *m H^T *m invmx St *m (Hf *m P *m Hf^T) *m invmx S *m r by mxzmod.
rewrite WE mulmxBr -(mulmxA _ (invmx St) St) mulVmx // mulmx1 KE.
rewrite !mulmxBl -(mulmxA _ S (invmx S)) mulmxV // mulmx1 PpE HfE !trmxE.
by mxzmod.
Qed.
Lemma step_cov : (F - K *m Hf) *m D *m P *m (F - K *m Hf)^T + (Q - K *m H *m Q)
  = Pp - Pp *m H^T *m invmx St *m H *m Pp.
Proof.
have e1 : (F - K *m Hf) *m D *m P *m Hf^T = Pp *m H^T *m invmx St *m S - Q *m H^T.
  rewrite A2D; have -> : (F - Pp *m H^T *m invmx St *m Hf) *m P *m Hf^T =
    F *m P *m Hf^T - Pp *m H^T *m invmx St *m (Hf *m P *m Hf^T) by mxzmod.
  rewrite WE mulmxBr -(mulmxA _ (invmx St) St) mulVmx // mulmx1 PpE HfE !trmxE.
  by mxzmod.
have -> : (F - K *m Hf) *m D *m P *m (F - K *m Hf)^T
  = (F - K *m Hf) *m D *m P *m F^T - ((F - K *m Hf) *m D *m P *m Hf^T) *m K^T.
  rewrite !trmxE; mxexpand; zmod.
rewrite e1 A2D mulmxBl -(mulmxA _ S) SKT.
have -> : K *m H *m Q = Q *m H^T *m K^T by rewrite KE !trmxE trmx_inv sS sQ !mulmxA.
by rewrite PpE HfE; mxzmod.
Qed.
Lemma step_q : op_q P J D m (Hf^T *m (invmx S *m r))
  = r^T *m invmx S *m r - (r - Hf *m m)^T *m invmx St *m (r - Hf *m m).
Proof.
have i1 : invmx S *m Hf *m D = invmx St *m Hf.
  by rewrite -mulmxA HfD !mulmxA mulVmx // mul1mx.
have sSi : (invmx S)^T = invmx S by rewrite trmx_inv sS.
have sSti : (invmx St)^T = invmx St by rewrite trmx_inv sSt.
have i2 : D^T *m Hf^T *m invmx S = Hf^T *m invmx St.
  by have := congr1 trmx i1; rewrite !trmxE sSi sSti mulmxA.
have i3 : invmx S *m Hf *m D *m P *m Hf^T *m invmx S = invmx S - invmx St.
  rewrite i1; have -> : invmx St *m Hf *m P *m Hf^T *m invmx S = invmx St *m (Hf *m P *m Hf^T) *m invmx S.
    by rewrite !mulmxA.
  by rewrite WE mulmxBr mulVmx // mulmxBl mul1mx -mulmxA mulmxV // mulmx1.
have -> : op_q P J D m (Hf^T *m (invmx S *m r)) =
  r^T *m (invmx S *m Hf *m D *m P *m Hf^T *m invmx S) *m r + r^T *m (invmx S *m Hf *m D) *m m
  + m^T *m (D^T *m Hf^T *m invmx S) *m r - m^T *m Hf^T *m (invmx S *m Hf *m D) *m m.
  by rewrite /op_q JE !trmxE sSi; mxzmod.
by rewrite i3 i1 i2 !trmxE; mxzmod.
Qed.
Lemma step_det : \det (1%:M + P *m J) * \det S = \det St.
Proof.
have -> : 1%:M + P *m J = 1%:M + (P *m Hf^T) *m (invmx S *m Hf) by rewrite JE !mulmxA.
rewrite sylvester mulrC -det_mulmx StE; congr (\det _).
by rewrite mulmxDr mulmx1 !mulmxA mulmxV // mul1mx addrC.
Qed.
End StepAlg.

Section Model.
Variable tria : forall m l : nat, 'M[R]_(m, l) -> 'M[R]_m.
Hypothesis tria_spec : tria_ok tria.
Variables nx ny : nat.

Lemma cov_square (Z : 'M[R]_(nx, ny)) : cov (square_Z tria Z) = cov Z.
Proof.
rewrite /square_Z; case: ifP => [lt|/negbT]; last by rewrite -leqNgt => le; exact: (tria_cov tria_spec).
apply/matrixP => i j; rewrite !mxE.
transitivity (\sum_(k < nx | (k < ny)%N) (if insub (k : nat) is Some l then Z i l * Z j l else 0)).
  rewrite [RHS]big_mkcond /=; apply: eq_bigr => k _; rewrite !mxE.
  by case: insubP => [l hl _|/negbTE ->]; rewrite ?hl // mul0r.
rewrite (big_ord_narrow (ltnW lt)) /=; apply: eq_bigr => k _.
by rewrite !mxE; case: insubP => [l hl e|]; rewrite ?ltn_ord //; have -> : l = k by exact: val_inj.
Qed.

Section Core.
Variables (F : 'M[R]_nx) (c : 'cV[R]_nx) (Lq : 'M[R]_nx).
Definition params_core (H : 'M[R]_(ny, nx)) (d : 'cV[R]_ny) (X : 'M[R]_ny) (y : 'cV[R]_ny) :=
  let T := tria (block_mx (H *m Lq) X Lq (0 : 'M[R]_(nx, ny))) in
  let Pi := solve_lower (ulsubmx T) 1%:M in
  let K := dlsubmx T *m Pi in
  let HF := H *m F in
  let Z := HF^T *m Pi^T in
  MkFSE (F - K *m HF) (c + K *m (y - H *m c - d)) (drsubmx T) (Z *m (Pi *m (y - H *m c - d)))
    (square_Z tria Z) (logpdf_mx y (H *m c + d) (ulsubmx T)).
Lemma paramsE H d X (y : 'cV[option R]_ny) :
  associative_params_single tria F c Lq H d X y =
  let flag i := isnan (y i ord0) in
  params_core (collect_rest flag H) (collect_rest flag d) (collect_nans_chol tria flag X)
    (collect_rest flag (map_mx value y)).
Proof. by []. Qed.
Lemma params_coreE H d X y e :
  let Q := cov Lq in
  let S := innovation_cov Q H (cov X) in
  let K := kalman_gain Q H (cov X) in
  S \in unitmx -> params_core H d X y = e ->
  [/\ fA e = F - K *m (H *m F), fb e = c + K *m (y - H *m c - d), is_trig_mx (fU e),
      cov (fU e) = cond_cov Q H (cov X) &
  [/\ feta e = (H *m F)^T *m (invmx S *m (y - H *m c - d)), cov (fZ e) = (H *m F)^T *m invmx S *m (H *m F) &
      fell e = gauss y (H *m c + d) S]].
Proof.
move=> Q S K uS; rewrite /params_core; set T := tria _ => <- /=.
have [t1 t2] : is_trig_mx (ulsubmx T) /\ is_trig_mx (drsubmx T) := joint_trig tria_spec H X Lq.
have [_ [e1 _ _]] := joint_block tria_spec H X Lq; have [u g cc] := joint_unit tria_spec uS.
rewrite -/T -/S in e1 u g cc.
have Si : (invmx (ulsubmx T))^T *m invmx (ulsubmx T) = invmx S.
  by rewrite -e1 trmx_inv /cov invmxM // unitmx_tr.
rewrite solve_lowerE // mulmx1 g; split=> //; split.
- by rewrite -Si !mulmxA.
- by rewrite cov_square cov_mul trmxK /cov trmxK Si.
- by rewrite logpdf_mxE // e1.
Qed.
End Core.

Lemma opP (e1 e2 e : FilterScanElement nx) : filtering_operator tria e1 e2 = e ->
  let D := invmx (1%:M + cov (fU e1) *m cov (fZ e2)) in
  [/\ fA e = fA e2 *m D *m fA e1, fb e = fA e2 *m D *m (fb e1 + cov (fU e1) *m feta e2) + fb e2,
      cov (fU e) = fA e2 *m D *m cov (fU e1) *m (fA e2)^T + cov (fU e2),
      feta e = (fA e1)^T *m (D^T *m (feta e2 - cov (fZ e2) *m fb e1)) + feta e1 &
  [/\ cov (fZ e) = (fA e1)^T *m cov (fZ e2) *m D *m fA e1 + cov (fZ e1),
      is_trig_mx (fU e), is_trig_mx (fZ e) &
      good e1 -> fell e = fell e1 + fell e2
        + 2%:R^-1 * op_q (cov (fU e1)) (cov (fZ e2)) D (fb e1) (feta e2) ord0 ord0
        - 2%:R^-1 * ln `|\det (1%:M + cov (fU e1) *m cov (fZ e2))|]].
Proof.
move=> <-; have [[a1 a2 a3 a4 a5] a6] := opE tria_spec e1 e2.
by split=> //; split=> //; case: e1 e2 {a1 a2 a3 a4 a5 a6} => ? ? ? ? ? ? [? ? ? ? ? ?] /=;
  apply: (tria_trig tria_spec); exact: leq_addl.
Qed.

Lemma innovT n p (H : 'M[R]_(p, n)) (L : 'M[R]_n) (X : 'M[R]_p) :
  (innovation_cov (cov L) H (cov X))^T = innovation_cov (cov L) H (cov X).
Proof. by rewrite /innovation_cov -cov_mul -cov_row covT. Qed.
Lemma ln_split (a b c : R) : Rlt 0 b -> Rlt 0 c -> a * b = c -> ln c = ln `|a| + ln b.
Proof.
move=> hb hc e; have a0 : a != 0 by apply/eqP => h; move: hc; rewrite -e h mul0r; exact: Rlt_irrefl.
rewrite -lnM; [|exact: norm_pos|by []].
suff -> : `|a| = a by rewrite e.
apply: ger0_norm; apply/RleP; rewrite -e in hc; move: hb hc; rewrite ?RE => hb hc.
by apply: Rnot_lt_le => ha; nra.
Qed.
Lemma mxB p q (A B : 'M[R]_(p, q)) i j : (A - B) i j = A i j - B i j.
Proof. by rewrite !mxE. Qed.
(** one step *)
Section Step.
Variables (F : 'M[R]_nx) (c : 'cV[R]_nx) (Lq : 'M[R]_nx).
Variables (H : 'M[R]_(ny, nx)) (d : 'cV[R]_ny) (X : 'M[R]_ny) (y : 'cV[R]_ny).
Variables (m : 'cV[R]_nx) (L : 'M[R]_nx) (l : R).
Hypothesis uS : innovation_cov (cov Lq) H (cov X) \in unitmx.
Lemma step_core mp Lp mu Lu lu e :
  predict tria m L F c Lq = (mp, Lp) -> update_core tria mp Lp H d X y l = (mu, Lu, lu) ->
  filtering_operator tria (MkFSE 0 m L 0 0 l) (params_core F c Lq H d X y) = e ->
  [/\ fA e = 0, feta e = 0, fZ e = 0, fb e = mu &
  [/\ is_trig_mx (fU e), cov (fU e) = cov Lu & is_trig_mx L -> L \in unitmx -> fell e = lu]].
Proof.
move=> /(predict_spec tria_spec) [-> tLp eLp].
set e2 := params_core _ _ _ _ _ _ _.
have := params_coreE uS (erefl e2); clearbody e2.
move=> [A2E b2E t2 U2E [h2E Z2E l2E]].
have uS' := uS; set S := innovation_cov (cov Lq) H (cov X) in uS' h2E Z2E l2E.
have SE : S = H *m cov Lq *m H^T + cov X by [].
have StE : innovation_cov (cov Lp) H (cov X) = (H *m F) *m cov L *m (H *m F)^T + S.
  by rewrite /innovation_cov eLp SE trmx_mul; mxzmod.
have gS : S = cov (row_mx (H *m Lq) X) by rewrite cov_row cov_mul.
have sS : S^T = S by rewrite gS covT.
have pS : psd (H *m F *m cov L *m (H *m F)^T).
  have -> : H *m F *m cov L *m (H *m F)^T = cov (H *m F *m L) by rewrite cov_mul.
  exact: gram_psd.
have uSt : innovation_cov (cov Lp) H (cov X) \in unitmx.
  rewrite StE; apply: pd_unit; apply: pdDr => //.
  by rewrite gS; apply: gram_pd; rewrite -/(cov _) -gS.
move=> /(update_coreP tria_spec uSt) [-> tLu eLu ->] eE.
have [] := opP eE; rewrite /= !trmx0 ?mul0mx ?mulmx0 ?addr0 => q1 q2 q3 q4 [q5 tU _ q6].
have uD : 1%:M + cov L *m cov (fZ e2) \in unitmx by exact: unit_CJ.
have hD := mulVmx uD.
split=> //.
- by apply: gram_eq0; rewrite -/(cov _) q5 /cov trmx0 mulmx0 addr0.
- rewrite q2 /cond_mean /kalman_gain A2E b2E h2E StE eLp.
  rewrite StE in uSt; rewrite Z2E in hD uD *.
  have h := step_mean m (y - H *m c - d) erefl (erefl (F *m cov L *m F^T + cov Lq)) erefl uS' uSt erefl erefl hD.
  have -> : y - (H *m (F *m m + c) + d) = y - H *m c - d - H *m F *m m by mxzmod.
  by rewrite addrCA h; zmod.
split=> //.
- rewrite q3 eLu /cond_cov /kalman_gain StE eLp A2E U2E.
  rewrite StE in uSt; rewrite Z2E in hD uD *.
  exact: (step_cov (covT Lq) sS erefl (erefl (F *m cov L *m F^T + cov Lq)) erefl uS' uSt erefl erefl hD).
have sSt := innovT H Lp X; rewrite StE in sSt.
move=> tL uL; rewrite q6 //= l2E h2E StE.
rewrite StE in uSt; rewrite Z2E in hD uD *.
rewrite (step_q m (y - H *m c - d) sS sSt erefl uS' uSt erefl hD).
have := @step_det _ _ (cov L) S _ (H *m F) _ erefl uS' erefl => hdet.
have pS' : Rlt 0 (\det S) by rewrite gS; apply: (det_pos_gram tria_spec); rewrite -/(cov _) -gS.
have pSt : Rlt 0 (\det (H *m F *m cov L *m (H *m F)^T + S)).
  by rewrite -StE; apply: (innov_full_pos tria_spec); rewrite StE.
rewrite /gauss (ln_split pS' pSt hdet) /mahalanobis.
have -> : y - (H *m (F *m m + c) + d) = y - H *m c - d - H *m F *m m by mxzmod.
have -> : y - (H *m c + d) = y - H *m c - d by zmod.
rewrite mxB.
move: ((_ *m _) _ _) ((_ *m _) _ _) (ln `|_|) (ln _) (ln _) => a b u v w.
by toR; field.
Qed.
End Step.

(** C14 *)
Section Full.
Variables (F : 'M[R]_nx) (c : 'cV[R]_nx) (Lq : 'M[R]_nx).
Variables (H : 'M[R]_(ny, nx)) (d : 'cV[R]_ny) (X : 'M[R]_ny) (y : 'cV[option R]_ny).
Let Ho := obs_rows y H.
Let Ro := obs_block y (cov X).
Hypothesis uS : innovation_cov (cov Lq) Ho Ro \in unitmx.
Let flag i := isnan (y i ord0).
Let uSp : innovation_cov (cov Lq) (collect_rest flag H) (cov (collect_nans_chol tria flag X)) \in unitmx.
Proof. by rewrite (innov_padded tria_spec); apply: padded_unit. Qed.
Lemma scan_step m L l mp Lp mu Lu lu e :
  predict tria m L F c Lq = (mp, Lp) -> update tria mp Lp H d X y l = (mu, Lu, lu) ->
  filtering_operator tria (MkFSE 0 m L 0 0 l) (associative_params_single tria F c Lq H d X y) = e ->
  [/\ fA e = 0, feta e = 0, fZ e = 0, fb e = mu &
  [/\ is_trig_mx (fU e), cov (fU e) = cov Lu & is_trig_mx L -> L \in unitmx -> fell e = lu]].
Proof. exact: (step_core uSp). Qed.
Lemma innov_predict (L : 'M[R]_nx) : innovation_cov (F *m cov L *m F^T + cov Lq) Ho Ro \in unitmx.
Proof.
have gS := innov_gram Lq H X y.
have -> : innovation_cov (F *m cov L *m F^T + cov Lq) Ho Ro = cov (Ho *m F *m L) + innovation_cov (cov Lq) Ho Ro.
  by rewrite cov_mul /innovation_cov; move: (cov L) => P; rewrite !trmxE; mxzmod.
apply: pd_unit; apply: pdDr; first exact: gram_psd.
by rewrite gS; apply: gram_pd; rewrite -/(cov _) -gS.
Qed.
Lemma noise_unit : Ro \in unitmx -> cov (collect_nans_chol tria flag X) \in unitmx.
Proof. by move=> u; have [_ ->] := collect_nansE y tria_spec X; apply: padded_unit. Qed.
Lemma params_good : Lq \in unitmx -> Ro \in unitmx -> good (associative_params_single tria F c Lq H d X y).
Proof.
move=> uQ uR; rewrite paramsE.
have [_ _ tU eU _] := params_coreE (F := F) (c := c) (d := collect_rest flag d) (y := collect_rest flag (map_mx value y)) uSp erefl.
split=> //; rewrite -gram_unit -/(cov _) eU.
have uQ' : cov Lq \in unitmx by rewrite gram_unit.
exact: (cond_unit (erefl _) (erefl _) uSp uQ' (noise_unit uR) (erefl _)).
Qed.
End Full.
End Model.
