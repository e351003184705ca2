(** Proofs about models side by side and models in other coordinates. *)
From Coq Require Import Reals Lra Lia List.
From mathcomp Require Import all_ssreflect all_algebra.
From Verif Require Import RStruct MxBase ZmodTac KalmanModel GaussSpec KalmanSpec LinearizeProofs2 LinearFilter
  BayesProofs MvnProofs MvnProofs2 FilterOp Trajectory IntertwineProofs ProductSpec.
Set Implicit Arguments.
Unset Strict Implicit.
Unset Printing Implicit Defensive.
Local Open Scope ring_scope.
Import GRing.Theory Num.Theory Order.Theory.

(** ** Gaussian log densities under linear maps *)
Lemma mahalanobis_congr k (D S : 'M[R]_k) v : D \in unitmx -> S \in unitmx ->
  mahalanobis (D *m S *m D^T) (D *m v) = mahalanobis S v.
Proof.
move=> uD uS; have uDT : D^T \in unitmx by rewrite unitmx_tr.
rewrite /mahalanobis invmxM ?unitmx_mul ?uD // invmxM // trmx_mul; congr (_ _ _).
rewrite -!mulmxA (mulmxA (invmx D) D) mulVmx // mul1mx; congr (_ *m _).
by rewrite mulmxA mulmxV // mul1mx.
Qed.
Lemma gauss_congr k (D S : 'M[R]_k) v m : D \in unitmx -> pd S ->
  gauss (D *m v) (D *m m) (D *m S *m D^T) = gauss v m S - ln `|\det D|.
Proof.
move=> uD pS; have uS := pd_unit pS.
have dD : \det D != 0 by rewrite -unitfE -unitmxE.
have pD : Rlt 0 `|\det D| by apply/RltP; rewrite normr_gt0.
rewrite /gauss -mulmxBr mahalanobis_congr //.
have -> : \det (D *m S *m D^T) = (`|\det D| * `|\det D|) * \det S.
  by rewrite !det_mulmx det_tr -expr2 real_normK ?num_real // expr2 mulrAC.
have pDD : Rlt 0 (`|\det D| * `|\det D|) by apply: Rmult_lt_0_compat.
rewrite (ln_prod2 pDD (pd_det_pos pS)) (ln_prod2 pD pD).
by rewrite RhalfE RtwoE; toR; field.
Qed.
(** two orthonormal frames of the same subspace *)
Lemma frame_size k k' n (A : 'M[R]_(k, n)) (B : 'M[R]_(k', n)) : A *m A^T = 1%:M -> B *m B^T = 1%:M ->
  A^T *m A = B^T *m B -> k = k'.
Proof.
move=> a b e; apply/eqP; rewrite -(eqr_nat [numDomainType of R]).
by rewrite -[k%:R]mxtrace1 -[k'%:R]mxtrace1 -a -b mxtrace_mulC e mxtrace_mulC.
Qed.
Lemma gauss_frame k k' n (A : 'M[R]_(k, n)) (B : 'M[R]_(k', n)) (S : 'M[R]_n) v m : A *m A^T = 1%:M -> B *m B^T = 1%:M ->
  A^T *m A = B^T *m B -> pd (A *m S *m A^T) ->
  gauss (B *m v) (B *m m) (B *m S *m B^T) = gauss (A *m v) (A *m m) (A *m S *m A^T).
Proof.
move=> a b e; have ek := frame_size a b e; subst k'.
pose Q := B *m A^T; have QA : Q *m A = B by rewrite /Q -mulmxA e mulmxA b mul1mx.
have QQ : Q *m Q^T = 1%:M by rewrite {2}/Q trmx_mul trmxK mulmxA QA.
have uQ : Q \in unitmx by case/mulmx1_unit: QQ.
move=> pS; rewrite -QA.
have -> : Q *m A *m S *m (Q *m A)^T = Q *m (A *m S *m A^T) *m Q^T by rewrite trmx_mul !mulmxA.
rewrite -(mulmxA Q A v) -(mulmxA Q A m) gauss_congr //.
suff -> : `|\det Q| = 1 by rewrite ln1 subr0.
apply/eqP; rewrite -(@eqr_expn2 _ 2) ?normr_ge0 ?ler01 // expr1n real_normK ?num_real // expr2.
by rewrite -{2}det_tr -det_mulmx QQ det1.
Qed.

(** ** block diagonal covariances *)
Lemma diag_blockM m p (A A' : 'M[R]_m) (B B' : 'M[R]_p) :
  diag_block A B *m diag_block A' B' = diag_block (A *m A') (B *m B').
Proof. by rewrite /diag_block mulmx_block !mulmx0 !mul0mx !addr0 !add0r. Qed.
Lemma diag_block1 m p : diag_block 1%:M 1%:M = 1%:M :> 'M[R]_(m + p).
Proof. by rewrite /diag_block -scalar_mx_block. Qed.
Lemma diag_block_inv m p (A : 'M[R]_m) (B : 'M[R]_p) : A \in unitmx -> B \in unitmx ->
  invmx (diag_block A B) = diag_block (invmx A) (invmx B).
Proof. by move=> uA uB; apply: invmx_uniq; rewrite diag_blockM !mulmxV // diag_block1. Qed.
Lemma diag_block_pd m p (A : 'M[R]_m) (B : 'M[R]_p) : pd A -> pd B -> pd (diag_block A B).
Proof.
move=> [sA pA] [sB pB]; split; first by rewrite /diag_block tr_block_mx sA sB !trmx0.
move=> v; rewrite -[v]vsubmxK; set a := usubmx v; set b := dsubmx v.
have -> : qf (diag_block A B) (col_mx a b) = qf A a + qf B b.
  by rewrite /qf /diag_block tr_col_mx mul_row_block !mulmx0 addr0 add0r mul_row_col mxE.
move=> ne; have [a0|na] := eqVneq a 0.
  have nb : b != 0 by apply: contraNneq ne => b0; rewrite a0 b0 col_mx0.
  by rewrite a0 {1}/qf mulmx0 mxE add0r pB.
have pa := pA _ na; have [b0|nb] := eqVneq b 0; first by rewrite b0 {2}/qf mulmx0 mxE addr0.
by apply: addr_gt0 => //; exact: pB.
Qed.
Lemma gauss_both m p (v1 m1 : 'cV[R]_m) (S1 : 'M[R]_m) (v2 m2 : 'cV[R]_p) (S2 : 'M[R]_p) : pd S1 -> pd S2 ->
  gauss (col_mx v1 v2) (col_mx m1 m2) (diag_block S1 S2) = gauss v1 m1 S1 + gauss v2 m2 S2.
Proof.
move=> p1 p2; have d1 := pd_det_pos p1; have d2 := pd_det_pos p2.
rewrite /gauss {1}/mahalanobis opp_col_mx add_col_mx diag_block_inv ?pd_unit //.
have -> : \det (diag_block S1 S2) = \det S1 * \det S2 by rewrite /diag_block det_ublock.
rewrite (ln_prod2 d1 d2) /diag_block tr_col_mx mul_row_block !mulmx0 addr0 add0r mul_row_col mxE.
rewrite -!/(mahalanobis _ _) natrD RhalfE RtwoE; move: (mahalanobis _ _) (mahalanobis _ _) => a b.
by toR; field.
Qed.
Lemma frame_pd k k' n (A : 'M[R]_(k, n)) (B : 'M[R]_(k', n)) (S : 'M[R]_n) : A *m A^T = 1%:M -> B *m B^T = 1%:M ->
  A^T *m A = B^T *m B -> pd (A *m S *m A^T) -> pd (B *m S *m B^T).
Proof.
move=> a b e; have ek := frame_size a b e; subst k'.
pose Q := B *m A^T; have QA : Q *m A = B by rewrite /Q -mulmxA e mulmxA b mul1mx.
have QQ : Q *m Q^T = 1%:M by rewrite {2}/Q trmx_mul trmxK mulmxA QA.
clearbody Q; move=> [sS pS]; have -> : B *m S *m B^T = Q *m (A *m S *m A^T) *m Q^T by rewrite -QA trmx_mul !mulmxA.
move: (A *m S *m A^T) sS pS => M sM pM; split; first by rewrite !trmx_mul trmxK sM mulmxA.
move=> v nv; have -> : qf (Q *m M *m Q^T) v = qf M (Q^T *m v) by rewrite /qf trmx_mul trmxK !mulmxA.
by apply: pM; apply: contraNneq nv => z; rewrite -[v]mul1mx -QQ -mulmxA z mulmx0.
Qed.

(** ** side by side *)
Section Both.
Variables n1 n2 k1 k2 : nat.
Section Frame.
Variables (y1 : 'cV[option R]_k1) (y2 : 'cV[option R]_k2).
Let y := col_mx y1 y2.
Definition Sel2 : 'M[R]_(_, k1 + k2) := block_mx (Sel y1) 0 0 (Sel y2).
Lemma Sel2_one : Sel2 *m Sel2^T = 1%:M.
Proof.
rewrite /Sel2 tr_block_mx !trmx0 mulmx_block !mulmx0 !mul0mx !addr0 !add0r !SelSelT.
by rewrite -scalar_mx_block.
Qed.
Lemma Sel2_mask : Sel2^T *m Sel2 = mask y.
Proof.
rewrite /Sel2 tr_block_mx !trmx0 mulmx_block !mulmx0 !mul0mx !addr0 !add0r -!/(mask _) !maskE /y.
apply/matrixP => i j; rewrite [RHS]mxE.
by case: (split_ordP i) => i' ->; case: (split_ordP j) => j' ->;
  rewrite ?block_mxEul ?block_mxEur ?block_mxEdl ?block_mxEdr ?col_mxEu ?col_mxEd mxE
    ?(inj_eq (@lshift_inj _ _)) ?(inj_eq (@rshift_inj _ _)) ?eq_lrshift ?eq_rlshift.
Qed.
Lemma mask_both : mask y = diag_block (mask y1) (mask y2).
Proof. by rewrite -Sel2_mask /Sel2 tr_block_mx !trmx0 mulmx_block !mulmx0 !mul0mx !addr0 !add0r. Qed.
End Frame.
Lemma Sel_one n (y : 'cV[option R]_n) : Sel y *m (Sel y)^T = 1%:M. Proof. exact: SelSelT. Qed.

Variables (b1 : belief n1) (b2 : belief n2) (s1 : lgstep n1 k1) (s2 : lgstep n2 k2).
Let b := both b1 b2.
Let s := both_step s1 s2.
Lemma pred_mean_both : pred_mean b s = col_mx (pred_mean b1 s1) (pred_mean b2 s2).
Proof. by rewrite /pred_mean /= /diag_block mul_block_col !mul0mx addr0 add0r add_col_mx. Qed.
Lemma pred_cov_both : pred_cov b s = diag_block (pred_cov b1 s1) (pred_cov b2 s2).
Proof.
rewrite /pred_cov /= !diag_blockM /diag_block tr_block_mx !trmx0 mulmx_block !mulmx0 !mul0mx !addr0 !add0r.
by rewrite add_block_mx !addr0.
Qed.
Lemma Sfull_both : Sfull b s = diag_block (Sfull b1 s1) (Sfull b2 s2).
Proof.
rewrite /Sfull pred_cov_both /= /diag_block tr_block_mx !trmx0 !mulmx_block !mulmx0 !mul0mx !addr0 !add0r.
by rewrite ?mul0mx ?mulmx0 ?addr0 add_block_mx ?addr0.
Qed.
Lemma Sel2_conj (S1 : 'M[R]_k1) (S2 : 'M[R]_k2) y1 y2 : Sel2 y1 y2 *m diag_block S1 S2 *m (Sel2 y1 y2)^T =
  diag_block (Sel y1 *m S1 *m (Sel y1)^T) (Sel y2 *m S2 *m (Sel y2)^T).
Proof. by rewrite /Sel2 /diag_block tr_block_mx !trmx0 !mulmx_block !mulmx0 !mul0mx !addr0 !add0r ?mul0mx ?mulmx0 ?addr0. Qed.
Hypothesis p1 : pd (innovation_cov (pred_cov b1 s1) (obsH s1) (obsR s1)).
Hypothesis p2 : pd (innovation_cov (pred_cov b2 s2) (obsH s2) (obsR s2)).
Let p1' : pd (Sel (ly s1) *m Sfull b1 s1 *m (Sel (ly s1))^T). Proof. by rewrite -innovE. Qed.
Let p2' : pd (Sel (ly s2) *m Sfull b2 s2 *m (Sel (ly s2))^T). Proof. by rewrite -innovE. Qed.
Let pJ : pd (Sel2 (ly s1) (ly s2) *m Sfull b s *m (Sel2 (ly s1) (ly s2))^T).
Proof. by rewrite Sfull_both Sel2_conj; exact: diag_block_pd. Qed.
Lemma innov_both : pd (innovation_cov (pred_cov b s) (obsH s) (obsR s)).
Proof.
rewrite innovE; apply: (frame_pd (Sel2_one _ _) (Sel_one _) _ pJ).
by rewrite Sel2_mask.
Qed.
Lemma both_rel1 : rel_step (row_mx 1%:M 0) (row_mx 1%:M 0) (row_mx 1%:M 0) (row_mx 1%:M 0) s s1.
Proof.
rewrite /s /both_step; split; split; rewrite /= ?mask_both /diag_block ?tr_block_mx ?trmx0 ?map_col_mx ?mul_row_block
  ?mul_row_col ?mul_mx_row ?mul1mx ?mul0mx ?mulmx1 ?mulmx0 ?addr0 ?add0r //.
Qed.
Lemma both_rel2 : rel_step (row_mx 0 1%:M) (row_mx 0 1%:M) (row_mx 0 1%:M) (row_mx 0 1%:M) s s2.
Proof.
rewrite /s /both_step; split; split; rewrite /= ?mask_both /diag_block ?tr_block_mx ?trmx0 ?map_col_mx ?mul_row_block
  ?mul_row_col ?mul_mx_row ?mul1mx ?mul0mx ?mulmx1 ?mulmx0 ?addr0 ?add0r //.
Qed.
Lemma rel_both1 (c1 : belief n1) (c2 : belief n2) : rel_belief (row_mx 1%:M 0) (row_mx 1%:M 0) (both c1 c2) c1.
Proof. by split; rewrite /= /diag_block ?mul_row_block ?mul_row_col ?mul_mx_row ?mul1mx ?mul0mx ?mulmx1 ?mulmx0 ?addr0 ?add0r. Qed.
Lemma rel_both2 (c1 : belief n1) (c2 : belief n2) : rel_belief (row_mx 0 1%:M) (row_mx 0 1%:M) (both c1 c2) c2.
Proof. by split; rewrite /= /diag_block ?mul_row_block ?mul_row_col ?mul_mx_row ?mul1mx ?mul0mx ?mulmx1 ?mulmx0 ?addr0 ?add0r. Qed.
(** the two relations determine the moments *)
Lemma both_mean (m : 'cV[R]_(n1 + n2)) m1 m2 : row_mx 1%:M 0 *m m = m1 -> row_mx 0 1%:M *m m = m2 -> m = col_mx m1 m2.
Proof. by rewrite -[m]vsubmxK !mul_row_col !mul1mx !mul0mx addr0 add0r => -> ->. Qed.
Lemma both_cov (P : 'M[R]_(n1 + n2)) P1 P2 : row_mx 1%:M 0 *m P = P1 *m row_mx 1%:M 0 ->
  row_mx 0 1%:M *m P = P2 *m row_mx 0 1%:M -> P = diag_block P1 P2.
Proof.
rewrite -[P]submxK !mul_row_block !mul_mx_row !mul1mx !mul0mx !mulmx1 !mulmx0 !addr0 !add0r.
by move=> /eq_row_mx [-> ->] /eq_row_mx [-> ->].
Qed.
Lemma kf_step_both : kf_step b s = both (kf_step b1 s1) (kf_step b2 s2).
Proof.
have u := pd_unit innov_both.
have [m1 P1] := rel_kf_step (rel_both1 b1 b2) both_rel1 u (pd_unit p1).
have [m2 P2] := rel_kf_step (rel_both2 b1 b2) both_rel2 u (pd_unit p2).
have em := both_mean m1 m2; have eP := both_cov P1 P2.
have el : bell (kf_step b s) = bell (kf_step b1 s1) + bell (kf_step b2 s2).
  rewrite /= -/b -/s {1 2 3}/obsy /obsH /obsd /obsR !innovE -!/(Sfull _ _) !obs_valuesE -!Sel_mul -!(mulmxA (Sel _) (lH _)) -!mulmxDr.
  rewrite (gauss_frame _ _ (Sel2_one (ly s1) (ly s2)) (Sel_one (ly s)) _ pJ) ?Sel2_mask //.
  rewrite Sfull_both Sel2_conj /Sel2 pred_mean_both /= map_col_mx mul_block_col !mul0mx !addr0 !add0r.
  rewrite !mul_block_col !mul0mx !addr0 !add0r add_col_mx mul_block_col !mul0mx !addr0 !add0r.
  by rewrite gauss_both // addrACA.
by move: (kf_step b s) em eP el => [m P l] /= -> -> ->.
Qed.
End Both.

(** ** other coordinates *)
Lemma pd_congr k (D S : 'M[R]_k) : D \in unitmx -> pd S -> pd (D *m S *m D^T).
Proof.
move=> uD [sS pS]; split; first by rewrite !trmx_mul trmxK sS mulmxA.
move=> v nv; have -> : qf (D *m S *m D^T) v = qf S (D^T *m v) by rewrite /qf trmx_mul trmxK !mulmxA.
apply: pS; apply: contraNneq nv => z; have uDT : D^T \in unitmx by rewrite unitmx_tr.
by rewrite -[v](mulKmx uDT) z mulmx0.
Qed.
Section Rewritten.
Variables nx ny : nat.
Variables (T : 'M[R]_nx) (u : 'cV[R]_ny).
Hypothesis uT : T \in unitmx.
Hypothesis un : forall i, u i ord0 != 0.
Let D := units u.
Lemma unitsE i j : D i j = if i == j then u i ord0 else 0.
Proof. by rewrite !mxE; case: eqP => [->|]; rewrite ?mulr1n ?mulr0n. Qed.
Lemma unitsT : D^T = D. Proof. by rewrite /D /units tr_diag_mx. Qed.
Lemma units_unit : D \in unitmx.
Proof. by rewrite unitmxE det_diag unitfE; apply/prodf_neq0 => i _; rewrite mxE. Qed.
Section Y.
Variable y : 'cV[option R]_ny.
Lemma mask_rescaled : mask (rescaled u y) = mask y.
Proof. by rewrite !maskE; apply/matrixP => i j; rewrite !mxE; case: (y i ord0). Qed.
Lemma mask_units : D *m mask y = mask y *m D.
Proof.
apply/matrixP => i j; rewrite !mxE (bigD1 i) //= big1 ?addr0; last by move=> k ne; rewrite unitsE eq_sym (negbTE ne) mul0r.
rewrite (bigD1 j) //= big1 ?addr0; last by move=> k ne; rewrite unitsE (negbTE ne) mulr0.
by rewrite !unitsE !eqxx maskE !mxE; case: (eqVneq i j) => [->|_] /=; rewrite ?mulr0 ?mul0r // mulrC.
Qed.
Lemma value_rescaled : D *m map_mx value y = map_mx value (rescaled u y).
Proof.
apply/matrixP => i j; rewrite !mxE (bigD1 i) //= big1 ?addr0; last by move=> k ne; rewrite unitsE eq_sym (negbTE ne) mul0r.
by rewrite unitsE eqxx !mxE [j]ord1; case: (y i ord0) => [v|] //=; rewrite mulr0.
Qed.
Definition units_obs : 'M[R]_(size (observed y)) := diag_mx (\row_a u (sel a) ord0).
Lemma Sel_units : Sel y *m D = units_obs *m Sel y.
Proof.
apply/matrixP => a j; rewrite Sel_mul mxE unitsE !mxE (bigD1 a) //= big1 ?addr0; last first.
  by move=> b ne; rewrite !mxE eq_sym (negbTE ne) mulr0n mul0r.
by rewrite !mxE eqxx mulr1n; case: eqP => _; rewrite ?mulr1 ?mulr0.
Qed.
Lemma units_obs_unit : units_obs \in unitmx.
Proof. by rewrite unitmxE det_diag unitfE; apply/prodf_neq0 => i _; rewrite mxE. Qed.
Lemma units_obsT : units_obs^T = units_obs. Proof. by rewrite /units_obs tr_diag_mx. Qed.
Lemma ln_norm_prod (I : Type) (r : seq I) (f : I -> R) : (forall i, f i != 0) ->
  ln `|\prod_(i <- r) f i| = \sum_(i <- r) ln `|f i|.
Proof.
move=> nz; elim: r => [|i r IH]; first by rewrite !big_nil normr1 ln1.
rewrite !big_cons normrM lnM ?IH //; apply: norm_pos => //.
by elim: r {IH} => [|k r IH]; rewrite ?big_nil ?oner_eq0 // big_cons mulf_neq0.
Qed.
Lemma units_obs_volume : ln `|\det units_obs| = \sum_(i | isSome (y i ord0)) ln `|u i ord0|.
Proof.
rewrite det_diag (eq_bigr (fun a => u (sel a) ord0)); last by move=> a _; rewrite mxE.
rewrite ln_norm_prod // /sel.
rewrite -(big_tnth _ _ (observed y) predT (fun i => ln `|u i ord0|)) /observed big_filter big_enum_cond /=.
by [].
Qed.
End Y.
Variables (b : belief nx) (s : lgstep nx ny) (e : R).
Let s' := rewritten_step T u s.
Let b' := rewritten T e b.
Let TT : 'M[R]_nx := (invmx T)^T.
Let TTt : T^T *m TT = 1%:M. Proof. by rewrite /TT -trmx_mul mulVmx // trmx1. Qed.
Lemma rewritten_rel (c : belief nx) x : rel_belief T TT c (rewritten T x c).
Proof. by split=> //=; rewrite -mulmxA TTt mulmx1. Qed.
Lemma rewritten_rel_step : rel_step T TT D (invmx D) s s'.
Proof.
split; split=> //=.
- by rewrite -mulmxA mulVmx // mulmx1.
- by rewrite !trmx_mul -!mulmxA TTt mulmx1.
- by rewrite -mulmxA TTt mulmx1.
- by rewrite -!mulmxA mulVmx // mulmx1.
- by rewrite !trmx_mul -/D unitsT -/TT -!mulmxA mulmxV ?units_unit // mulmx1.
- by rewrite -/D -!mulmxA mulmxV ?units_unit // mulmx1.
- by rewrite mask_rescaled mask_units.
- rewrite mask_rescaled; move: (mask _) (mask_units (ly s)) => M h.
  by rewrite -[LHS](mulmxK units_unit) -(mulmxA _ M) -h mulKmx ?units_unit.
- exact: value_rescaled.
Qed.
Hypothesis p : pd (innovation_cov (pred_cov b s) (obsH s) (obsR s)).
Let pS : pd (Sel (ly s) *m Sfull b s *m (Sel (ly s))^T). Proof. by rewrite -innovE. Qed.
Lemma Sfull_rewritten : Sfull b' s' = D *m Sfull b s *m D.
Proof.
have := rel_S (rewritten_rel b e) rewritten_rel_step.
by move=> ->; rewrite mulmxKV ?units_unit.
Qed.
Let cE : Sel (ly s) *m Sfull b' s' *m (Sel (ly s))^T =
  units_obs (ly s) *m (Sel (ly s) *m Sfull b s *m (Sel (ly s))^T) *m (units_obs (ly s))^T.
Proof.
rewrite Sfull_rewritten !mulmxA Sel_units -!mulmxA; do 3!congr (_ *m _).
by rewrite -{1}unitsT -trmx_mul Sel_units trmx_mul.
Qed.
Let pS' : pd (Sel (ly s) *m Sfull b' s' *m (Sel (ly s))^T).
Proof. by rewrite cE; apply: pd_congr => //; exact: units_obs_unit. Qed.
Let fr : (Sel (ly s))^T *m Sel (ly s) = (Sel (ly s'))^T *m Sel (ly s').
Proof. by rewrite -!/(mask _) mask_rescaled. Qed.
Lemma innov_rewritten : pd (innovation_cov (pred_cov b' s') (obsH s') (obsR s')).
Proof. by rewrite innovE; exact: (frame_pd (Sel_one _) (Sel_one _) fr pS'). Qed.
Lemma kf_step_rewritten : kf_step b' s' = rewritten T (e + log_volume u s) (kf_step b s).
Proof.
have [m1 P1] := rel_kf_step (rewritten_rel b e) rewritten_rel_step (pd_unit p) (pd_unit innov_rewritten).
have [mp _] := rel_pred (rewritten_rel b e) rewritten_rel_step.
have el : bell (kf_step b' s') = bell (kf_step b s) - (e + log_volume u s).
  rewrite /= -/b' -/s' /obsy /obsH /obsd /obsR !innovE -!/(Sfull _ _) !obs_valuesE -!Sel_mul -!(mulmxA (Sel _) (lH _)) -!mulmxDr.
  rewrite (gauss_frame _ _ (Sel_one (ly s)) (Sel_one (ly s')) fr pS') cE.
  rewrite -[map_mx value (ly s')]value_rescaled -/(lH s') -mp.
  have -> : lH s' *m (T *m pred_mean b s) + ld s' = D *m (lH s *m pred_mean b s + ld s).
    by case: rewritten_rel_step => _ [rH _ rd _] _; rewrite mulmxA -rH mulmxDr rd mulmxA.
  rewrite !(mulmxA (Sel (ly s)) D) Sel_units -!(mulmxA (units_obs _) (Sel _)).
  rewrite gauss_congr ?units_obs_unit // units_obs_volume -/(log_volume u s).
  by rewrite /=; move: (gauss _ _ _) (log_volume _ _) => g v; toR; ring.
have eP : bcov (kf_step b' s') = T *m bcov (kf_step b s) *m T^T.
  have TTt' : TT *m T^T = 1%:M by rewrite /TT -trmx_mul mulmxV // trmx1.
  by rewrite P1 -mulmxA TTt' mulmx1.
by move: (kf_step b' s') m1 eP el => [m P l] /= <- -> ->.
Qed.
End Rewritten.
