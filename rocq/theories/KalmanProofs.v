(** Proofs about kalman.predict, kalman.update: textbook formulas, missing observations, Bayes' rule. *)
From Coq Require Import Reals Lra.
From mathcomp Require Import all_ssreflect all_algebra.
From Verif Require Import RStruct MxBase ZmodTac KalmanModel GaussSpec MvnProofs MvnProofs2 BayesProofs.
Set Implicit Arguments.
Unset Strict Implicit.
Unset Printing Implicit Defensive.
Local Open Scope ring_scope.
Import GRing.Theory Num.Theory Order.Theory.

Lemma covT m k (A : 'M[R]_(m, k)) : (cov A)^T = cov A. Proof. by rewrite /cov trmx_mul trmxK. Qed.
Lemma cov_row m k l (A : 'M[R]_(m, k)) (B : 'M[R]_(m, l)) : cov (row_mx A B) = cov A + cov B.
Proof. by rewrite /cov tr_row_mx mul_row_col. Qed.
Lemma cov_mul m k l (A : 'M[R]_(m, k)) (B : 'M[R]_(k, l)) : cov (A *m B) = A *m cov B *m A^T.
Proof. by rewrite /cov trmx_mul !mulmxA. Qed.

Section WithTria.
Variable tria : forall m l : nat, 'M[R]_(m, l) -> 'M[R]_m.
Hypothesis tria_spec : tria_ok tria.

Lemma tria_trig m k (A : 'M[R]_(m, k)) : (m <= k)%N -> is_trig_mx (tria A).
Proof. by move=> h; have [] := tria_spec A h. Qed.
Lemma tria_cov m k (A : 'M[R]_(m, k)) : (m <= k)%N -> cov (tria A) = cov A.
Proof. by move=> h; have [] := tria_spec A h. Qed.
Lemma tria_row m k l (A : 'M[R]_(m, k)) (B : 'M[R]_(m, l)) : (m <= k + l)%N ->
  is_trig_mx (tria (row_mx A B)) /\ cov (tria (row_mx A B)) = cov A + cov B.
Proof. by move=> h; rewrite tria_trig // tria_cov // cov_row. Qed.

(** the array (H L, R; L, 0) and its triangular factor *)
Section Block.
Variables n p : nat.
Variables (H : 'M[R]_(p, n)) (X : 'M[R]_p) (L : 'M[R]_n).
Let P := cov L.
Let S := innovation_cov P H (cov X).
Let T := tria (block_mx (H *m L) X L (0 : 'M[R]_(n, p))).
Lemma joint_block : is_trig_mx T /\
  [/\ cov (ulsubmx T) = S, dlsubmx T *m (ulsubmx T)^T = P *m H^T &
      cov (dlsubmx T) + cov (drsubmx T) = P].
Proof.
have le : (p + n <= n + p)%N by rewrite addnC.
have tT : is_trig_mx T by exact: tria_trig.
split=> //; apply: (block_factor tT (tria_cov _ le)).
rewrite tr_block_mx mulmx_block !trmx0 !mul0mx !mulmx0 !addr0 !trmx_mul trmxK.
by rewrite /S /innovation_cov /P /cov ?trmx_mul ?trmxK !mulmxA.
Qed.
Lemma joint_trig : is_trig_mx (ulsubmx T) /\ is_trig_mx (drsubmx T).
Proof. by have [tT _] := joint_block; have [_] := trig_sub tT. Qed.
Hypothesis uS : S \in unitmx.
Lemma joint_unit :
  [/\ ulsubmx T \in unitmx,
      dlsubmx T *m invmx (ulsubmx T) = kalman_gain P H (cov X) &
      cov (drsubmx T) = cond_cov P H (cov X)].
Proof.
have [_ [e1 e2 e3]] := joint_block.
have [u g c] := block_factor_unit e1 e2 e3 uS.
by rewrite /cov u g c /cond_cov /kalman_gain -/S trmx_mul trmxK -/P covT !mulmxA.
Qed.
End Block.

Section Predict.
Variable nx : nat.
Variables (m : 'cV[R]_nx) (L F : 'M[R]_nx) (c : 'cV[R]_nx) (Q : 'M[R]_nx).
Lemma predict_spec m' L' : predict tria m L F c Q = (m', L') ->
  [/\ m' = F *m m + c, is_trig_mx L' & cov L' = F *m cov L *m F^T + cov Q].
Proof.
rewrite /predict => -[<- <-]; have [t e] := tria_row (F *m L) Q (leq_addl nx nx).
by split=> //; rewrite e cov_mul.
Qed.
End Predict.

Section Update.
Variables nx ny : nat.
Variables (m : 'cV[R]_nx) (L : 'M[R]_nx).
(** update on arrays without NaN *)
Definition update_core (H : 'M[R]_(ny, nx)) (d : 'cV[R]_ny) (X : 'M[R]_ny) (y : 'cV[R]_ny) (l : R) :=
  let y_hat := H *m m + d in
  let T := tria (block_mx (H *m L) X L (0 : 'M[R]_(nx, ny))) in
  (m + dlsubmx T *m solve_lower (ulsubmx T) (y - y_hat), drsubmx T,
   logpdf_mx y y_hat (ulsubmx T) + l).
Lemma update_coreP H d X y l m' L' l' :
  let P := cov L in
  innovation_cov P H (cov X) \in unitmx ->
  update_core H d X y l = (m', L', l') ->
  [/\ m' = cond_mean m P H d (cov X) y, is_trig_mx L', cov L' = cond_cov P H (cov X) &
      l' = gauss y (H *m m + d) (innovation_cov P H (cov X)) + l].
Proof.
move=> P uS; rewrite /update_core; set T := tria _ => -[<- <- <-].
have [t1 t2] : is_trig_mx (ulsubmx T) /\ is_trig_mx (drsubmx T) := joint_trig H X L.
have [_ [e1 _ _]] := joint_block H X L; have [u g c] := joint_unit uS.
split=> //.
- by rewrite solve_lowerE // mulmxA g.
- by rewrite logpdf_mxE // e1.
Qed.

Variables (H : 'M[R]_(ny, nx)) (d : 'cV[R]_ny) (Rn : 'M[R]_ny) (y : 'cV[option R]_ny) (l : R).
Let P := cov L.
Let flag i := isnan (y i ord0).
Lemma updateE : update tria m L H d Rn y l =
  update_core (collect_rest flag H) (collect_rest flag d) (collect_nans_chol tria flag Rn)
    (collect_rest flag (map_mx value y)) l.
Proof. by []. Qed.
Let Ho := obs_rows y H.
Let Do := obs_rows y d.
Let Ro := obs_block y (cov Rn).
Let S := innovation_cov P Ho Ro.
Lemma innov_padded : innovation_cov P (collect_rest flag H) (cov (collect_nans_chol tria flag Rn))
  = padded S.
Proof.
have [_ ->] := collect_nansE y tria_spec Rn; rewrite collect_restE /innovation_cov trmx_mul /padded.
by rewrite /S /innovation_cov -/Ho !mulmxDr !mulmxDl !mulmxA addrA.
Qed.
Lemma innov_gram : S = cov (row_mx (Ho *m L) (obs_rows y Rn)).
Proof. by rewrite cov_row cov_mul /S /innovation_cov /Ro [in obs_block _ _]/cov obs_block_gram. Qed.
Hypothesis uS : S \in unitmx.
Lemma innov_pos : Rlt 0 (\det S).
Proof. by move: uS; rewrite innov_gram; exact: (det_pos_gram tria_spec). Qed.
(** C12: NaN entries are marginalised *)
Lemma update_nan m' L' l' : update tria m L H d Rn y l = (m', L', l') ->
  [/\ m' = cond_mean m P Ho Do Ro (obs_values y), is_trig_mx L', cov L' = cond_cov P Ho Ro &
      l' = gauss (obs_values y) (Ho *m m + Do) S + l].
Proof.
have uS' : innovation_cov P (collect_rest flag H) (cov (collect_nans_chol tria flag Rn)) \in unitmx.
  by rewrite innov_padded; exact: padded_unit.
rewrite updateE => /(update_coreP uS') [-> tL -> ->].
have gE p (A : 'M_(_, p)) : kalman_gain P (collect_rest flag H) (cov (collect_nans_chol tria flag Rn)) *m
    (Pd y *m A) = kalman_gain P Ho Ro *m A.
  rewrite /kalman_gain innov_padded -/S collect_restE trmx_mul -/Ho -!mulmxA invmx_padded_Pd //.
  by rewrite (mulmxA (Pd y)^T) PdTPd mul1mx.
split=> //.
- rewrite /cond_mean; move: (kalman_gain P (collect_rest flag H) _) gE => K gE.
  by rewrite !collect_restE value_rows -mulmxA -mulmxDr -mulmxBr gE.
- rewrite /cond_cov; move: (kalman_gain P (collect_rest flag H) _) gE => K gE.
  by rewrite collect_restE -/Ho -!mulmxA gE ?mulmxA.
- rewrite innov_padded !collect_restE value_rows -mulmxA -mulmxDr gauss_padded //; exact: innov_pos.
Qed.
End Update.

(** dimension zero *)
Lemma mul_zero k n p (A : 'M[R]_(n, k)) (B : 'M[R]_(k, p)) : k = 0%N -> A *m B = 0.
Proof.
move=> k0; apply/matrixP => i j; rewrite !mxE big1 // => a _.
by have := ltn_ord a; rewrite {2}k0.
Qed.
Lemma unit_zero k (A : 'M[R]_k) : k = 0%N -> A \in unitmx.
Proof. by move: A => + k0; rewrite k0 => A; rewrite unitmxE det_mx00 unitr1. Qed.
Lemma gauss_zero k (a b : 'cV[R]_k) S : k = 0%N -> gauss a b S = 0.
Proof.
move: a b S => + + + k0; rewrite k0 => a b S.
by rewrite /gauss det_mx00 ln1 mul0r mul0r mulr0 !subr0 /mahalanobis mxE big_ord0 mulr0.
Qed.

(** C13: nothing observed *)
Lemma update_all_nan nx ny (m : 'cV[R]_nx) L (H : 'M[R]_(ny, nx)) d Rn (y : 'cV[option R]_ny) l m' L' l' :
  (forall i, y i ord0 = None) -> update tria m L H d Rn y l = (m', L', l') ->
  [/\ m' = m, is_trig_mx L', cov L' = cov L & l' = l].
Proof.
move=> h E; have k0 : size (observed y) = 0%N.
  by rewrite /observed size_filter (eq_count (a2 := pred0)) ?count_pred0 // => i /=; rewrite h.
have u := unit_zero (innovation_cov (cov L) (obs_rows y H) (obs_block y (cov Rn))) k0.
have [-> tL -> ->] := update_nan u E; split=> //.
- by rewrite /cond_mean mul_zero // addr0.
- by rewrite /cond_cov -mulmxA mul_zero // subr0.
- by rewrite gauss_zero // add0r.
Qed.

Section Full.
Variables nx ny : nat.
Variables (m : 'cV[R]_nx) (L : 'M[R]_nx) (H : 'M[R]_(ny, nx)) (d : 'cV[R]_ny) (Rn : 'M[R]_ny)
          (y : 'cV[R]_ny) (l : R) (m' : 'cV[R]_nx) (L' : 'M[R]_nx) (l' : R).
Let P := cov L.
Hypothesis E : update tria m L H d Rn (map_mx Some y) l = (m', L', l').
(** C11: textbook formulas, P may be singular *)
Lemma update_full : innovation_cov P H (cov Rn) \in unitmx ->
  [/\ m' = cond_mean m P H d (cov Rn) y, is_trig_mx L', cov L' = cond_cov P H (cov Rn) &
      l' = gauss y (H *m m + d) (innovation_cov P H (cov Rn)) + l].
Proof.
move=> uS; move: E; rewrite updateE.
have h i : isnan ((map_mx Some y) i ord0) = false by rewrite mxE.
rewrite !collect_rest_none //.
have -> : map_mx value (map_mx Some y) = y by apply/matrixP => i j; rewrite !mxE.
have eX : cov (collect_nans_chol tria (fun i => isnan ((map_mx Some y) i ord0)) Rn) = cov Rn.
  rewrite -[RHS](tria_cov _ (leqnn ny)) /collect_nans_chol; congr cov.
  have e : \matrix_(i, j) (\matrix_(i, j) (if isnan (map_mx Some y i ord0) then 0 else Rn i j) : 'M_ny)
     (argsort (fun i => isnan (map_mx Some y i ord0)) i) j = Rn.
    by apply/matrixP => i j; rewrite !mxE /= argsort_none // => a; rewrite mxE.
  by rewrite e; apply/matrixP => i j; rewrite mxE /sorted_flag h andbF.
move=> /update_coreP; rewrite eX; exact.
Qed.
Hypotheses (pS : innovation_cov P H (cov Rn) \in unitmx).
Lemma innov_full_pos : Rlt 0 (\det (innovation_cov P H (cov Rn))).
Proof.
have e : innovation_cov P H (cov Rn) = cov (row_mx (H *m L) Rn) by rewrite cov_row cov_mul.
by move: pS; rewrite e; exact: (det_pos_gram tria_spec).
Qed.
(** C11: Bayes' rule *)
Lemma update_bayes x : L \in unitmx -> Rn \in unitmx ->
  gauss x m P + gauss y (H *m x + d) (cov Rn) = (l' - l) + gauss x m' (cov L').
Proof.
move=> uL uR; have [-> _ -> ->] := update_full pS; rewrite addrK.
have pP := det_gram_pos uL; have pR := det_gram_pos uR.
by have [_ ->] := gauss_bayes m x d y (covT L) (covT Rn) pS pP pR innov_full_pos.
Qed.
(** the same for singular P, in terms of the standardised state z, x = m + L z *)
Lemma update_bayes_noise : Rn \in unitmx -> exists (mz : 'cV[R]_nx) (Cz : 'M[R]_nx),
  [/\ m' = m + L *m mz, cov L' = L *m Cz *m L^T &
   forall z, gauss z 0 1%:M + gauss y (H *m (m + L *m z) + d) (cov Rn) = (l' - l) + gauss z mz Cz].
Proof.
move=> uR; have [-> _ -> ->] := update_full pS; rewrite addrK.
have eS : innovation_cov 1%:M (H *m L) (cov Rn) = innovation_cov P H (cov Rn).
  by rewrite /innovation_cov mulmx1 trmx_mul /P /cov !mulmxA.
exists (cond_mean 0 1%:M (H *m L) (H *m m + d) (cov Rn) y), (cond_cov 1%:M (H *m L) (cov Rn)); split.
- rewrite /cond_mean /kalman_gain eS mulmx0 !add0r mul1mx trmx_mul /P /cov !mulmxA //.
- rewrite /cond_cov /kalman_gain eS mulmxBr mulmxBl !mulmx1 mul1mx trmx_mul /P /cov !mulmxA //.
move=> z; have pS' := innov_full_pos; have pS2 := pS; rewrite -eS in pS' pS2 *.
have p1 : Rlt 0 (\det (1%:M : 'M[R]_nx)) by rewrite det1; exact: Rlt_0_1.
have [_ e] := gauss_bayes 0 z (H *m m + d) y (trmx1 _ _) (covT Rn) pS2 p1 (det_gram_pos uR) pS'.
have -> : H *m (m + L *m z) + d = H *m L *m z + (H *m m + d) by mxzmod.
by rewrite e mulmx0 add0r.
Qed.
End Full.
End WithTria.
