(** Proofs about sigma points and sigma-point linearisation. *)
From Coq Require Import Reals Lra.
From mathcomp Require Import all_ssreflect all_algebra.
From Verif Require Import RStruct MxBase ZmodTac KalmanModel GaussSpec MvnProofs QuadModel QuadSpec CholUpdate.
Set Implicit Arguments.
Unset Strict Implicit.
Unset Printing Implicit Defensive.
Local Open Scope ring_scope.
Import GRing.Theory Num.Theory Order.Theory.

Lemma sp_meanE N n (s : SigmaPoints N n) : sp_mean s = \sum_i sp_wm s i ord0 *: pt (sp_points s) i.
Proof.
apply/colP => a; rewrite !mxE summxE; apply: eq_bigr => i _; by rewrite !mxE mulrC.
Qed.
Lemma sp_covE N n p (wc : 'cV[R]_N) (X : 'M[R]_(N, n)) mx (Y : 'M[R]_(N, p)) my :
  sp_cov wc X mx Y my = \sum_i wc i ord0 *: ((pt X i - mx) *m (pt Y i - my)^T).
Proof.
apply/matrixP => a b; rewrite !mxE summxE; apply: eq_bigr => i _.
by rewrite !mxE big_ord1 !mxE mulrAC mulrC mulrA.
Qed.

(** what a rule for the standard normal distribution has to satisfy *)
Definition rule_ok N n (xi : 'M[R]_(N, n)) (wm wc : 'cV[R]_N) : Prop :=
  [/\ \sum_i wm i ord0 = 1, \sum_i wm i ord0 *: pt xi i = 0, \sum_i wc i ord0 *: pt xi i = 0
    & \sum_i wc i ord0 *: (pt xi i *m (pt xi i)^T) = 1%:M].

Section Points.
Variables (N n : nat) (xi : 'M[R]_(N, n)) (wm wc : 'cV[R]_N).
Hypothesis ok : rule_ok xi wm wc.
Variables (m : 'cV[R]_n) (chol : 'M[R]_n).
Let s := cubature_get_sigma_points m chol xi wm wc.
Lemma pointE i : pt (sp_points s) i = m + chol *m pt xi i.
Proof.
apply/colP => a; rewrite !mxE; congr (_ + _); apply: eq_bigr => j _; by rewrite !mxE.
Qed.
Lemma rule_mean : sp_mean s = m.
Proof.
have [w1 m1 _ _] := ok; rewrite sp_meanE /=; under eq_bigr => i _ do rewrite pointE scalerDr scalemxAr.
by rewrite big_split /= -scaler_suml w1 scale1r -mulmx_sumr m1 mulmx0 addr0.
Qed.
Section Fun.
Variables (p : nat) (F : 'M[R]_(p, n)) (c : 'cV[R]_p).
Let f := SigmaPoints N p.
Definition f_pts : SigmaPoints N p := MkSP (vmap_points (fun x => F *m x + c) (sp_points s)) wm wc.
Lemma f_pointE i : pt (sp_points f_pts) i = F *m pt (sp_points s) i + c.
Proof. by apply/colP => a; rewrite !mxE. Qed.
Lemma rule_f_mean : sp_mean f_pts = F *m m + c.
Proof.
have [w1 m1 _ _] := ok; rewrite sp_meanE /=.
under eq_bigr => i _ do rewrite f_pointE scalerDr scalemxAr.
by rewrite big_split /= -scaler_suml w1 scale1r -mulmx_sumr -[in RHS]rule_mean sp_meanE.
Qed.
Lemma rule_dev i : pt (sp_points s) i - m = chol *m pt xi i.
Proof. by rewrite pointE addrC addKr. Qed.
Lemma rule_f_dev i : pt (sp_points f_pts) i - (F *m m + c) = F *m (chol *m pt xi i).
Proof. by rewrite f_pointE opprD addrACA subrr addr0 -mulmxBr rule_dev. Qed.
Lemma rule_cross : sp_covariance_with s f_pts = chol *m chol^T *m F^T.
Proof.
have [_ _ _ c1] := ok; rewrite /sp_covariance_with rule_mean rule_f_mean sp_covE.
under eq_bigr => i _.
  rewrite rule_dev rule_f_dev !trmx_mul !mulmxA scalemxAl scalemxAl -(mulmxA chol) scalemxAr; over.
by rewrite -!mulmx_suml -mulmx_sumr c1 mulmx1.
Qed.
Lemma rule_f_cov : sp_covariance f_pts = F *m (chol *m chol^T) *m F^T.
Proof.
have [_ _ _ c1] := ok; rewrite /sp_covariance rule_f_mean sp_covE.
under eq_bigr => i _.
  rewrite !rule_f_dev !trmx_mul !mulmxA scalemxAl scalemxAl -(mulmxA (F *m chol)) scalemxAr; over.
by rewrite -!mulmx_suml -mulmx_sumr c1 mulmx1 !mulmxA.
Qed.
End Fun.
Lemma rule_cov : sp_covariance s = chol *m chol^T.
Proof.
have [_ _ _ c1] := ok; rewrite /sp_covariance rule_mean sp_covE.
under eq_bigr => i _ do rewrite !rule_dev !trmx_mul !mulmxA scalemxAl -(mulmxA chol) scalemxAr.
by rewrite -!mulmx_suml -mulmx_sumr c1 mulmx1.
Qed.
Lemma rule_moments :
  [/\ \sum_i wm i ord0 = 1,
      sp_mean s = m, \sum_i wm i ord0 *: pt (sp_points s) i = m,
      sp_covariance s = chol *m chol^T
    & \sum_i wc i ord0 *: ((pt (sp_points s) i - m) *m (pt (sp_points s) i - m)^T) = chol *m chol^T].
Proof.
split; [by case: ok|exact: rule_mean|by rewrite -[RHS]rule_mean sp_meanE|exact: rule_cov|].
by rewrite -[RHS]rule_cov /sp_covariance sp_covE rule_mean.
Qed.
End Points.

(** ** the three rules *)
Lemma sum_delta n (g : 'I_n -> R) : \sum_i g i *: (delta_mx i ord0 : 'cV[R]_n) = \col_i g i.
Proof.
apply/colP => a; rewrite summxE !mxE (bigD1 a) //= big1 => [|i ia]; rewrite !mxE ?eqxx ?mulr1 ?addr0 //.
by rewrite eq_sym (negbTE ia) mulr0.
Qed.
Lemma sum_delta2 n (k : R) : \sum_(i < n) k *: (delta_mx i (ord0 : 'I_1) *m (delta_mx i (ord0 : 'I_1))^T : 'M[R]_n) = k%:M.
Proof.
apply/matrixP => a b; rewrite summxE !mxE (bigD1 a) //= big1 => [|i ia]; rewrite !mxE big_ord1 !mxE ?eqxx ?addr0.
  by rewrite /= mul1r eq_sym mulr_natr andbT.
by rewrite eq_sym (negbTE ia) mul0r mulr0.
Qed.
Lemma sqrt_sq (x : R) : 0 <= x -> sqrt x * sqrt x = x.
Proof. by move=> /RleP h; exact: sqrt_sqrt. Qed.

Section Cubature.
Variable n : nat.
Definition cub_xi : 'M[R]_(n + n, n) :=
  \matrix_(i, a) ((col_mx 1%:M (- 1%:M) : 'M[R]_(n + n, n)) i a * sqrt n%:R).
Lemma cub_pt_l (i : 'I_n) : pt cub_xi (lshift n i) = sqrt n%:R *: delta_mx i ord0.
Proof. by apply/colP => a; rewrite !mxE (unsplitK (inl i)) !mxE eqxx andbT mulrC eq_sym. Qed.
Lemma cub_pt_r (i : 'I_n) : pt cub_xi (rshift n i) = - (sqrt n%:R *: delta_mx i ord0).
Proof. by apply/colP => a; rewrite !mxE (unsplitK (inr i)) !mxE eqxx andbT mulrC eq_sym mulrN. Qed.
Lemma cub_ok (w : 'cV[R]_(n + n)) : (0 < n)%N -> w = const_mx (1 / (2 * n)%:R) -> rule_ok cub_xi w w.
Proof.
move=> n0 ->; set k := 1 / _.
have nn : (n%:R : R) != 0 by rewrite pnatr_eq0 -lt0n.
have z : \sum_i (const_mx k : 'cV[R]_(n + n)) i ord0 *: pt cub_xi i = 0.
  rewrite big_split_ord /= -big_split /=; apply: big1 => i _.
  by rewrite !mxE cub_pt_l cub_pt_r scalerN subrr.
split=> //.
- under eq_bigr do rewrite mxE; rewrite sumr_const card_ord -[LHS]mulr_natl /k mul1r addnn -mul2n divff //.
  by rewrite natrM mulf_neq0 // pnatr_eq0.
- rewrite big_split_ord /=.
  under [X in X + _]eq_bigr => i _.
    rewrite mxE cub_pt_l linearZ /= -scalemxAl -scalemxAr !scalerA; over.
  under [X in _ + X]eq_bigr => i _.
    rewrite mxE cub_pt_r linearN /= mulNmx mulmxN opprK linearZ /= -scalemxAl -scalemxAr !scalerA; over.
  rewrite sum_delta2 -raddfD; congr _%:M.
  rewrite -mulrA sqrt_sq ?ler0n // /k -mulr2n -mulr_natl mulrA natrM mul1r invfM mulrA divff ?pnatr_eq0 // mul1r.
  by rewrite mulVf.
Qed.
End Cubature.

Section Unscented.
Variables (n : nat) (alpha beta lamda : R).
Hypothesis pos : 0 < n%:R + lamda.
Definition uns_xi : 'M[R]_(1 + (n + n), n) :=
  col_mx (0 : 'M[R]_(1, n)) (col_mx (sqrt (n%:R + lamda))%:M (- (sqrt (n%:R + lamda))%:M)).
Lemma uns_points (wm wc : 'cV[R]_(1 + (n + n))) m chol :
  unscented_get_sigma_points wm wc lamda m chol = cubature_get_sigma_points m chol uns_xi wm wc.
Proof.
rewrite /unscented_get_sigma_points /cubature_get_sigma_points; congr MkSP.
have e : col_mx (0 : 'M[R]_(1, n)) (col_mx (sqrt (n%:R + lamda) *: chol)^T (- (sqrt (n%:R + lamda) *: chol)^T))
         = (chol *m uns_xi^T)^T.
  by rewrite trmx_mul trmxK /uns_xi !mul_col_mx mul0mx mulNmx mul_scalar_mx linearZ.
by apply/matrixP => i a; rewrite [LHS]mxE [RHS]mxE e.
Qed.
Lemma uns_pt_0 : pt uns_xi ord0 = 0.
Proof. by apply/colP => a; rewrite !mxE; case: splitP => // j _; rewrite mxE. Qed.
Lemma uns_pt_l (i : 'I_n) : pt uns_xi (rshift 1 (lshift n i)) = sqrt (n%:R + lamda) *: delta_mx i ord0.
Proof.
apply/colP => a; rewrite !mxE (unsplitK (inr (lshift n i))) !mxE (unsplitK (inl i)) !mxE eqxx andbT.
by rewrite mulr_natr eq_sym.
Qed.
Lemma uns_pt_r (i : 'I_n) : pt uns_xi (rshift 1 (rshift n i)) = - (sqrt (n%:R + lamda) *: delta_mx i ord0).
Proof.
apply/colP => a; rewrite !mxE (unsplitK (inr (rshift n i))) !mxE (unsplitK (inr i)) !mxE eqxx andbT.
by rewrite mulr_natr eq_sym.
Qed.
Lemma uns_sum (V : lmodType R) (w : 'cV[R]_(1 + (n + n))) w0 k (g : 'I_(1 + (n + n)) -> V) :
  w ord0 ord0 = w0 -> (forall i : 'I_(1 + (n + n)), (0 < i)%N -> w i ord0 = k) ->
  \sum_i w i ord0 *: g i = w0 *: g ord0 + k *: \sum_i (g (rshift 1 (lshift n i)) + g (rshift 1 (rshift n i))).
Proof.
move=> e0 ek; rewrite big_split_ord /= big_ord1; congr (_ + _).
  by rewrite (_ : lshift (n + n) ord0 = ord0) ?e0 //; apply: val_inj.
rewrite big_split_ord /= big_split /= scalerDr !scaler_sumr; congr (_ + _); apply: eq_bigr => i _; by rewrite ek.
Qed.
Lemma uns_ok (wm wc : 'cV[R]_(1 + (n + n))) w0 (k := 1 / (2%:R * (n%:R + lamda))) :
  (0 < n)%N ->
  wm ord0 ord0 = lamda / (n%:R + lamda) -> (forall i : 'I_(1 + (n + n)), (0 < i)%N -> wm i ord0 = k) ->
  wc ord0 ord0 = w0 -> (forall i : 'I_(1 + (n + n)), (0 < i)%N -> wc i ord0 = k) ->
  rule_ok uns_xi wm wc.
Proof.
move=> n0 m0 mk c0 ck; have cn := lt0r_neq0 pos.
have k2 : k *+ 2 = 1 / (n%:R + lamda).
  by rewrite /k invfM mul1r -mulr_natl mulrA divff ?mul1r // pnatr_eq0.
split.
- have := @uns_sum [lmodType R of R^o] wm _ _ (fun=> 1) m0 mk.
  under eq_bigr => i _ do rewrite [_ *: _]mulr1.
  move=> ->; rewrite sumr_const card_ord -mulr2n -scaler_nat scalerA.
  rewrite [X in X + _]mulr1 [X in _ + X](_ : _ = k *+ 2 * n%:R); last first.
    by rewrite [LHS]mulrC mulrA mulr_natl.
  by rewrite k2 mul1r [_^-1 * _]mulrC -mulrDl addrC divff.
- rewrite (uns_sum _ m0 mk) uns_pt_0 scaler0 add0r big1 ?scaler0 // => i _.
  by rewrite uns_pt_l uns_pt_r subrr.
- rewrite (uns_sum _ c0 ck) uns_pt_0 scaler0 add0r big1 ?scaler0 // => i _.
  by rewrite uns_pt_l uns_pt_r subrr.
- rewrite (uns_sum _ c0 ck) uns_pt_0 mul0mx scaler0 add0r.
  under eq_bigr => i _.
    rewrite uns_pt_l uns_pt_r linearN /= mulNmx mulmxN opprK -mulr2n linearZ /= -scalemxAl -scalemxAr scalerA.
    rewrite sqrt_sq ?ltW // -scaler_nat scalerA; over.
  rewrite sum_delta2 scale_scalar_mx mulrA mulr_natr k2 mul1r mulVf //.
Qed.
End Unscented.

Section Product.
Lemma product_map (T U : Type) (f : T -> U) (s : seq T) n :
  product (map f s) n = map (map f) (product s n).
Proof. by elim: n => //= n ->; rewrite map_allpairs allpairs_mapl allpairs_mapr. Qed.
Variable xw : seq (R * R).
Definition ew n (g : seq R -> R) : R := \sum_(r <- product xw n) (\prod_(a <- r) a.2) * g (map fst r).
Lemma ewS n g : ew n.+1 g = \sum_(a <- xw) a.2 * ew n (fun l => g (a.1 :: l)).
Proof.
rewrite /ew /= big_allpairs_dep; apply: eq_bigr => a _; rewrite big_distrr; apply: eq_bigr => r _ /=.
by rewrite big_cons mulrA.
Qed.
Variable s0 : R.
Hypothesis m0 : \sum_(a <- xw) a.2 = s0.
Hypothesis m1 : \sum_(a <- xw) a.2 * a.1 = 0.
Hypothesis m2 : \sum_(a <- xw) a.2 * a.1 ^+ 2 = s0.
Lemma ew_1 n : ew n (fun=> 1) = s0 ^+ n.
Proof.
elim: n => [|n IH]; first by rewrite /ew big_seq1 big_nil mulr1.
by rewrite ewS IH -big_distrl /= m0 exprS.
Qed.
Lemma ewZ n k g : ew n (fun l => k * g l) = k * ew n g.
Proof. by rewrite /ew big_distrr; apply: eq_bigr => r _; rewrite mulrCA. Qed.
Lemma ewC n k : ew n (fun=> k) = k * s0 ^+ n.
Proof. by rewrite -ew_1 -ewZ; apply: eq_bigr => r _; rewrite mulr1. Qed.
Lemma ew_x n a : (a < n)%N -> ew n (fun l => nth 0 l a) = 0.
Proof.
elim: n a => // n IH [|a] h; rewrite ewS /=.
  have -> : (\sum_(i <- xw) i.2 * ew n (fun _ => i.1)) = \sum_(i <- xw) i.2 * i.1 * s0 ^+ n.
    by apply: eq_bigr => i _; rewrite ewC mulrA.
  by rewrite -big_distrl /= m1 mul0r.
by rewrite big1 // => i _; rewrite IH // mulr0.
Qed.
Lemma ew_xx n a b : (a < n)%N -> (b < n)%N -> ew n (fun l => nth 0 l a * nth 0 l b) = if a == b then s0 ^+ n else 0.
Proof.
elim: n a b => // n IH [|a] [|b] ha hb; rewrite ewS /=.
- have -> : (\sum_(i <- xw) i.2 * ew n (fun _ => i.1 * i.1)) = \sum_(i <- xw) i.2 * i.1 ^+ 2 * s0 ^+ n.
    by apply: eq_bigr => i _; rewrite ewC mulrA expr2.
  by rewrite -big_distrl /= m2 exprS.
- by rewrite big1 // => i _; rewrite ewZ ew_x // !mulr0.
- rewrite big1 // => i _; rewrite (_ : ew _ _ = i.1 * ew n (fun l => nth 0 l a)); last first.
    by rewrite -ewZ; apply: eq_bigr => r _; rewrite [nth _ _ _ * _]mulrC.
  by rewrite ew_x // !mulr0.
- under eq_bigr => i _ do rewrite IH //.
  by rewrite eqSS -big_distrl /= m0; case: eqP; rewrite ?mulr0 ?exprS.
Qed.
End Product.

Section GaussHermite.
Variables (x w : seq R) (n : nat).
Hypothesis sz : size x = size w.
Hypothesis w0 : \sum_(i < size w) nth 0 w i = sqrt (2%:R * PI).
Hypothesis w1 : \sum_(i < size w) nth 0 w i * nth 0 x i = 0.
Hypothesis w2 : \sum_(i < size w) nth 0 w i * nth 0 x i ^+ 2 = sqrt (2%:R * PI).
Let xn := product x n.
Let wn := [seq (\prod_(a <- r) a) / sqrt (2%:R * PI) ^+ n | r <- product w n].
Definition gh_xi : 'M[R]_(size xn, n) := \matrix_(i, a) nth 0 (nth [::] xn i) a.
Definition gh_wm : 'cV[R]_(size xn) := \col_i nth 0 wn i.
Lemma spi : sqrt (2%:R * PI) != 0 :> R.
Proof. by apply: pos_neq0; apply: sqrt_lt_R0; exact: two_pi_pos. Qed.
Lemma zip_sum (f : R -> R -> R) : \sum_(a <- zip x w) f a.1 a.2 = \sum_(i < size w) f (nth 0 x i) (nth 0 w i).
Proof.
rewrite (big_nth (0, 0)) big_mkord size_zip sz minnn; apply: eq_bigr => i _.
by rewrite nth_zip.
Qed.
Lemma gh_sum (g : seq R -> R) :
  \sum_i gh_wm i ord0 * g (nth [::] xn i) = ew (zip x w) n g / sqrt (2%:R * PI) ^+ n.
Proof.
set P := product (zip x w) n.
have xE : xn = map (map fst) P by rewrite -product_map -/unzip1 unzip1_zip // sz.
have wE : wn = [seq (\prod_(a <- r) a.2) / sqrt (2%:R * PI) ^+ n | r <- P].
  rewrite /wn -[w in LHS](@unzip2_zip _ _ x) ?sz // /unzip2 product_map -map_comp.
  by apply: eq_map => r /=; rewrite big_map.
have sP : size xn = size P by rewrite xE size_map.
rewrite /ew -/P big_distrl /= (big_nth [::]) -sP big_mkord; apply: eq_bigr => i _.
have iP : (i < size P)%N by rewrite -sP.
have e k : (k < size P)%N -> nth [::] xn k = map fst (nth [::] P k) by move=> kP; rewrite xE (nth_map [::]).
by rewrite mxE wE (nth_map [::]) // e // mulrAC.
Qed.
Lemma gh_ok : rule_ok gh_xi gh_wm gh_wm.
Proof.
have m0 : \sum_(a <- zip x w) a.2 = sqrt (2%:R * PI) by rewrite (zip_sum (fun _ b => b)).
have m1 : \sum_(a <- zip x w) a.2 * a.1 = 0 by rewrite (zip_sum (fun a b => b * a)).
have m2 : \sum_(a <- zip x w) a.2 * a.1 ^+ 2 = sqrt (2%:R * PI) by rewrite (zip_sum (fun a b => b * a ^+ 2)).
have z : \sum_i gh_wm i ord0 *: pt gh_xi i = 0.
  apply/colP => a; rewrite summxE [RHS]mxE; have := gh_sum (fun l => nth 0 l a); rewrite (ew_x m0 m1) // mul0r.
  by move=> {2}<-; apply: eq_bigr => i _; rewrite !mxE.
split=> //.
  have <- : ew (zip x w) n (fun=> 1) / sqrt (2%:R * PI) ^+ n = 1.
    by rewrite (ew_1 m0) divff // expf_neq0 // spi.
  by rewrite -gh_sum; apply: eq_bigr => i _; rewrite mulr1.
apply/matrixP => a b; rewrite summxE mxE.
have -> : (a == b)%:R = ew (zip x w) n (fun l => nth 0 l a * nth 0 l b) / sqrt (2%:R * PI) ^+ n.
  rewrite (ew_xx m0 m1 m2) ?ltn_ord // val_eqE; case: eqP => _; last by rewrite mul0r.
  by rewrite divff // expf_neq0 // spi.
by rewrite -gh_sum; apply: eq_bigr => i _; rewrite [LHS]mxE [X in _ * X = _]mxE big_ord1 !mxE.
Qed.
Lemma gh_wm_ge0 : (forall a, a \in w -> 0 <= a) -> forall i, 0 <= gh_wm i ord0.
Proof.
move=> wp i; rewrite mxE /wn; set r := nth 0 _ _; have [ir|ir] := ltnP i (size (product w n)); last first.
  by rewrite /r nth_default // size_map.
rewrite /r (nth_map [::]) //; apply: divr_ge0; last by apply: exprn_ge0; apply/RleP; exact: sqrt_pos.
have : all (fun a => 0 <= a) (nth [::] (product w n) i).
  have : all (all (fun a : R => 0 <= a)) (product w n).
    elim: (n) => //= k IH; apply/allP => l /allpairsP[[a q] /= [aw qk ->]] /=.
    by rewrite wp //; move/allP: IH; apply.
  by move/all_nthP; apply.
by move=> /allP h; rewrite big_seq; apply: prodr_ge0 => a /h.
Qed.
End GaussHermite.

(** ** linearisation of affine functions *)
(** a quadrature object whose points come from a rule *)
Definition quad_ok n (q : Quadrature n) (xi : 'M[R]_(q_size q, n)) (wm wc : 'cV[R]_(q_size q)) : Prop :=
  rule_ok xi wm wc /\ forall m chol, get_sigma_points q m chol = cubature_get_sigma_points m chol xi wm wc.

Section Affine.
Variables (nx ny : nat) (F : 'M[R]_(ny, nx)) (c : 'cV[R]_ny) (m : 'cV[R]_nx).
Variables (q : Quadrature nx) (xi : 'M[R]_(q_size q, nx)) (wm wc : 'cV[R]_(q_size q)).
Hypothesis qok : quad_ok xi wm wc.
Let f (x : 'cV[R]_nx) := F *m x + c.
Lemma linear_part_affine (chol : 'M[R]_nx) : is_trig_mx chol -> chol \in unitmx ->
  linear_part f m q chol = (F, c).
Proof.
move=> tc uc; have [rok ge] := qok; rewrite /linear_part ge /=.
rewrite -/(f_pts xi wm wc m chol F c) (rule_cross rok) (rule_f_mean rok) cho_solveE //.
have uC : chol *m chol^T \in unitmx by rewrite gram_unit.
by rewrite (mulKmx uC) trmxK addrC addKr.
Qed.
Lemma functional_affine cholesky (S : 'M[R]_ny) (cov : 'M[R]_nx) : cholesky_ok cholesky -> pd cov -> S^T = S ->
  functional cholesky f S m cov q = (F, c, (\sum_i wc i ord0) *: S).
Proof.
move=> cok pc sS; have [tc ec] := cok _ _ pc; have [rok ge] := qok.
have uc : cholesky nx cov \in unitmx by rewrite -gram_unit ec; exact: pd_unit.
rewrite /functional /conditional_moments linear_part_affine // ge /=.
rewrite -/(f_pts xi wm wc m (cholesky nx cov) F c) (rule_f_cov rok) ec.
rewrite -scaler_suml [X in X - _]addrC addrK linearZ /= sS -scalerDr -mulr2n -[X in _ *: (_ *: X)]scaler_nat.
by rewrite !scalerA mulrAC mulVf ?mul1r // pnatr_eq0.
Qed.
(** the factor before the downdates *)
Lemma functional_sqrt_raw tria (S : 'M[R]_ny) (chol : 'M[R]_nx) : tria_ok tria ->
  is_trig_mx chol -> chol \in unitmx -> (forall i, 0 <= wc i ord0) ->
  exists T : 'M[R]_ny,
  [/\ is_trig_mx T, T *m T^T = F *m (chol *m chol^T) *m F^T + (\sum_i wc i ord0) *: (S *m S^T)
    & functional_sqrt tria f S m chol q = (F, c, cholesky_update_many T (F *m chol)^T (-1))].
Proof.
move=> tok tc uc w0; have [rok ge] := qok.
rewrite /functional_sqrt /conditional_moments_sqrt linear_part_affine // ge /=.
have -> : [forall i, 0 <= wc i ord0] by apply/forallP.
rewrite -/(f_pts xi wm wc m chol F c); set s := f_pts _ _ _ _ _ _ _.
have eP : sp_sqrt tria s *m (sp_sqrt tria s)^T = F *m (chol *m chol^T) *m F^T.
  rewrite /sp_sqrt; set X := \matrix_(a, i) _; have [_ ->] := tok _ _ (row_mx X (0 : 'M[R]_ny)) (leq_addl _ _).
  rewrite tr_row_mx mul_row_col trmx0 mulmx0 addr0 -(rule_f_cov rok m _ _ c) /sp_covariance -/s.
  apply/matrixP => a b; rewrite !mxE; apply: eq_bigr => i _; rewrite !mxE.
  by rewrite mulrACA sqrt_sq //; rewrite mulrCA mulrA [in RHS]mulrAC mulrAC.
have eT : scaled_factors (fun=> S) wc (sp_points (cubature_get_sigma_points m chol xi wm wc)) *m
  (scaled_factors (fun=> S) wc (sp_points (cubature_get_sigma_points m chol xi wm wc)))^T
  = (\sum_i wc i ord0) *: (S *m S^T).
  rewrite /scaled_factors tr_mxrow mul_mxrow_mxcol scaler_suml; apply: eq_bigr => i _.
  by rewrite linearZ /= -scalemxAl -scalemxAr scalerA sqrt_sq.
set X := row_mx _ _; have [tT eQ] := tok _ _ X (leq_addr _ _).
by exists (tria ny _ X); split=> //; rewrite eQ /X tr_row_mx mul_row_col eP eT.
Qed.
Lemma functional_sqrt_affine tria (S : 'M[R]_ny) (chol : 'M[R]_nx) : tria_ok tria ->
  is_trig_mx chol -> chol \in unitmx -> S \in unitmx ->
  (forall i, 0 <= wc i ord0) -> 0 < \sum_i wc i ord0 ->
  let: (A, b, L) := functional_sqrt tria f S m chol q in
  [/\ A = F, b = c, is_trig_mx L & L *m L^T = (\sum_i wc i ord0) *: (S *m S^T)].
Proof.
move=> tok tc uc uS w0 wp; have [T [tT eX ->]] := functional_sqrt_raw S tok tc uc w0.
have pS : pd ((\sum_i wc i ord0) *: (S *m S^T)).
  have [sS pS'] := unit_pd uS; split=> [|v vn]; first by rewrite linearZ /= sS.
  by rewrite /qf -scalemxAr -scalemxAl mxE mulr_gt0 //; exact: pS'.
have uT : T \in unitmx.
  by rewrite -gram_unit eX; apply: pd_unit; apply: pdDr => //; apply: psd_conj; exact: gram_psd.
have eF : T *m T^T + -1 *: ((F *m chol)^T^T *m (F *m chol)^T) = (\sum_i wc i ord0) *: (S *m S^T).
  by rewrite eX trmxK scaleN1r trmx_mul !mulmxA addrC addKr.
have [|t e _] := @cholesky_update_many_ok _ _ _ (F *m chol)^T (-1) tT uT; first by rewrite eF.
by split=> //; rewrite e eF.
Qed.
End Affine.
