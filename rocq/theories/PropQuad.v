(** Properties C43-C45: sigma points, sigma-point linearisation and Cholesky updates. *)
From Coq Require Import Reals Lra ClassicalEpsilon.
From mathcomp Require Import all_ssreflect all_algebra.
From Verif Require Import RStruct MxBase ZmodTac KalmanModel GaussSpec MvnProofs TriaExist QuadModel QuadSpec
  CholUpdate QuadProofs.
Set Implicit Arguments.
Unset Strict Implicit.
Unset Printing Implicit Defensive.
Local Open Scope ring_scope.
Import GRing.Theory Num.Theory Order.Theory.

(** routines meeting the contracts exist *)
Definition some_cholesky n (A : 'M[R]_n) : 'M[R]_n :=
  epsilon (inhabits 0) (fun T : 'M[R]_n => is_trig_mx T /\ T *m T^T = A).
Lemma some_cholesky_ok : cholesky_ok some_cholesky.
Proof. by move=> n A /pd_psd /chol_exists h; exact: (epsilon_spec (inhabits 0) _ h). Qed.
Definition two_nodes (order : nat) : seq R * seq R := ([:: -1; 1], [:: sqrt (2%:R * PI) / 2%:R; sqrt (2%:R * PI) / 2%:R]).
Lemma two_nodes_ok : hermegauss_ok two_nodes.
Proof.
have h : (sqrt (2%:R * PI) / 2%:R + sqrt (2%:R * PI) / 2%:R : R) = sqrt (2%:R * PI).
  by rewrite -mulrDl -mulr2n -mulr_natr mulfK // pnatr_eq0.
move=> order _ /=; split=> //.
- move=> a; rewrite !inE orbb => /eqP ->; apply: divr_ge0; last exact: ler0n.
  by apply/RleP; exact: sqrt_pos.
- by rewrite !big_ord_recl big_ord0 /= addr0.
- by rewrite !big_ord_recl big_ord0 /= mulrN mulr1 addr0 addNr.
- by rewrite !big_ord_recl big_ord0 /= sqrrN !expr1n !mulr1 addr0.
Qed.

(** the points of a rule have mean [m] and covariance [chol chol^T], by the code's own functions and as
    weighted sums; the mean weights sum to one *)
Definition reproduces n (q : Quadrature n) : Prop := forall m chol,
  let s := get_sigma_points q m chol in
  [/\ \sum_i sp_wm s i ord0 = 1,
      sp_mean s = m, weighted_mean (sp_wm s) (sp_points s) = m,
      sp_covariance s = chol *m chol^T & weighted_cov (sp_wc s) (sp_points s) m = chol *m chol^T].

Lemma quad_reproduces n (q : Quadrature n) (xi : 'M[R]_(q_size q, n)) wm wc : quad_ok xi wm wc -> reproduces q.
Proof. by move=> [ok e] m chol; rewrite e; exact: (rule_moments ok). Qed.

Lemma cubature_quad_ok n : (0 < n)%N ->
  quad_ok (q := cubature_weights n) (cub_xi n) (const_mx (1 / (2 * n)%:R)) (const_mx (1 / (2 * n)%:R)).
Proof. by move=> n0; split=> //; exact: (cub_ok n0 erefl). Qed.
Lemma gauss_hermite_quad_ok h n order : hermegauss_ok h -> (2 <= order)%N ->
  exists xi wm, [/\ quad_ok (q := gauss_hermite_weights h n order) xi wm wm & forall i, 0 <= wm i ord0].
Proof.
move=> ok o2; have := ok _ o2; rewrite /gauss_hermite_weights; case: (h order) => x w [sz wp w0 w1 w2].
exists (gh_xi x n), (gh_wm x w n); split; last exact: gh_wm_ge0.
by split=> //; exact: gh_ok.
Qed.
Lemma unscented_quad_ok n alpha beta kappa : (0 < n)%N ->
  let lamda := unscented_lamda n alpha (if kappa is Some k then k else 3%:R + n%:R) in
  0 < n%:R + lamda ->
  quad_ok (q := unscented_weights n alpha beta kappa) (uns_xi n lamda) (unscented_wm n lamda)
    (unscented_wc n alpha beta lamda).
Proof.
move=> n0 lamda pos; split; last by move=> m chol; rewrite /unscented_weights /= uns_points.
apply: (uns_ok pos (w0 := lamda / (n%:R + lamda) + (1 - alpha ^+ 2 + beta))) => //; rewrite ?mxE //.
- by move=> i i0; rewrite mxE eqn0Ngt i0.
- by move=> i i0; rewrite !mxE eqn0Ngt i0.
Qed.

(** C43 *)
Theorem C43_cubature n : (0 < n)%N -> reproduces (cubature_weights n).
Proof. by move=> n0; exact: quad_reproduces (cubature_quad_ok n0). Qed.
Theorem C43_unscented n alpha beta kappa : (0 < n)%N ->
  0 < n%:R + unscented_lamda n alpha (if kappa is Some k then k else 3%:R + n%:R) ->
  reproduces (unscented_weights n alpha beta kappa).
Proof. by move=> n0 pos; exact: quad_reproduces (unscented_quad_ok beta n0 pos). Qed.
Theorem C43_gauss_hermite h n order : hermegauss_ok h -> (2 <= order)%N ->
  reproduces (gauss_hermite_weights h n order).
Proof. by move=> ok o2; have [xi [wm [q _]]] := gauss_hermite_quad_ok n ok o2; exact: quad_reproduces q. Qed.
(** the two rules give the same value to every integrand, with either set of weights *)
Theorem C43_cubature_is_unscented n (f : 'cV[R]_n -> R) (m : 'cV[R]_n) (chol : 'M[R]_n) : (0 < n)%N ->
  let s := get_sigma_points (cubature_weights n) m chol in
  let t := get_sigma_points (unscented_weights n 1 0 (Some 0)) m chol in
  weighted_value (sp_wm s) (sp_points s) f = weighted_value (sp_wm t) (sp_points t) f /\
  weighted_value (sp_wc s) (sp_points s) f = weighted_value (sp_wc t) (sp_points t) f.
Proof.
move=> n0 s t.
have l0 : unscented_lamda n 1 0 = 0 by rewrite /unscented_lamda expr1n mul1r addr0 subrr.
have pE i : pt (sp_points t) (rshift 1 i) = pt (sp_points s) i.
  rewrite /t /s /unscented_weights /get_sigma_points uns_points l0.
  rewrite (pointE (uns_xi n 0)) (pointE (cub_xi n)); congr (_ + _ *m _).
  rewrite -[i]splitK; case: split => j /=; first by rewrite uns_pt_l cub_pt_l addr0.
  by rewrite uns_pt_r cub_pt_r addr0.
have aux (w : 'cV[R]_(1 + (n + n))) : w ord0 ord0 = 0 -> (forall i, w (rshift 1 i) ord0 = 1 / (2 * n)%:R) ->
  weighted_value (const_mx (1 / (2 * n)%:R)) (sp_points s) f = weighted_value w (sp_points t) f.
  move=> w0 wk; rewrite /weighted_value [RHS]big_split_ord /= big_ord1.
  rewrite (_ : lshift (n + n) ord0 = ord0); last exact: val_inj.
  by rewrite w0 mul0r add0r; apply: eq_bigr => i _; rewrite wk pE mxE.
split; apply: aux; rewrite ?mxE /= ?l0 ?mul0r ?expr1n ?subrr ?addr0 //.
  by move=> i; rewrite !mxE /= ?l0 ?addr0 natrM.
by move=> i; rewrite !mxE /= ?l0 ?addr0 natrM.
Qed.
Lemma default_pos n : 0 < n%:R + unscented_lamda n (1 / 2%:R) (3%:R + n%:R).
Proof.
rewrite /unscented_lamda addrC subrK; apply: mulr_gt0; first by apply: exprn_gt0; apply: divr_gt0; rewrite ?ltr01 ?ltr0n.
by rewrite -!natrD ltr0n addnCA.
Qed.
(** the rules exist for concrete parameters *)
Example C43_nonvacuous :
  [/\ reproduces (cubature_weights 3), reproduces (unscented_default 4) & reproduces (gauss_hermite_weights two_nodes 2 3)].
Proof.
split; [exact: C43_cubature|apply: C43_unscented => //|by apply: C43_gauss_hermite => //; exact: two_nodes_ok].
exact: default_pos.
Qed.
(** a single node integrates linear functions only: the covariance of its points is zero *)
Theorem C43_one_node_has_no_spread h n (m : 'cV[R]_n) (chol : 'M[R]_n) : h 1%N = ([:: 0], [:: sqrt (2%:R * PI)]) ->
  sp_covariance (get_sigma_points (gauss_hermite_weights h n 1) m chol) = 0.
Proof.
rewrite /gauss_hermite_weights => ->; rewrite /get_sigma_points.
set xn := product _ n; set xi := \matrix_(i, a) _; set w := \col_i _.
have p1 k : product [:: (0 : R)] k = [:: nseq k 0] by elim: k => //= k ->.
have q1 k : product [:: sqrt (2%:R * PI)] k = [:: nseq k (sqrt (2%:R * PI))] by elim: k => //= k ->.
have x0 : xi = 0.
  have e k a : nth 0 (nth [::] xn k) a = 0 :> R.
    by rewrite /xn p1; case: k => [|[|k]] /=; rewrite ?nth_nseq ?if_same ?nth_nil.
  by apply/matrixP => i a; rewrite !mxE e.
have w1 : \sum_i w i ord0 = 1.
  have sx : size xn = 1%N by rewrite /xn p1.
  under eq_bigr => i _ do rewrite mxE q1 /=.
  rewrite -(big_mkord xpredT (fun i => [:: _]`_i)) sx big_nat1 /=.
  have -> : \prod_(a <- nseq n (sqrt (2%:R * PI))) a = sqrt (2%:R * PI) ^+ n :> R.
    by elim: (n) => [|k IH]; rewrite ?big_nil // big_cons IH exprS.
  by rewrite divff // expf_neq0 // spi.
have e i : pt (sp_points (cubature_get_sigma_points m chol xi w w)) i = m.
  by rewrite pointE x0; apply/colP => a; rewrite !mxE big1 ?addr0 // => j _; rewrite !mxE mulr0.
have em : sp_mean (cubature_get_sigma_points m chol xi w w) = m.
  by rewrite sp_meanE; under eq_bigr => i _ do rewrite e; rewrite -scaler_suml w1 scale1r.
by rewrite /sp_covariance em sp_covE big1 // => i _; rewrite e subrr mul0mx scaler0.
Qed.

(** ** C44 *)
Lemma sum_unscented_wc n alpha beta lamda : (0 < n)%N -> 0 < n%:R + lamda ->
  \sum_i unscented_wc n alpha beta lamda i ord0 = 2%:R - alpha ^+ 2 + beta.
Proof.
move=> n0 pos.
have [w1 _ _ _] : rule_ok (uns_xi n lamda) (unscented_wm n lamda) (unscented_wm n lamda).
  by apply: (uns_ok pos (w0 := lamda / (n%:R + lamda))) => //; rewrite ?mxE // => i i0; rewrite mxE eqn0Ngt i0.
move: w1; rewrite (bigD1 ord0) //= [in X in _ -> X](bigD1 ord0) //=.
have -> : \sum_(i | i != ord0) unscented_wc n alpha beta lamda i ord0 = \sum_(i | i != ord0) unscented_wm n lamda i ord0.
  by apply: eq_bigr => i i0; rewrite mxE (_ : (i == 0 :> nat)%N = false) //; apply/negbTE; move: i0; rewrite -val_eqE.
move: (\sum_(_ | _) _) => t; rewrite !mxE /= => w1.
have -> : t = 1 - lamda / (n%:R + lamda) by apply/eqP; rewrite eq_sym subr_eq addrC w1.
rewrite [RHS](_ : _ = 1 + (1 - alpha ^+ 2 + beta)); last by rewrite !addrA.
by rewrite [LHS]addrC [LHS]addrA subrK.
Qed.
Section C44.
Variable cholesky : forall n, 'M[R]_n -> 'M[R]_n.
Hypothesis cok : cholesky_ok cholesky.
Variables (nx ny : nat) (F : 'M[R]_(ny, nx)) (c : 'cV[R]_ny) (m : 'cV[R]_nx) (S : 'M[R]_ny) (P : 'M[R]_nx).
Hypotheses (nx0 : (0 < nx)%N) (pP : pd P) (sS : S^T = S).
Theorem C44_cubature : functional cholesky (fun x => F *m x + c) S m P (cubature_weights nx) = (F, c, S).
Proof.
rewrite (functional_affine F c m (cubature_quad_ok nx0) cok pP sS).
by have [[-> _ _ _] _] := cubature_quad_ok nx0; rewrite scale1r.
Qed.
Theorem C44_gauss_hermite h order : hermegauss_ok h -> (2 <= order)%N ->
  functional cholesky (fun x => F *m x + c) S m P (gauss_hermite_weights h nx order) = (F, c, S).
Proof.
move=> hok o2; have [xi [wm [q _]]] := gauss_hermite_quad_ok nx hok o2.
by rewrite (functional_affine F c m q cok pP sS); have [[-> _ _ _] _] := q; rewrite scale1r.
Qed.
(** any unscented rule: the noise covariance is multiplied by the sum of the covariance weights *)
Theorem C44_unscented_scale alpha beta kappa :
  0 < nx%:R + unscented_lamda nx alpha (if kappa is Some k then k else 3%:R + nx%:R) ->
  functional cholesky (fun x => F *m x + c) S m P (unscented_weights nx alpha beta kappa)
  = (F, c, (2%:R - alpha ^+ 2 + beta) *: S).
Proof.
move=> pos; rewrite (functional_affine F c m (unscented_quad_ok beta nx0 pos) cok pP sS).
by rewrite sum_unscented_wc.
Qed.
Theorem C44_unscented alpha beta kappa :
  0 < nx%:R + unscented_lamda nx alpha (if kappa is Some k then k else 3%:R + nx%:R) ->
  beta = alpha ^+ 2 - 1 ->
  functional cholesky (fun x => F *m x + c) S m P (unscented_weights nx alpha beta kappa) = (F, c, S).
Proof.
move=> pos ->; rewrite C44_unscented_scale //; congr (_, _, _).
by rewrite addrA subrK (_ : 2%:R = 1 + 1) // addrK scale1r.
Qed.
Theorem C44_unscented_default :
  functional cholesky (fun x => F *m x + c) S m P (unscented_default nx) = (F, c, (15%:R / 4%:R) *: S).
Proof.
rewrite /unscented_default C44_unscented_scale ?default_pos //; congr (_, _, _ *: _).
by rewrite expr2 !RdivE ?pnatr_eq0 // !RnatE /=; toR; field.
Qed.
End C44.

(** C44 is false for the default unscented rule *)
Theorem C44_refuted cholesky : cholesky_ok cholesky ->
  exists (n : nat) (F : 'M[R]_n) (c m : 'cV[R]_n) (S P : 'M[R]_n),
    [/\ (0 < n)%N, pd P, pd S & functional cholesky (fun x => F *m x + c) S m P (unscented_default n) <> (F, c, S)].
Proof.
move=> cok; exists 1%N, 1%:M, 0, 0, 1%:M, 1%:M; split=> //; try exact: pd1.
rewrite C44_unscented_default ?trmx1 //; last exact: pd1.
by move=> [] /matrixP /(_ ord0 ord0); rewrite !mxE mulr1 RdivE ?pnatr_eq0 // !RnatE /=; toR => h; lra.
Qed.

(** square root mode: the third result is a factor of the noise covariance *)
Section C44Sqrt.
Variable tria : forall m k : nat, 'M[R]_(m, k) -> 'M[R]_m.
Hypothesis tok : tria_ok tria.
Variables (nx ny : nat) (F : 'M[R]_(ny, nx)) (c : 'cV[R]_ny) (m : 'cV[R]_nx) (S : 'M[R]_ny) (chol : 'M[R]_nx).
Hypotheses (nx0 : (0 < nx)%N) (tchol : is_trig_mx chol) (uchol : chol \in unitmx) (uS : S \in unitmx).
Theorem C44_sqrt_cubature :
  let: (A, b, L) := functional_sqrt tria (fun x => F *m x + c) S m chol (cubature_weights nx) in
  [/\ A = F, b = c, is_trig_mx L & L *m L^T = S *m S^T].
Proof.
have q := cubature_quad_ok nx0; have := functional_sqrt_affine F c m q tok tchol uchol uS.
have [[-> _ _ _] _] := q; rewrite scale1r; apply => [i|]; last exact: ltr01.
by rewrite mxE divr_ge0 ?ler01 ?ler0n.
Qed.
Theorem C44_sqrt_gauss_hermite h order : hermegauss_ok h -> (2 <= order)%N ->
  let: (A, b, L) := functional_sqrt tria (fun x => F *m x + c) S m chol (gauss_hermite_weights h nx order) in
  [/\ A = F, b = c, is_trig_mx L & L *m L^T = S *m S^T].
Proof.
move=> hok o2; have [xi [wm [q wp]]] := gauss_hermite_quad_ok nx hok o2.
have := functional_sqrt_affine F c m q tok tchol uchol uS.
by have [[-> _ _ _] _] := q; rewrite scale1r; apply => //; exact: ltr01.
Qed.
(** unscented rules whose covariance weights are not negative *)
Theorem C44_sqrt_unscented_scale alpha beta kappa
    (lamda := unscented_lamda nx alpha (if kappa is Some k then k else 3%:R + nx%:R)) :
  0 < nx%:R + lamda -> 0 <= lamda / (nx%:R + lamda) + (1 - alpha ^+ 2 + beta) ->
  let: (A, b, L) := functional_sqrt tria (fun x => F *m x + c) S m chol (unscented_weights nx alpha beta kappa) in
  [/\ A = F, b = c, is_trig_mx L & L *m L^T = (2%:R - alpha ^+ 2 + beta) *: (S *m S^T)].
Proof.
move=> pos w0; have q := unscented_quad_ok beta nx0 pos.
have := functional_sqrt_affine F c m q tok tchol uchol uS; rewrite -/lamda sum_unscented_wc //; apply.
  move=> i; rewrite !mxE; case E: (nat_of_ord i == 0)%N => //; rewrite ?mxE ?E.
  by rewrite mul1r invr_ge0 mulr_ge0 ?ler0n // ltW.
rewrite (_ : _ + beta = 1 + (1 - alpha ^+ 2 + beta)); last by rewrite !addrA.
have -> : 1 + (1 - alpha ^+ 2 + beta) = nx%:R / (nx%:R + lamda) + (lamda / (nx%:R + lamda) + (1 - alpha ^+ 2 + beta)).
  by rewrite [RHS]addrA -mulrDl divff // lt0r_neq0.
by rewrite ltr_paddr // divr_gt0 // ltr0n.
Qed.
Theorem C44_sqrt_unscented alpha beta kappa
    (lamda := unscented_lamda nx alpha (if kappa is Some k then k else 3%:R + nx%:R)) :
  0 < nx%:R + lamda -> 0 <= lamda -> beta = alpha ^+ 2 - 1 ->
  let: (A, b, L) := functional_sqrt tria (fun x => F *m x + c) S m chol (unscented_weights nx alpha beta kappa) in
  [/\ A = F, b = c, is_trig_mx L & L *m L^T = S *m S^T].
Proof.
move=> pos l0 be; have e : 1 - alpha ^+ 2 + beta = 0 by rewrite be addrA subrK subrr.
have := C44_sqrt_unscented_scale (alpha := alpha) (beta := beta) (kappa := kappa) pos.
have -> : 2%:R - alpha ^+ 2 + beta = 1 :> R by rewrite -[RHS]addr0 -e !addrA.
by rewrite e addr0 scale1r; apply; rewrite divr_ge0 // ltW.
Qed.
End C44Sqrt.

(** hypotheses of C44 are met: a two-dimensional state, three observations *)
Example C44_nonvacuous :
  functional some_cholesky (fun x => (const_mx 1 : 'M[R]_(3, 2)) *m x + const_mx 2%:R) 1%:M (const_mx 5%:R) 1%:M
    (cubature_weights 2) = (const_mx 1, const_mx 2%:R, 1%:M).
Proof. by apply: C44_cubature; rewrite ?trmx1 //; [exact: some_cholesky_ok|exact: pd1]. Qed.
Example C44_sqrt_nonvacuous :
  let: (A, b, L) := functional_sqrt some_tria (fun x => (const_mx 1 : 'M[R]_(3, 2)) *m x + const_mx 2%:R) 1%:M
    (const_mx 5%:R) 1%:M (cubature_weights 2) in
  [/\ A = const_mx 1, b = const_mx 2%:R, is_trig_mx L & L *m L^T = 1%:M *m 1%:M^T].
Proof.
apply: C44_sqrt_cubature; rewrite ?unitmx1 //; first exact: some_tria_ok.
Qed.

(** ** C45 *)
Theorem C45_updates n K (L : 'M[R]_n) (V : 'M[R]_(K, n)) (al : R) :
  is_trig_mx L -> (forall i, L i i != 0) -> pd (L *m L^T + al *: (V^T *m V)) ->
  let L' := cholesky_update_many L V al in
  [/\ is_trig_mx L', L' *m L'^T = L *m L^T + al *: (V^T *m V) & (0 < K)%N -> forall i, 0 < L' i i].
Proof.
move=> tL dL pA; apply: cholesky_update_many_ok => //.
by rewrite trig_unit //; apply/forallP.
Qed.
(** updates and downdates in three dimensions, from a factor with negative diagonal entries *)
Example C45_nonvacuous (V : 'M[R]_(2, 3)) (L := (- 2%:R)%:M : 'M[R]_3) :
  [/\ is_trig_mx L, forall i, L i i != 0, pd (L *m L^T + 1 *: (V^T *m V))
    & pd (L *m L^T + -1 *: ((1%:M : 'M[R]_3)^T *m 1%:M))].
Proof.
have d i : L i i != 0 by rewrite !mxE eqxx oppr_eq0 pnatr_eq0.
have t : is_trig_mx L by apply/is_trig_mxP => i j ij; rewrite !mxE -val_eqE ltn_eqF.
have u : L \in unitmx by rewrite trig_unit //; apply/forallP.
split=> //.
  by rewrite scale1r -{2}[V]trmxK; apply: pdD; [exact: unit_pd|exact: gram_psd].
have -> : L *m L^T + -1 *: ((1%:M : 'M[R]_3)^T *m 1%:M) = 1%:M + (1%:M *m 1%:M^T + 1%:M *m 1%:M^T).
  rewrite trmx1 mulmx1 /L tr_scalar_mx -scalar_mxM mulrNN scaleN1r -!raddfD -raddfN -raddfD /=; congr _%:M.
  by toR; lra.
by apply: pdD; [exact: pd1|apply: psdD; exact: gram_psd].
Qed.

(** ** C55: updates of a singular factor *)
Lemma enum2 : enum 'I_2 = [:: ord0; ord_max].
Proof. by apply: (inj_map val_inj); rewrite val_enum_ord. Qed.
Definition diag2 (a b : R) : 'M[R]_2 := \matrix_(i, j) (if i == j then if i == ord0 then a else b else 0).
Lemma mx2P (A B : 'M[R]_2) : A ord0 ord0 = B ord0 ord0 -> A ord0 ord_max = B ord0 ord_max ->
  A ord_max ord0 = B ord_max ord0 -> A ord_max ord_max = B ord_max ord_max -> A = B.
Proof.
move=> a b c d; apply/matrixP => i j.
have o2 (k : 'I_2) : k = ord0 \/ k = ord_max by case: k => [[|[|//]] h]; [left|right]; apply: val_inj.
by case: (o2 i) => ->; case: (o2 j) => ->.
Qed.
(** once the carry [b] is not finite, or zero, nothing finite comes out *)
Lemma update_two (L : 'M[R]_2) al (v : 'cV[R]_2) d c o b d' c' o' b' :
  update_body L al (fun i => Some (v i ord0)) (Some 1) ord0 = (d, c, o, b) ->
  update_body L al o b ord_max = (d', c', o', b') ->
  cholesky_update L al v = \matrix_(i, j) (if i == j then odflt 0 (if i == ord0 then d else d')
                                           else if (i < j)%N then 0 else odflt 0 (c ord_max)).
Proof.
move=> e e'; rewrite /cholesky_update enum2; apply: mx2P; rewrite !mxE /update_scan e e' //=.
Qed.
Lemma odiv_0 a : odiv a (Some 0) = None. Proof. by case: a => //= x; rewrite /odiv eqxx. Qed.
Lemma odiv_N a : odiv a None = None. Proof. by case: a. Qed.
Lemma omul_N a : omul a None = None. Proof. by case: a. Qed.
Lemma oadd_N a : oadd a None = None. Proof. by case: a. Qed.
Lemma osub_N a : osub a None = None. Proof. by case: a. Qed.
Lemma omulN a : omul None a = None. Proof. by []. Qed.
Lemma oaddN a : oadd None a = None. Proof. by []. Qed.
Lemma osubN a : osub None a = None. Proof. by []. Qed.
Lemma odivN a : odiv None a = None. Proof. by []. Qed.
Lemma osqrtN : osqrt None = None. Proof. by []. Qed.
Definition nonfinite := (odiv_0, odiv_N, omul_N, oadd_N, osub_N, omulN, oaddN, osubN, odivN, osqrtN).
Theorem C55_refuted : exists (L : 'M[R]_2) (V : 'M[R]_(1, 2)),
  [/\ is_trig_mx L, pd (L *m L^T + 1 *: (V^T *m V))
    & let L' := cholesky_update_many L V 1 in L' *m L'^T <> L *m L^T + 1 *: (V^T *m V)].
Proof.
exists (diag2 0 1), (delta_mx ord0 ord0).
have e : diag2 0 1 *m (diag2 0 1)^T + 1 *: ((delta_mx ord0 ord0 : 'M[R]_(1, 2))^T *m delta_mx ord0 ord0) = 1%:M.
  rewrite scale1r trmx_delta mul_delta_mx.
  by apply: mx2P; rewrite !mxE !big_ord_recl big_ord0 !mxE /= ?(mulr0, mul0r, mulr1, addr0, add0r).
split.
- by apply/is_trig_mxP => i j ij; rewrite mxE -val_eqE ltn_eqF.
- by rewrite e; exact: pd1.
rewrite e /cholesky_update_many (_ : enum 'I_1 = [:: ord0]) /=; last by apply: (inj_map val_inj); rewrite val_enum_ord.
rewrite (_ : (row ord0 _)^T = delta_mx ord0 ord0); last by apply/matrixP => i j; rewrite !mxE andbC !ord1.
have := update_two (L := diag2 0 1) (al := 1) (v := delta_mx ord0 ord0) erefl erefl.
set u := cholesky_update _ _ _ => -> /matrixP /(_ ord_max ord_max).
rewrite !mxE !big_ord_recl big_ord0 !mxE /= !nonfinite /= !mul0r !addr0 => h.
by move/eqP: h; rewrite eq_sym oner_eq0.
Qed.

(** ** C56: square root mode with singular noise, or with a negative covariance weight *)
(** the factor of diag(1, 2), downdated by the unit vectors: zero instead of diag(0, 1) *)
Lemma downdate_to_singular (T : 'M[R]_2) : is_trig_mx T -> T *m T^T = diag2 1 2%:R ->
  cholesky_update_many T (1%:M : 'M[R]_2) (-1) = 0.
Proof.
move=> /is_trig_mxP tT eT.
have t01 : T ord0 ord_max = 0 by apply: tT.
have l0 : lift ord0 ord0 = ord_max :> 'I_2 by apply: val_inj.
have e00 : T ord0 ord0 * T ord0 ord0 = 1.
  by move/matrixP: eT => /(_ ord0 ord0); rewrite !mxE !big_ord_recl big_ord0 !mxE l0 t01 mul0r !addr0 /=.
have n0 : T ord0 ord0 != 0.
  by apply/negP => /eqP z; move/eqP: e00; rewrite z mul0r eq_sym oner_eq0.
have rE (k : 'I_2) : (row k 1%:M)^T = delta_mx k ord0 :> 'cV[R]_2.
  by apply/colP => i; rewrite !mxE eqxx andbT eq_sym.
rewrite /cholesky_update_many enum2 /= !rE.
have b0 : 1 + -1 * (1 / T ord0 ord0 * (1 / T ord0 ord0)) = 0.
  by rewrite !mul1r -invfM e00 invr1 mulr1 subrr.
have -> : cholesky_update T (-1) (delta_mx ord0 ord0) = 0.
  have := update_two (L := T) (al := -1) (v := delta_mx ord0 ord0) erefl erefl.
  move=> ->; rewrite !mxE eqxx /=.
  have -> : oadd (omul (omul (Some (T ord0 ord0)) (Some (T ord0 ord0))) (Some 1)) (omul (Some (-1)) (omul (Some 1) (Some 1))) = Some 0.
    by rewrite !omulE oaddE e00 !mulr1 subrr.
  have -> : oadd (Some 1) (omul (Some (-1)) (omul (odiv (Some 1) (Some (T ord0 ord0))) (odiv (Some 1) (Some (T ord0 ord0))))) = Some 0.
    by rewrite !odivE // !omulE oaddE b0.
  have -> : osqrt (oadd (omul (Some (T ord0 ord0)) (Some (T ord0 ord0)))
              (omul (odiv (Some (-1)) (Some 1)) (omul (Some 1) (Some 1)))) = Some 0.
    by rewrite odivE ?oner_eq0 // !omulE oaddE e00 !mulr1 divr1 subrr osqrtE // sqrt_0.
  by rewrite !nonfinite; apply: mx2P; rewrite !mxE.
have := update_two (L := 0) (al := -1) (v := delta_mx ord_max ord0) erefl erefl.
move=> ->; rewrite !mxE /= !nonfinite.
have -> : osqrt (oadd (omul (Some 0) (Some 0)) (omul (odiv (Some (-1)) (Some 1)) (omul (Some 0) (Some 0)))) = Some 0.
  by rewrite odivE ?oner_eq0 // !omulE oaddE !mulr0 addr0 osqrtE // sqrt_0.
by apply: mx2P; rewrite !mxE.
Qed.
(** the returned factor and the factor of the noise differ *)
Theorem C56_refuted tria : tria_ok tria ->
  exists (F S chol : 'M[R]_2) (c m : 'cV[R]_2),
    [/\ is_trig_mx chol, chol \in unitmx, is_trig_mx S,
        functional_sqrt tria (fun x => F *m x + c) S m chol (cubature_weights 2) = (F, c, 0)
      & S *m S^T <> 0].
Proof.
move=> tok; exists 1%:M, (diag2 0 1), 1%:M, 0, 0.
have t1 : is_trig_mx (1%:M : 'M[R]_2) by [].
have SS : diag2 0 1 *m (diag2 0 1)^T = diag2 0 1.
  by apply: mx2P; rewrite !mxE !big_ord_recl big_ord0 !mxE /= ?(mulr0, mul0r, mulr1, addr0, add0r).
split=> //; first exact: unitmx1.
- by apply/is_trig_mxP => i j ij; rewrite mxE -val_eqE ltn_eqF.
- have q := @cubature_quad_ok 2 isT.
  have [|T [tT eT ->]] := functional_sqrt_raw 1%:M 0 0 q (diag2 0 1) tok t1 (unitmx1 _ _).
    by move=> i; rewrite mxE divr_ge0 ?ler01 ?ler0n.
  rewrite mulmx1 trmx1 downdate_to_singular // eT; have [[-> _ _ _] _] := q.
  rewrite SS scale1r !(trmx1, mulmx1).
  by apply: mx2P; rewrite !mxE /= ?addr0.
by rewrite SS => /matrixP /(_ ord_max ord_max); rewrite !mxE /= => /eqP; rewrite oner_eq0.
Qed.
(** a negative covariance weight makes the returned factor zero, whatever the function and the noise *)
Theorem C56_negative_weight tria nx ny (f : 'cV[R]_nx -> 'cV[R]_ny) (S : 'M[R]_ny) (m : 'cV[R]_nx) (chol : 'M[R]_nx)
    (q : Quadrature nx) i :
  sp_wc (get_sigma_points q m chol) i ord0 < 0 -> (functional_sqrt tria f S m chol q).2 = 0.
Proof.
move=> h; rewrite /functional_sqrt /conditional_moments_sqrt; case: (linear_part f m q chol) => A b /=.
by case: forallP => // /(_ i); rewrite leNgt h.
Qed.
(** such rules arise from admissible parameters, for which covariance mode is exact *)
Theorem C56_negative_weight_refuted tria cholesky : cholesky_ok cholesky ->
  exists (q : Quadrature 4),
    [/\ reproduces q, forall (F S : 'M[R]_4) c m P, pd P -> S^T = S ->
          functional cholesky (fun x => F *m x + c) S m P q = (F, c, S)
      & forall (F S : 'M[R]_4) c m chol, (functional_sqrt tria (fun x => F *m x + c) S m chol q).2 = 0].
Proof.
move=> cok; exists (unscented_weights 4 1 0 (Some (-1))).
have l : unscented_lamda 4 1 (-1) = -1 by rewrite /unscented_lamda expr1n mul1r addrAC subrr add0r.
have pos : 0 < 4%:R + unscented_lamda 4 1 (-1) by rewrite l -[1]/(1%:R) -natrB // ltr0n.
split.
- exact: C43_unscented.
- by move=> F S c m P pP sS; apply: C44_unscented => //; rewrite expr1n subrr.
move=> F S c m chol; have w : sp_wc (get_sigma_points (unscented_weights 4 1 0 (Some (-1))) m chol) (ord0 : 'I_(1 + (4 + 4))) ord0 < 0.
  by rewrite mxE /= l expr1n subrr !addr0 mulN1r oppr_lt0 invr_gt0 -[4%:R + -1]/(4%:R - 1%:R) -natrB // ltr0n.
exact: (C56_negative_weight tria _ _ w).
Qed.
Print Assumptions C43_cubature.
Print Assumptions C43_unscented.
Print Assumptions C43_gauss_hermite.
Print Assumptions C43_cubature_is_unscented.
Print Assumptions C43_one_node_has_no_spread.
Print Assumptions C44_cubature.
Print Assumptions C44_gauss_hermite.
Print Assumptions C44_unscented_scale.
Print Assumptions C44_unscented.
Print Assumptions C44_unscented_default.
Print Assumptions C44_refuted.
Print Assumptions C44_sqrt_cubature.
Print Assumptions C44_sqrt_gauss_hermite.
Print Assumptions C44_sqrt_unscented_scale.
Print Assumptions C44_sqrt_unscented.
Print Assumptions C45_updates.
Print Assumptions C55_refuted.
Print Assumptions C56_refuted.
Print Assumptions C56_negative_weight.
Print Assumptions C56_negative_weight_refuted.
