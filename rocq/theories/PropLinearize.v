(** C46-C48, C57, C58: linearisation of log densities, moments and potentials. *)
From Coq Require Import Reals Lra.
From mathcomp Require Import all_ssreflect all_algebra.
From Verif Require Import RStruct MxBase ZmodTac KalmanModel LinalgModel LinearizeModel GaussSpec KalmanSpec LinalgSpec
  LinearizeSpec LinSpec LinearizeProofs LinearizeProofs2 LinearizeProofs3 PropMvn TriaExist InvSqrtProofs.
Set Implicit Arguments.
Unset Strict Implicit.
Unset Printing Implicit Defensive.
Local Open Scope ring_scope.
Import GRing.Theory Num.Theory Order.Theory.

(** ** C46 *)
Theorem C46_log_density_exact tria svd grad jacobian nx ny
    (f : 'cV[option R]_nx -> 'cV[option R]_ny -> option R) (H : 'M[R]_(ny, nx)) (d : 'cV[R]_ny) (Rn : 'M[R]_ny)
    (rtol : R) (ignore : bool) (x : 'cV[R]_nx) (y : 'cV[R]_ny) :
  tria_ok tria -> grad_ok grad -> jacobian_ok jacobian -> 0 <= rtol ->
  linear_gaussian f H d Rn -> recoverable svd rtol Rn ->
  exists L : 'M[R]_ny,
  [/\ linearize_log_density tria svd grad jacobian f (map_mx Some x) (map_mx Some y) rtol ignore
      = (map_mx Some H, map_mx Some d, map_mx Some L), is_trig_mx L & L *m L^T = Rn].
Proof.
move=> ok gok jok r0 [c fE] [pR sep dec].
have [L [LE t LL]] := C42_full_matrix ignore ok (pd_inv pR) r0 sep dec; rewrite invmxK in LL.
exists L; split=> //.
rewrite /linearize_log_density (hess_exact gok jok x y pR fE) nan_oppE opprK.
have -> : \matrix_(i, j) (if (i == j) && (isnan ((map_mx Some y : 'cV[option R]_ny) i ord0) ||
    isnan ((map_mx Some (invmx Rn)) i i)) then None else (map_mx Some (invmx Rn)) i j) = map_mx Some (invmx Rn).
  by apply/matrixP => i j; rewrite !mxE andbF.
by rewrite if_same LE (given_exact gok jok x y ignore pR fE LL).
Qed.
Print Assumptions C46_log_density_exact.
(** with a given factor of the true covariance, at any conditioning *)
Theorem C46_given_chol_cov grad jacobian nx ny
    (f : 'cV[option R]_nx -> 'cV[option R]_ny -> option R) (H : 'M[R]_(ny, nx)) (d : 'cV[R]_ny) (L : 'M[R]_ny)
    (ignore : bool) (x : 'cV[R]_nx) (y : 'cV[R]_ny) :
  grad_ok grad -> jacobian_ok jacobian -> L \in unitmx -> linear_gaussian f H d (L *m L^T) ->
  linearize_log_density_given_chol_cov grad jacobian f (map_mx Some x) (map_mx Some y) (map_mx Some L) ignore
  = (map_mx Some H, map_mx Some d).
Proof. by move=> gok jok uL [c fE]; apply: (given_exact gok jok x y ignore (gram_pd _) fE erefl); rewrite gram_unit. Qed.
Print Assumptions C46_given_chol_cov.
(** the hypotheses hold for some_tria, diag_svd, some_grad and some_jacobian with noise covariance 2 I *)
Lemma recoverable_scalar n (rtol c : R) : 0 < c -> 0 <= rtol -> rtol < 1 -> recoverable (@diag_svd) rtol (c%:M : 'M[R]_n).
Proof.
move=> c0 r0 r1; have ci : 0 < c^-1 by rewrite invr_gt0.
rewrite /recoverable invmx_scalar; split.
- split=> [|v vn]; first by rewrite tr_scalar_mx.
  rewrite mul_mx_scalar -scalemxAl mxE mulr_gt0 //.
  have [_ h] := @pd1 R_realFieldType n; by have := h v vn; rewrite /qf mulmx1.
- by move=> w w' /scalar_eigenvalue -> /scalar_eigenvalue ->; rewrite -[X in _ < X]mul1r ltr_pmul2r.
- split; first by rewrite /= trmx1 mulmx1.
  exists (\row_j (c^-1%:M : 'M[R]_n) j j); split.
  + rewrite /= mul1mx trmx1 mulmx1; apply/matrixP => i j; rewrite !mxE eqxx mulr1n.
    by case: eqP.
  + by move=> j; rewrite /= !mxE eqxx mulr1n ger0_norm // ltW.
  + by move=> i j _; rewrite /= !mxE !eqxx.
Qed.
Definition demo_density nx ny (H : 'M[R]_(ny, nx)) (d : 'cV[R]_ny) (Rn : 'M[R]_ny)
    (x : 'cV[option R]_nx) (y : 'cV[option R]_ny) : option R :=
  Some (- (2%:R^-1 * mahalanobis Rn (map_mx (odflt 0) y - (H *m map_mx (odflt 0) x + d)))).
Lemma odflt_some n p (A : 'M[R]_(n, p)) : map_mx (odflt 0) (map_mx Some A) = A.
Proof. by apply/matrixP => i j; rewrite !mxE. Qed.
Lemma demo_density_ok nx ny (H : 'M[R]_(ny, nx)) d Rn : linear_gaussian (demo_density H d Rn) H d Rn.
Proof. by exists 0 => x y; rewrite /demo_density !odflt_some sub0r. Qed.
Example C46_case nx ny (H : 'M[R]_(ny, nx)) (d : 'cV[R]_ny) (x : 'cV[R]_nx) (y : 'cV[R]_ny) ignore :
  exists L : 'M[R]_ny,
  [/\ linearize_log_density some_tria (@diag_svd) some_grad some_jacobian (demo_density H d 2%:R%:M) (map_mx Some x)
        (map_mx Some y) (2%:R^-1) ignore = (map_mx Some H, map_mx Some d, map_mx Some L),
      is_trig_mx L & L *m L^T = 2%:R%:M].
Proof.
apply: C46_log_density_exact (@some_tria_ok) some_grad_ok some_jacobian_ok _ (demo_density_ok _ _ _) _.
  by rewrite invr_ge0 ler0n.
by apply: recoverable_scalar; rewrite ?invr_ge0 ?ltr0n ?ler0n // invf_lt1 ?ltr0n // ltr1n.
Qed.

(** ** C47 *)
Theorem C47_moments_interpolate jacobian nx ny (fn : 'cV[option R]_nx -> 'cV[option R]_ny * 'M[option R]_ny)
    (x : 'cV[R]_nx) (m : 'cV[R]_ny) (L : 'M[option R]_ny) (J : 'M[R]_(ny, nx)) :
  jacobian_ok jacobian -> fn (map_mx Some x) = (map_mx Some m, L) ->
  (forall i, has_grad (fun z => (fn z).1 i ord0) (map_mx Some x) (row i J)^T) ->
  exists b : 'cV[R]_ny, linearize_moments jacobian fn (map_mx Some x) = (map_mx Some J, map_mx Some b, L) /\
    J *m x + b = m.
Proof.
move=> jok fE hJ; exists (m - J *m x); split; last by rewrite addrC subrK.
by rewrite /linearize_moments fE (jok _ _ (fun z => (fn z).1) _ _ hJ) nan_mulE nan_subE.
Qed.
Print Assumptions C47_moments_interpolate.
Theorem C47_affine_exact jacobian nx ny (fn : 'cV[option R]_nx -> 'cV[option R]_ny * 'M[option R]_ny)
    (F : 'M[R]_(ny, nx)) (c : 'cV[R]_ny) (L : 'cV[R]_nx -> 'M[R]_ny) (x : 'cV[R]_nx) :
  jacobian_ok jacobian -> (forall x, fn (map_mx Some x) = (map_mx Some (F *m x + c), map_mx Some (L x))) ->
  linearize_moments jacobian fn (map_mx Some x) = (map_mx Some F, map_mx Some c, map_mx Some (L x)).
Proof.
move=> jok fE; rewrite /linearize_moments fE.
rewrite (jac_affine jok (v := F *m x + c) (J := F)); last by move=> h; rewrite moved_some fE /= mulmxDr addrAC.
by rewrite nan_mulE nan_subE addrC addKr.
Qed.
Print Assumptions C47_affine_exact.
(** squaring: the linearisation at x is 2 x z - x^2 *)
Definition demo_square (z : 'cV[option R]_1) : 'cV[option R]_1 * 'M[option R]_1 :=
  (\col_i omap (fun v : R => v ^+ 2) (z i ord0), map_mx Some 1%:M).
Example C47_case (v : R) : linearize_moments some_jacobian demo_square (const_mx (Some v))
  = (const_mx (Some (2%:R * v)), const_mx (Some (- v ^+ 2)), map_mx Some 1%:M).
Proof.
have sE (w : R) : const_mx (Some w) = map_mx Some (const_mx w : 'M[R]_1) by apply/matrixP => i j; rewrite !mxE.
rewrite !sE; have [|i|b [-> eb]] := @C47_moments_interpolate _ _ _ demo_square (const_mx v) (const_mx (v ^+ 2))
  (map_mx Some 1%:M) (const_mx (2%:R * v)) some_jacobian_ok.
- by congr (_, _); apply/matrixP => i j; rewrite !mxE.
- exists (v ^+ 2); split; first by rewrite /= !mxE.
  move=> eps e0; exists eps; split=> // h hd; exists ((v + h ord0 ord0) ^+ 2); split.
    by rewrite /= !mxE /=; congr (Some ((v + h _ _) ^+ 2)); exact: ord1.
  rewrite big_ord1 !mxE; move: hd; rewrite /maxnorm big_ord_recl big_ord0.
  have -> : (v + h ord0 ord0) ^+ 2 - v ^+ 2 - 2%:R * v * h ord0 ord0 = h ord0 ord0 * h ord0 ord0.
    by move: (h ord0 ord0) => w; rewrite !expr2; toR; ring.
  rewrite (max_l _) ?normr_ge0 // => hd; rewrite normrM ler_wpmul2r //.
- congr (_, _, _); congr map_mx; apply/matrixP => i j.
  move/matrixP: eb => /(_ i j); rewrite !mxE big_ord1 !mxE => eb.
  have -> : b i j = v ^+ 2 - 2%:R * v * v by rewrite -eb addrC addKr.
  by rewrite expr2; toR; ring.
Qed.

(** ** C48 *)
Theorem C48_taylor_exact tria svd grad jacobian n (f : 'cV[option R]_n -> option R) (m : 'cV[R]_n) (Rn : 'M[R]_n)
    (rtol : R) (ignore : bool) (x : 'cV[R]_n) :
  tria_ok tria -> grad_ok grad -> jacobian_ok jacobian -> 0 <= rtol ->
  gaussian_potential f m Rn -> recoverable svd rtol Rn ->
  exists L : 'M[R]_n,
  [/\ linearize_taylor tria svd grad jacobian f (map_mx Some x) rtol ignore = (map_mx Some m, map_mx Some L),
      is_trig_mx L & L *m L^T = Rn].
Proof. by move=> ok gok jok r0 [c fE] [pR sep dec]; exact: (taylor_full ok gok jok ignore pR r0 sep dec fE x). Qed.
Print Assumptions C48_taylor_exact.
