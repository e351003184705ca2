(** Derivatives of linear-Gaussian log densities and exactness of the linearisations. *)
From Coq Require Import Reals Lra.
From mathcomp Require Import all_ssreflect all_algebra.
From Verif Require Import RStruct MxBase ZmodTac KalmanModel LinalgModel LinearizeModel GaussSpec LinalgSpec
  LinearizeSpec MvnProofs InvSqrtProofs.
Set Implicit Arguments.
Unset Strict Implicit.
Unset Printing Implicit Defensive.
Local Open Scope ring_scope.
Import GRing.Theory Num.Theory Order.Theory.

(** ** norms and quadratic remainders *)
Lemma maxnorm_ge0 n (h : 'cV[R]_n) : 0 <= maxnorm h.
Proof.
rewrite /maxnorm; elim/big_rec: _ => // i x _ x0; by rewrite le_maxr x0 orbT.
Qed.
Lemma le_maxnorm n (h : 'cV[R]_n) i : `|h i ord0| <= maxnorm h.
Proof.
rewrite /maxnorm; have : i \in index_enum (ordinal_finType n) by exact: mem_index_enum.
elim: index_enum => // a s IH; rewrite in_cons big_cons le_maxr => /orP [/eqP ->|/IH ->]; by rewrite ?lexx ?orbT.
Qed.
Lemma quad_bound n (Q : 'M[R]_n) (h : 'cV[R]_n) :
  `|(h^T *m Q *m h) ord0 ord0| <= (\sum_i \sum_j `|Q i j|) * (maxnorm h * maxnorm h).
Proof.
have -> : (h^T *m Q *m h) ord0 ord0 = \sum_i \sum_j Q i j * (h i ord0 * h j ord0).
  rewrite -mulmxA mxE; apply: eq_bigr => i _; rewrite !mxE mulr_sumr; apply: eq_bigr => j _.
  by rewrite mulrCA mulrA.
rewrite mulr_suml; apply: le_trans (ler_norm_sum _ _ _) _; apply: ler_sum => i _.
rewrite mulr_suml; apply: le_trans (ler_norm_sum _ _ _) _; apply: ler_sum => j _.
rewrite normrM; apply: ler_wpmul2l => //; rewrite normrM; apply: ler_pmul => //; exact: le_maxnorm.
Qed.
Lemma moved0 n (x : 'cV[option R]_n) : moved x 0 = x.
Proof. by apply/colP => i; rewrite !mxE; case: (x i ord0) => //= v; rewrite addr0. Qed.
Lemma moved_add n (x : 'cV[option R]_n) h k : moved (moved x h) k = moved x (h + k).
Proof. by apply/colP => i; rewrite !mxE; case: (x i ord0) => //= v; rewrite addrA. Qed.
Lemma moved_some n (x h : 'cV[R]_n) : moved (map_mx Some x) h = map_mx Some (x + h).
Proof. by apply/colP => i; rewrite !mxE. Qed.

Lemma grad_quad n (f : 'cV[option R]_n -> option R) x v (g : 'cV[R]_n) (Q : 'M[R]_n) :
  (forall h, f (moved x h) = Some (v + (g^T *m h) ord0 ord0 + (h^T *m Q *m h) ord0 ord0)) -> has_grad f x g.
Proof.
move=> fE; exists v; split.
  by rewrite -[x in f x]moved0 fE !mulmx0 !mxE !addr0.
move=> eps e0; set C := (\sum_i \sum_j `|Q i j|).
have C0 : 0 <= C by apply: sumr_ge0 => i _; apply: sumr_ge0 => j _.
have C1 : 0 < C + 1 by rewrite ltr_paddl.
exists (eps / (C + 1)); split; first exact: divr_gt0.
move=> h hd; eexists; split; first exact: fE.
have -> : \sum_i g i ord0 * h i ord0 = (g^T *m h) ord0 ord0.
  by rewrite mxE; apply: eq_bigr => i _; rewrite mxE.
rewrite (_ : v + _ + _ - v - _ = (h^T *m Q *m h) ord0 ord0); last by toR; ring.
apply: le_trans (quad_bound Q h) _; rewrite mulrA; apply: ler_wpmul2r; first exact: maxnorm_ge0.
apply: le_trans (_ : (C + 1) * maxnorm h <= _).
  by apply: ler_wpmul2r; [exact: maxnorm_ge0|rewrite ler_addl ler01].
by rewrite -ler_pdivl_mull // mulrC.
Qed.
Lemma grad_affine n (f : 'cV[option R]_n -> option R) x v (g : 'cV[R]_n) :
  (forall h, f (moved x h) = Some (v + (g^T *m h) ord0 ord0)) -> has_grad f x g.
Proof.
by move=> fE; apply: (@grad_quad _ _ _ v _ 0) => h; rewrite fE mulmx0 mul0mx [X in _ + _ + X]mxE addr0.
Qed.

Lemma half_expand (c a b q : R) : c - 2%:R^-1 * (a + b + b + q) = c - 2%:R^-1 * a - b + - 2%:R^-1 * q.
Proof. by rewrite !RinvE ?pnatr_eq0 // !RnatE /=; toR; field. Qed.

(** ** NaN-free arithmetic *)
Section NanFree.
Variables m n p : nat.
Lemma nan_addE (A B : 'M[R]_(m, n)) : nan_add (map_mx Some A) (map_mx Some B) = map_mx Some (A + B).
Proof. by apply/matrixP => i j; rewrite !mxE. Qed.
Lemma nan_subE (A B : 'M[R]_(m, n)) : nan_sub (map_mx Some A) (map_mx Some B) = map_mx Some (A - B).
Proof. by apply/matrixP => i j; rewrite !mxE. Qed.
Lemma nan_oppE (A : 'M[R]_(m, n)) : nan_opp (map_mx Some A) = map_mx Some (- A).
Proof. by apply/matrixP => i j; rewrite !mxE. Qed.
Lemma nan_mulE (A : 'M[R]_(m, n)) (B : 'M[R]_(n, p)) : nan_mul (map_mx Some A) (map_mx Some B) = map_mx Some (A *m B).
Proof.
apply/matrixP => i j; rewrite !mxE; case: existsP => [[k]|_]; first by rewrite !mxE.
by congr Some; apply: eq_bigr => k _; rewrite !mxE.
Qed.
Lemma map_some_tr (A : 'M[R]_(m, n)) : (map_mx Some A)^T = map_mx Some A^T.
Proof. by apply/matrixP => i j; rewrite !mxE. Qed.
Lemma map_some_inj : injective (map_mx Some : 'M[R]_(m, n) -> 'M[option R]_(m, n)).
Proof. by move=> A B /matrixP h; apply/matrixP => i j; have := h i j; rewrite !mxE => -[]. Qed.
End NanFree.
Lemma chol_cov_full n (L : 'M[R]_n) : chol_cov_with_nans_to_cov (map_mx Some L) = map_mx Some (L *m L^T).
Proof.
rewrite /chol_cov_with_nans_to_cov; apply/matrixP => i j; rewrite [LHS]mxE [isnan _]/isnan [_ i i]mxE andbF.
rewrite mxE.
have nf a : [exists b, isnan ((\matrix_(i, j) (if isnan ((map_mx Some L) i i) || isnan ((map_mx Some L) j j)
    then Some 0 else (map_mx Some L) i j)) a b)] = false.
  by apply/negbTE/existsPn => b; rewrite !mxE.
by rewrite !nf /= !mxE; congr Some; apply: eq_bigr => k _; rewrite !mxE.
Qed.

Section Oracles.
Variable tria : forall m k : nat, 'M[R]_(m, k) -> 'M[R]_m.
Variable svd : forall n, 'M[R]_n -> 'M[R]_n * 'rV[R]_n.
Variable grad : forall n, ('cV[option R]_n -> option R) -> 'cV[option R]_n -> 'cV[option R]_n.
Variable jacobian : forall n p, ('cV[option R]_n -> 'cV[option R]_p) -> 'cV[option R]_n -> 'M[option R]_(p, n).
Hypothesis tria_spec : tria_ok tria.
Hypothesis grad_spec : grad_ok grad.
Hypothesis jac_spec : jacobian_ok jacobian.

Lemma jac_affine n p (f : 'cV[option R]_n -> 'cV[option R]_p) x (v : 'cV[R]_p) (J : 'M[R]_(p, n)) :
  (forall h, f (moved x h) = map_mx Some (v + J *m h)) -> jacobian f x = map_mx Some J.
Proof.
move=> fE; apply: jac_spec => i; apply: (@grad_affine _ _ _ (v i ord0)) => h.
rewrite fE [LHS]mxE; congr Some; rewrite [LHS]mxE; congr (_ + _); rewrite trmxK !mxE; apply: eq_bigr => k _.
by rewrite mxE.
Qed.

(** ** quadratic functions: [f (moved y h) = c - 1/2 r^T P r], [r = S (y + h) - a] *)
Section Quadratic.
Variables (n k : nat) (f : 'cV[option R]_n -> option R) (y : 'cV[option R]_n) (c : R).
Variables (P : 'M[R]_k) (S : 'M[R]_(k, n)) (r : 'cV[R]_k).
Hypothesis symP : P^T = P.
Hypothesis fE : forall h, let e := r + S *m h in
  f (moved y h) = Some (c - 2%:R^-1 * (e^T *m P *m e) ord0 ord0).
Lemma quad_grad h : grad f (moved y h) = map_mx Some (- (S^T *m P *m (r + S *m h))).
Proof.
apply: grad_spec; have [e eE] : exists e, e = r + S *m h by exists (r + S *m h).
rewrite -eE.
apply: (@grad_quad _ _ _ (c - 2%:R^-1 * (e^T *m P *m e) ord0 ord0) _ (- 2%:R^-1 *: (S^T *m P *m S))) => j.
rewrite moved_add fE (mulmxDr S) addrA -eE; congr Some.
have -> : ((e + S *m j)^T *m P *m (e + S *m j)) =
   e^T *m P *m e + (S^T *m P *m e)^T *m j + (S^T *m P *m e)^T *m j + j^T *m (S^T *m P *m S) *m j.
  have -> : (e + S *m j)^T = e^T + j^T *m S^T by rewrite linearD /= trmx_mul.
  rewrite !mulmxDl !mulmxDr !trmx_mul symP trmxK !mulmxA -!addrA; congr (_ + (_ + _)); congr (_ + _).
  have sc (x : 'M[R]_1) : x^T = x by apply/matrixP => a b; rewrite !mxE !ord1.
  by rewrite -[LHS]sc !trmx_mul symP !trmxK !mulmxA.
have mE (A B C D : 'M[R]_1) : (A + B + C + D) ord0 ord0 = A ord0 ord0 + B ord0 ord0 + C ord0 ord0 + D ord0 ord0.
  by rewrite !mxE.
rewrite mE linearN /= mulNmx -scalemxAr -scalemxAl ![(- _ : 'M_1) ord0 ord0]mxE ![(_ *: _ : 'M_1) ord0 ord0]mxE.
exact: half_expand.
Qed.
Lemma quad_hess : hessian grad jacobian f y = map_mx Some (- (S^T *m P *m S)).
Proof.
apply: (@jac_affine _ _ _ _ (- (S^T *m P *m r))) => h.
by rewrite quad_grad mulmxDr opprD mulNmx !mulmxA.
Qed.
End Quadratic.

(** ** conditional log densities *)
Section Cond.
Variables (nx ny : nat) (f : 'cV[option R]_nx -> 'cV[option R]_ny -> option R).
Variables (H : 'M[R]_(ny, nx)) (d : 'cV[R]_ny) (c : R) (y : 'cV[option R]_ny).
Variables (k : nat) (P : 'M[R]_k) (S : 'M[R]_(k, ny)).
Hypothesis symP : P^T = P.
Hypothesis fE : forall x h, let e := S *m (map_mx value (moved y h) - (H *m x + d)) in
  f (map_mx Some x) (moved y h) = Some (c - 2%:R^-1 * (e^T *m P *m e) ord0 ord0).
Hypothesis SE : forall h, S *m map_mx value (moved y h) = S *m (map_mx value y + h).
Lemma cond_f x h : let e := S *m (map_mx value y - (H *m x + d)) + S *m h in
  f (map_mx Some x) (moved y h) = Some (c - 2%:R^-1 * (e^T *m P *m e) ord0 ord0).
Proof.
have eE : S *m (map_mx value (moved y h) - (H *m x + d)) = S *m (map_mx value y - (H *m x + d)) + S *m h.
  by rewrite !mulmxBr SE (mulmxDr S (map_mx value y)) addrAC.
by rewrite fE eE.
Qed.
Lemma cond_grad x : grad (f (map_mx Some x)) y = map_mx Some (- (S^T *m P *m S *m (map_mx value y - (H *m x + d)))).
Proof. by have := quad_grad symP (cond_f x) 0; rewrite moved0 mulmx0 addr0 !mulmxA. Qed.
Lemma cond_hess x : hessian grad jacobian (f (map_mx Some x)) y = map_mx Some (- (S^T *m P *m S)).
Proof. exact: quad_hess symP (cond_f x). Qed.
Lemma cond_jac x : jacobian (fun x => grad (f x) y) (map_mx Some x) = map_mx Some (S^T *m P *m S *m H).
Proof.
apply: (@jac_affine _ _ _ _ (- (S^T *m P *m S *m (map_mx value y - (H *m x + d))))) => h.
rewrite moved_some cond_grad; congr (map_mx Some _).
rewrite (mulmxDr H) (_ : _ - (_ + _ + d) = map_mx value y - (H *m x + d) - H *m h); last by zmod.
by rewrite mulmxBr opprB addrC !mulmxA.
Qed.
End Cond.

(** no missing entry: exact *)
Lemma full_rows n (y h : 'cV[R]_n) : (1%:M : 'M[R]_n) *m map_mx value (moved (map_mx Some y) h) = 1%:M *m (map_mx value (map_mx Some y) + h).
Proof. by rewrite !mul1mx moved_some; apply/colP => i; rewrite !mxE. Qed.
Lemma value_some m n (A : 'M[R]_(m, n)) : map_mx value (map_mx Some A) = A.
Proof. by apply/matrixP => i j; rewrite !mxE. Qed.

Lemma given_exact nx ny (f : 'cV[option R]_nx -> 'cV[option R]_ny -> option R) (H : 'M[R]_(ny, nx)) d Rn c x y L ignore :
  pd Rn ->
  (forall x y, f (map_mx Some x) (map_mx Some y) = Some (c - 2%:R^-1 * mahalanobis Rn (y - (H *m x + d)))) ->
  L *m L^T = Rn ->
  linearize_log_density_given_chol_cov grad jacobian f (map_mx Some x) (map_mx Some y) (map_mx Some L) ignore
  = (map_mx Some H, map_mx Some d).
Proof.
move=> pR fE LL; have uR := pd_unit pR; have [sR _] := pR.
have symP : (invmx Rn)^T = invmx Rn by rewrite trmx_inv sR.
have fE' x0 h : let e := 1%:M *m (map_mx value (moved (map_mx Some y) h) - (H *m x0 + d)) in
    f (map_mx Some x0) (moved (map_mx Some y) h) = Some (c - 2%:R^-1 * (e^T *m invmx Rn *m e) ord0 ord0).
  by rewrite moved_some fE mul1mx value_some.
rewrite /linearize_log_density_given_chol_cov.
rewrite (cond_jac symP fE' (full_rows y)) (cond_grad symP fE' (full_rows y)) value_some trmx1 mul1mx mulmx1.
have -> : (if ignore then chol_cov_with_nans_to_cov (map_mx Some L) else nan_mul (map_mx Some L) (map_mx Some L)^T)
    = map_mx Some Rn by case: ignore; rewrite ?chol_cov_full ?map_some_tr ?nan_mulE LL.
rewrite !nan_mulE nan_subE nan_addE mulmxN !mulmxA mulmxV // !mul1mx.
by congr (_, map_mx Some _); zmod.
Qed.
Lemma hess_exact nx ny (f : 'cV[option R]_nx -> 'cV[option R]_ny -> option R) (H : 'M[R]_(ny, nx)) d Rn c x y :
  pd Rn ->
  (forall x y, f (map_mx Some x) (map_mx Some y) = Some (c - 2%:R^-1 * mahalanobis Rn (y - (H *m x + d)))) ->
  hessian grad jacobian (f (map_mx Some x)) (map_mx Some y) = map_mx Some (- invmx Rn).
Proof.
move=> pR fE; have [sR _] := pR.
have symP : (invmx Rn)^T = invmx Rn by rewrite trmx_inv sR.
have fE' x0 h : let e := 1%:M *m (map_mx value (moved (map_mx Some y) h) - (H *m x0 + d)) in
    f (map_mx Some x0) (moved (map_mx Some y) h) = Some (c - 2%:R^-1 * (e^T *m invmx Rn *m e) ord0 ord0).
  by rewrite moved_some fE mul1mx value_some.
by rewrite (cond_hess symP fE' (full_rows y)) trmx1 mul1mx mulmx1.
Qed.
End Oracles.
