(** C39-C42 and C53: Gaussian log densities and the linear algebra helpers. *)
From Coq Require Import Reals Lra.
From mathcomp Require Import all_ssreflect all_algebra.
From Verif Require Import RStruct MxBase ZmodTac KalmanModel MvnShapes LinalgModel GaussSpec LinalgSpec
  MvnProofs MvnProofs2 LinalgProofs InvSqrtProofs TriaExist.
From Verif Require Import Ext MvnExt MvnExtProofs.
From Verif Require ScanModel.
Set Implicit Arguments.
Unset Strict Implicit.
Unset Printing Implicit Defensive.
Local Open Scope ring_scope.
Import GRing.Theory Num.Theory Order.Theory.

Lemma sel_inj n (x : 'cV[option R]_n) : injective (@sel n x).
Proof.
move=> a b; rewrite /sel => e; apply: val_inj; apply/eqP => /=.
have u : uniq (observed x) by apply: filter_uniq; exact: enum_uniq.
rewrite -(nth_uniq (tnth (in_tuple (observed x)) a) (ltn_ord a) (ltn_ord b) u); apply/eqP.
by move: e; rewrite {1}(tnth_nth (sel a)) [RHS](tnth_nth (sel a)).
Qed.

(** ** C39 *)
Theorem C39_matrix_factor n (x m : 'cV[R]_n) (L : 'M[R]_n) : is_trig_mx L -> (forall i, L i i != 0) ->
  logpdf x m (CMat L) = ScanModel.Ok (gauss x m (L *m L^T)).
Proof.
move=> t d; rewrite /logpdf; case: eqP => // e; rewrite castmx_id; congr ScanModel.Ok.
by apply: logpdf_mxE => //; rewrite trig_unit //; apply/forallP.
Qed.
Print Assumptions C39_matrix_factor.

Theorem C39_vector_factor n (x m v : 'cV[R]_n.+1) : (forall i, v i ord0 != 0) ->
  logpdf x m (CVec v) = ScanModel.Ok (gauss x m (diag_mx (\row_i (v i ord0 ^+ 2)))).
Proof.
move=> h; rewrite /logpdf /logpdf_vec eqxx /= -logpdf_diagE // /logpdf_diag maxnn; congr (ScanModel.Ok (_ * _ - _ - _)).
have b (u : 'cV[R]_n.+1) (i : 'I_n.+1) : bget u i = u i ord0.
  rewrite /bget /at_; case: insubP => [o _ eo|]; last by case: eqP => _; rewrite ?ltn_ord.
  congr (u _ _); apply: val_inj; rewrite /= eo; case: eqP => // -[e].
  by case: i {o eo} => i /=; rewrite e ltnS leqn0 => /eqP.
by rewrite /dot mxE; apply: eq_bigr => i _; rewrite !mxE !b expr2.
Qed.
Print Assumptions C39_vector_factor.

Theorem C39_scalar_factor n (x m : 'cV[R]_n) (c : R) : 0 < c ->
  logpdf x m (CScalar c) = ScanModel.Ok (gauss x m (c ^+ 2)%:M).
Proof. by move=> /RltP c0; rewrite /logpdf logpdf_isoE. Qed.
Print Assumptions C39_scalar_factor.

Theorem C39_scalar_argument (x m c : R) : 0 < c ->
  logpdf_scalar x m c = gauss (const_mx x : 'cV_1) (const_mx m) (c ^+ 2)%:M.
Proof. by move=> /RltP; exact: logpdf_scalarE. Qed.
Print Assumptions C39_scalar_argument.

(** flipping the sign of columns of the factor (hence of its diagonal entries) changes nothing *)
Theorem C39_sign_flips n (x m : 'cV[R]_n) (L : 'M[R]_n) (s : 'I_n -> bool) :
  is_trig_mx L -> (forall i, L i i != 0) ->
  logpdf x m (CMat (\matrix_(i, j) ((-1) ^+ s j * L i j))) = logpdf x m (CMat L).
Proof.
move=> t d; rewrite [RHS]C39_matrix_factor // C39_matrix_factor.
- congr (ScanModel.Ok (gauss _ _ _)); apply/matrixP => i j; rewrite !mxE; apply: eq_bigr => k _.
  by rewrite !mxE mulrACA -expr2 sqrr_sign mul1r.
- by apply/is_trig_mxP => i j ij; rewrite mxE; move/is_trig_mxP: t => ->; rewrite ?mulr0.
- by move=> i; rewrite mxE mulf_neq0 // signr_eq0.
Qed.
Print Assumptions C39_sign_flips.

Theorem C39_bad_matrix_shape n (x m : 'cV[R]_n) p q (M : 'M[R]_(p, q)) : (p, q) <> (n, n) ->
  logpdf x m (CMat M) = ScanModel.Err ScanModel.ValueError.
Proof. by move=> h; rewrite /logpdf; case: eqP => // ep; case: eqP => // eq; case: h; rewrite ep eq. Qed.
Print Assumptions C39_bad_matrix_shape.

(** [[2, 0], [1, -3]] *)
Definition demo_L : 'M[R]_2 := \matrix_(i, j)
  (if (i == 0 :> nat)%N then (if (j == 0 :> nat)%N then 2%:R else 0) else (if (j == 0 :> nat)%N then 1 else - 3%:R)).
Lemma demo_L_trig : is_trig_mx demo_L.
Proof. by apply/is_trig_mxP => -[[|[|i]] //= ?] [[|[|j]] //= ?] //= _; rewrite mxE. Qed.
Lemma demo_L_diag i : demo_L i i != 0.
Proof. by case: i => -[|[|i]] //= ?; rewrite mxE /= ?oppr_eq0 pnatr_eq0. Qed.
Example C39_case (x m : 'cV[R]_2) : logpdf x m (CMat demo_L) = ScanModel.Ok (gauss x m (demo_L *m demo_L^T))
  /\ logpdf x m (CMat (1%:M : 'M[R]_3)) = ScanModel.Err ScanModel.ValueError.
Proof. by split; [exact: C39_matrix_factor demo_L_trig demo_L_diag|exact: C39_bad_matrix_shape]. Qed.

(** ** C40 *)
(** The marginal of N(mean, S) over the observed coordinates is N(mean_o, S_oo).  The full statement is
    false for scalar [x], see [C40_scalar_refuted]; the [_partial] theorems cover all vectors [x]. *)
Theorem C40_matrix_factor_partial tria n (x : 'cV[option R]_n) (mean : 'cV[R]_n) (L : 'M[R]_n) :
  tria_ok tria -> obs_block x (L *m L^T) \in unitmx ->
  logpdf_nan_mx tria x mean L = gauss (obs_values x) (obs_rows x mean) (obs_block x (L *m L^T)).
Proof. move=> ok u; exact: logpdf_nan_mxE. Qed.
Print Assumptions C40_matrix_factor_partial.

Theorem C40_vector_factor_partial n (x : 'cV[option R]_n) (mean c : 'cV[R]_n) :
  (forall i, x i ord0 <> None -> c i ord0 != 0) ->
  logpdf_nan_diag x mean c
  = gauss (obs_values x) (obs_rows x mean) (obs_block x (diag_mx (\row_i c i ord0 ^+ 2))).
Proof.
move=> h; rewrite logpdf_nan_diagE; last by move=> i /eqP; exact: h.
congr (gauss _ _ _); apply/matrixP => a b; rewrite !mxE.
have inj := @sel_inj _ x.
by rewrite (inj_eq inj).
Qed.
Print Assumptions C40_vector_factor_partial.

Theorem C40_scalar_factor_partial n (x : 'cV[option R]_n) (mean : 'cV[R]_n) (c : R) : c != 0 ->
  logpdf_nan_iso x mean c = gauss (obs_values x) (obs_rows x mean) (c ^+ 2)%:M.
Proof.
move=> c0; rewrite /logpdf_nan_iso C40_vector_factor_partial; last by move=> i _; rewrite mxE.
congr (gauss _ _ _); apply/matrixP => a b; rewrite !mxE.
have inj := @sel_inj _ x.
by rewrite (inj_eq inj).
Qed.
Print Assumptions C40_scalar_factor_partial.

(** With nothing observed the marginal density is that of a point, so its logarithm is 0. *)
Lemma gauss_empty (x m : 'cV[R]_0) (P : 'M[R]_0) : gauss x m P = 0.
Proof.
rewrite /gauss /mahalanobis (flatmx0 x) (flatmx0 m) subr0 trmx0 !mulmx0 mxE det_mx00.
by rewrite ln1 mul0r mul0r !mulr0 !subr0.
Qed.
Theorem C40_all_missing_partial tria n (mean : 'cV[R]_n) (L : 'M[R]_n) : tria_ok tria ->
  logpdf_nan_mx tria (const_mx None) mean L = 0.
Proof.
move=> ok; have o : observed (const_mx None : 'cV[option R]_n) = [::].
  by apply/eqP; rewrite -[_ == _]negbK -has_filter; apply/hasPn => i _; rewrite mxE.
have e (k : nat) (y m : 'cV[R]_k) (P : 'M[R]_k) : k = 0%N -> gauss y m P = 0.
  by move=> k0; subst k; exact: gauss_empty.
rewrite C40_matrix_factor_partial // ?e ?o // /obs_block.
set B := mxsub _ _ _; move: B; rewrite o => B; by rewrite unitmxE det_mx00 unitr1.
Qed.
Print Assumptions C40_all_missing_partial.

(** ... but a NaN scalar gives NaN instead of 0, whatever the mean and the factor *)
Theorem C40_scalar_refuted : exists mean chol_cov : R, Rlt 0 chol_cov /\
  logpdf_nan_scalar_ext NaN (Fin mean) (Fin chol_cov) <> Fin 0.
Proof. by exists 0, 1; split; [exact: Rlt_0_1|rewrite logpdf_nan_scalar_nan]. Qed.
Print Assumptions C40_scalar_refuted.
Theorem C40_scalar_nan mean chol_cov : logpdf_nan_scalar_ext NaN mean chol_cov = NaN.
Proof. exact: logpdf_nan_scalar_nan. Qed.
Print Assumptions C40_scalar_nan.

Example C40_case (mean : 'cV[R]_2) : logpdf_nan_mx some_tria (\col_i (if (i == 0 :> nat)%N then None else Some 1)) mean 1%:M
  = gauss (obs_values (\col_i (if (i == 0 :> nat)%N then None else Some 1))) (obs_rows _ mean)
          (obs_block _ (1%:M *m 1%:M^T)).
Proof.
apply: C40_matrix_factor_partial; first exact: some_tria_ok.
rewrite trmx1 mulmx1; set y := \col_i _.
have -> : obs_block y 1%:M = 1%:M; last exact: unitmx1.
have inj := @sel_inj _ y.
by apply/matrixP => a b; rewrite !mxE (inj_eq inj).
Qed.

(** ** C41 *)
Theorem C41_marginal_block tria n size (L : 'M[R]_n) start : tria_ok tria -> (0 < size)%N -> (start + size <= n)%N ->
  exists B, [/\ marginal_sqrt_cov tria L start size = ScanModel.Ok B, is_trig_mx B &
    forall (i j : 'I_size) (a b : 'I_n), (a = start + i :> nat)%N -> (b = start + j :> nat)%N ->
      (B *m B^T) i j = (L *m L^T) a b].
Proof.
move=> ok s0 le; have le' : (size <= n)%N by apply: leq_trans le; exact: leq_addl.
have [B [e t h]] := @marginalE tria ok n size L start s0 le'; exists B; split=> // i j a b ea eb; apply: h.
  by rewrite (minn_idPl _) // -(leq_add2r size) subnK.
by rewrite (minn_idPl _) // -(leq_add2r size) subnK.
Qed.
Print Assumptions C41_marginal_block.
(** out of range: the last block *)
Theorem C41_out_of_range tria n size (L : 'M[R]_n) start : tria_ok tria -> (0 < size)%N -> (size <= n)%N ->
  (n < start + size)%N ->
  exists B, [/\ marginal_sqrt_cov tria L start size = ScanModel.Ok B, is_trig_mx B &
    forall (i j : 'I_size) (a b : 'I_n), (a = n - size + i :> nat)%N -> (b = n - size + j :> nat)%N ->
      (B *m B^T) i j = (L *m L^T) a b].
Proof.
move=> ok s0 le lt; have [B [e t h]] := @marginalE tria ok n size L start s0 le; exists B; split=> // i j a b ea eb.
have m : minn start (n - size) = (n - size)%N by apply/minn_idPr; rewrite leq_subLR addnC ltnW.
by apply: h; rewrite m.
Qed.
Print Assumptions C41_out_of_range.
Theorem C41_all_blocks tria n subdim (L : 'M[R]_n) : tria_ok tria ->
  (0 < subdim)%N -> (subdim %| n)%N -> (0 < n)%N ->
  exists Bs, block_marginal_sqrt_cov tria L subdim = ScanModel.Ok Bs /\ size Bs = (n %/ subdim)%N /\
    forall (k : nat) (d : 'M[R]_subdim), (k < n %/ subdim)%N ->
      is_trig_mx (nth d Bs k) /\
      forall (i j : 'I_subdim) (a b : 'I_n), (a = k * subdim + i :> nat)%N -> (b = k * subdim + j :> nat)%N ->
        (nth d Bs k *m (nth d Bs k)^T) i j = (L *m L^T) a b.
Proof. by move=> ok; exact: block_marginalE. Qed.
Print Assumptions C41_all_blocks.
Theorem C41_errors tria rows cols (M : 'M[R]_(rows, cols)) start size :
  [/\ (rows <> cols -> marginal_sqrt_cov tria M start size = ScanModel.Err ScanModel.AssertionError),
      (size = 0%N -> marginal_sqrt_cov tria M start size = ScanModel.Err ScanModel.AssertionError),
      ((cols < size)%N -> rows = cols -> marginal_sqrt_cov tria M start size = ScanModel.Err ScanModel.TypeError) &
      (rows <> cols \/ size = 0%N \/ ~~ (size %| rows)%N ->
        block_marginal_sqrt_cov tria M size = ScanModel.Err ScanModel.AssertionError)].
Proof.
split=> [ne|s0|lt e|].
- by rewrite /marginal_sqrt_cov; case: eqP.
- by rewrite /marginal_sqrt_cov; case: eqP => // e; rewrite s0.
- rewrite /marginal_sqrt_cov; case: eqP => // e'; rewrite eqn0Ngt (leq_ltn_trans _ lt) //=.
  by case: {-}_ / idP => // le; move: lt; rewrite ltnNge le.
- rewrite /block_marginal_sqrt_cov; case: eqP => // e [|[->|nd]] //.
  by move: nd; rewrite /dvdn => ->; rewrite orbT.
Qed.
Print Assumptions C41_errors.
Example C41_case : exists B, marginal_sqrt_cov some_tria demo_L 1 1 = ScanModel.Ok B /\ (B *m B^T) ord0 ord0 = 10%:R.
Proof.
have [//|//|B [e _ h]] := @C41_marginal_block some_tria 2 1 demo_L 1 (@some_tria_ok); exists B; split=> //.
rewrite (h ord0 ord0 (lift ord0 ord0) (lift ord0 ord0)) // mxE big_ord_recl big_ord1 !mxE /=.
by rewrite mulr1 mulrNN -natrM -[1]/(1%:R) -natrD.
Qed.

(** ** C42 *)
(** [A] has positive definite valid part [Av] (all of it when [ignore_nan_dims] is off), whose
    eigenvalues are above the cutoff, and the decomposition of the sorted, zero-padded matrix that is
    passed to the routine is correct. *)
Theorem C42_inverse_factor tria (svd : forall n, 'M[R]_n -> 'M[R]_n * 'rV[R]_n) n (A : 'M[option R]_n) (rtol : R)
  (ignore : bool) :
  let y := \col_i A i i in
  let Av := obs_block y (map_mx value A) in
  tria_ok tria -> pd Av -> 0 <= rtol ->
  (forall w w', eigenvalue_of Av w -> eigenvalue_of Av w' -> rtol * w' < w) ->
  (forall i j, A i i <> None -> A j j <> None -> A i j <> None) ->
  (ignore = false -> forall i, A i i <> None) ->
  (let M := zero_padded n Av in svd_at M (svd n M).1 (svd n M).2) ->
  let res := symmetric_inv_sqrt tria svd rtol ignore A in
  (forall i j : 'I_n, (i < j)%N -> res i j = Some 0) /\
  exists Lv : 'M[R]_(size (observed y)),
    [/\ is_trig_mx Lv, Lv *m Lv^T = invmx Av,
      (forall a b, res (sel a) (sel b) = Some (Lv a b)) &
      (forall i j, A i i = None \/ A j j = None -> res i j = (if i == j then None else Some 0))].
Proof.
move=> y Av ok pA r0 sep fin full dec res.
have MP : zero_padded n Av = Pd y *m Av *m (Pd y)^T by apply/matrixP => i j; rewrite mxE Pd_conj.
move: dec; rewrite MP => dec.
have [Lv [[t e h h1 h2] up]] := @inv_sqrt_spec tria ok svd n A rtol ignore pA r0 sep fin full dec.
by split=> //; exists Lv; split=> // i j [/h1 ->|/h2 ->].
Qed.
Print Assumptions C42_inverse_factor.

Lemma cast_pd k n (e : k = n) (A : 'M[R]_n) : pd A -> pd (castmx (esym e, esym e) A).
Proof. by subst k; rewrite castmx_id. Qed.
Lemma cast_eigenvalue k n (e : k = n) (A : 'M[R]_n) w : eigenvalue_of (castmx (esym e, esym e) A) w -> eigenvalue_of A w.
Proof. by subst k; rewrite castmx_id. Qed.
Lemma cast_factor k n (e : k = n) (A : 'M[R]_n) (L : 'M[R]_k) : is_trig_mx L ->
  L *m L^T = invmx (castmx (esym e, esym e) A) ->
  is_trig_mx (castmx (e, e) L) /\ castmx (e, e) L *m (castmx (e, e) L)^T = invmx A.
Proof. by subst k; rewrite !castmx_id. Qed.
(** no missing dimension: the whole matrix *)
Theorem C42_full_matrix tria (svd : forall n, 'M[R]_n -> 'M[R]_n * 'rV[R]_n) n (A : 'M[R]_n) (rtol : R)
  (ignore : bool) :
  tria_ok tria -> pd A -> 0 <= rtol ->
  (forall w w', eigenvalue_of A w -> eigenvalue_of A w' -> rtol * w' < w) ->
  svd_at A (svd n A).1 (svd n A).2 ->
  exists L : 'M[R]_n, [/\ symmetric_inv_sqrt tria svd rtol ignore (map_mx Some A) = map_mx Some L,
                          is_trig_mx L & L *m L^T = invmx A].
Proof.
move=> ok pA r0 sep dec; pose y := \col_i (map_mx Some A) i i : 'cV[option R]_n.
have ob : observed y = enum 'I_n by apply/all_filterP/allP => i _; rewrite !mxE.
have so : size (observed y) = n by rewrite ob size_enum_ord.
have selE (a : 'I_(size (observed y))) : sel a = cast_ord so a.
  apply: val_inj; rewrite /sel (tnth_nth (cast_ord so a)) /=.
  transitivity (nth (cast_ord so a) (enum 'I_n) a : nat); first by congr (nat_of_ord (nth _ _ _)).
  by rewrite nth_enum_ord // (leq_trans (ltn_ord a) (eq_leq so)).
have AE : map_mx value (map_mx Some A) = A by apply/matrixP => i j; rewrite !mxE.
have bE : obs_block y A = castmx (esym so, esym so) A.
  by apply/matrixP => a b; rewrite castmxE !mxE !selE !esymK.
have zE : zero_padded n (obs_block y A) = A.
  apply/matrixP => i j; rewrite mxE.
  case: insubP => [a _ ai|]; last by rewrite so ltn_ord.
  case: insubP => [b _ bj|]; last by rewrite so ltn_ord.
  by rewrite mxE !selE; congr (A _ _); apply: val_inj.
have [||||||up [Lv [t e h _]]] := @C42_inverse_factor tria svd n (map_mx Some A) rtol ignore ok; rewrite ?AE -/y //.
- by rewrite bE; exact: cast_pd.
- by move=> w w'; rewrite bE => /cast_eigenvalue hw /cast_eigenvalue; exact: sep.
- by move=> i j _ _; rewrite mxE.
- by move=> _ i; rewrite mxE.
- by rewrite zE.
move: e; rewrite AE -/y bE => /(cast_factor t) [t' e']; exists (castmx (so, so) Lv); split=> //.
apply/matrixP => i j; rewrite [RHS]mxE castmxE -h !selE; congr (symmetric_inv_sqrt _ _ _ _ _ _ _); exact: val_inj.
Qed.
Print Assumptions C42_full_matrix.

(** diag(NaN, 2, 2) with NaN in the first row and column *)
Definition demo_A : 'M[option R]_3 :=
  \matrix_(i, j) (if (i == 0 :> nat)%N || (j == 0 :> nat)%N then None else Some (if i == j then 2%:R else 0)).
Definition diag_svd n (M : 'M[R]_n) : 'M[R]_n * 'rV[R]_n := (1%:M, \row_j M j j).
Lemma demo_valid : obs_block (\col_i demo_A i i) (map_mx value demo_A) = 2%:R%:M.
Proof.
apply/matrixP => a b; rewrite !mxE -(inj_eq (@sel_inj _ _) a b).
have h (c : 'I_(size (observed (\col_i demo_A i i)))) : (sel c == 0 :> nat)%N = false.
  have : sel c \in observed (\col_i demo_A i i) by exact: mem_tnth.
  by rewrite mem_filter !mxE orbb; case: eqP.
by rewrite !h /=; case: eqP.
Qed.
Lemma scalar_eigenvalue n (c w : R) : eigenvalue_of (c%:M : 'M[R]_n) w -> w = c.
Proof.
case=> v [vn]; rewrite mul_scalar_mx => /eqP; rewrite -subr_eq0 -scalerBl scaler_eq0 (negbTE vn) orbF subr_eq0.
by move/eqP.
Qed.
Lemma zero_padded_scalar n k (c : R) (i j : 'I_n) :
  zero_padded n (c%:M : 'M[R]_k) i j = c *+ ((i == j) && (i < k)%N).
Proof.
rewrite mxE; case: insubP => [a ik ai|]; last by rewrite -leqNgt => ki; rewrite ltnNge ki andbF.
rewrite ik andbT; case: insubP => [b jk bj|nj].
  by rewrite mxE -!val_eqE ai bj.
by case: eqP => // e; move: nj; rewrite -e ik.
Qed.
Example C42_case : exists Lv : 'M[R]_(size (observed (\col_i demo_A i i))),
  [/\ Lv *m Lv^T = invmx 2%:R%:M,
      forall a b, symmetric_inv_sqrt some_tria diag_svd (2%:R^-1) true demo_A (sel a) (sel b) = Some (Lv a b) &
      symmetric_inv_sqrt some_tria diag_svd (2%:R^-1) true demo_A ord0 ord0 = None].
Proof.
have [||||//||up [Lv [t e h h']]] := @C42_inverse_factor some_tria diag_svd 3 demo_A (2%:R^-1) true (@some_tria_ok).
- rewrite demo_valid; have := @pd1 R_realFieldType (size (observed (\col_i demo_A i i))).
  case=> s q; split; first by rewrite tr_scalar_mx.
  by move=> v vn; rewrite /qf mul_mx_scalar -scalemxAl mxE mulr_gt0 ?ltr0n //; have := q v vn; rewrite /qf mulmx1.
- by rewrite invr_ge0 ler0n.
- move=> w w'; rewrite demo_valid => /scalar_eigenvalue -> /scalar_eigenvalue ->.
  by rewrite mulVf ?pnatr_eq0 // ltr1n.
- by move=> i j; rewrite !mxE !orbb; case: eqP => // _ _; case: eqP.
- rewrite demo_valid; set k := size _; set M := zero_padded 3 _.
  have ME i j : M i j = 2%:R *+ ((i == j) && (i < k)%N) by exact: zero_padded_scalar.
  split; first by rewrite trmx1 mulmx1.
  exists (\row_j M j j); split.
  + apply/matrixP => i j; rewrite mul1mx trmx1 mulmx1 [RHS]mxE [X in X *+ _]mxE !ME eqxx /=.
    by case: eqP => [->|_]; rewrite ?mulr1n.
  + by move=> j; rewrite [(diag_svd M).2]/= ![(\row_j M j j) _ _]mxE ME ger0_norm // mulrn_wge0 // ler0n.
  + move=> i j ij; rewrite ![(\row_j M j j) _ _]mxE !ME !eqxx /=; case: ltnP => jk.
      by rewrite (leq_ltn_trans ij jk).
    by rewrite mulrn_wge0 // ler0n.
exists Lv; split=> //; first by rewrite e demo_valid.
by rewrite h' // mxE; left.
Qed.

(** ** C53: vectors of standard deviations of the wrong length *)
(** The full statement (a vector whose length differs from that of [x] is rejected) is false: a vector of
    length one is stretched in the quotient but not in the log determinant. *)
Theorem C53_refuted : exists (n k : nat) (x mean : 'cV[R]_n) (v : 'cV[R]_k.+1),
  [/\ n != k.+1, forall i, v i ord0 != 0 &
      exists r, logpdf x mean (CVec v) = ScanModel.Ok r /\ r <> gauss x mean ((v ord0 ord0 ^+ 2)%:M)].
Proof.
exists 2%N, 0%N, 0, 0, (const_mx 2%:R); split=> // [i|]; first by rewrite mxE pnatr_eq0.
have p2 : Rlt 0 (2%:R : R) by toR; lra.
eexists; split; first reflexivity; rewrite -logpdf_isoE ?mxE // /logpdf_iso subrr /dot trmx0 mul0mx mxE mulr0 mul0r.
have z m i : bget (0 : 'cV[R]_m) i = 0 by rewrite /bget /at_; case: insubP => // o _ _; rewrite mxE.
rewrite big1 => [|i _]; last by rewrite !z subrr mul0r expr0n.
rewrite big_ord1 mxE ger0_norm ?ler0n // mulr0.
have l2 : ln (2%:R : R) <> 0 by have -> : (2%:R : R) = IZR 2; [toR; ring|have := ln_lt_2; toR; lra].
by move=> e; apply: l2; move: e; move: (ln (2%:R * PI)) (ln _) => a b; toR; move=> e; lra.
Qed.
Print Assumptions C53_refuted.
(** lengths that cannot be broadcast do raise, with [nan_support=False] *)
Theorem C53_not_broadcastable_partial n k (x mean : 'cV[R]_n) (v : 'cV[R]_k.+1) :
  n <> k.+1 -> n <> 1%N -> k <> 0%N -> logpdf x mean (CVec v) = ScanModel.Err ScanModel.TypeError.
Proof.
move=> h1 h2 h3; rewrite /logpdf /logpdf_vec; case: eqP => // _; case: eqP => [[]//|_]; by case: eqP.
Qed.
Print Assumptions C53_not_broadcastable_partial.
(** with [nan_support=True] nothing is checked: entries after the [n]-th are ignored, and a shorter
    vector is continued with its last entry *)
Theorem C53_nan_support_truncates n k (x : 'cV[option R]_n) (mean : 'cV[R]_n) (v : 'cV[R]_k.+1) (w : 'cV[R]_n) :
  (forall (i : 'I_n) (j : 'I_k.+1), (j = minn i k :> nat)%N -> w i ord0 = v j ord0) ->
  logpdf_nan_vec x mean v = logpdf_nan_diag x mean w.
Proof.
move=> h; rewrite /logpdf_nan_vec; congr (logpdf_nan_diag _ _ _); apply/matrixP => i j; rewrite [j]ord1 mxE.
by rewrite -(h i (inord (minn i k))) // inordK // ltnS geq_minr.
Qed.
Print Assumptions C53_nan_support_truncates.

(** ** C54: chol_cov_with_nans_to_cov *)
Section C54.
Variables (n : nat) (L : 'M[option R]_n).
Let y : 'cV[option R]_n := \col_i L i i.
Let Lv := obs_block y (map_mx value L).
(** entries in valid rows and columns are numbers *)
Hypothesis fin : forall i j, L i i <> None -> L j j <> None -> L i j <> None.
Let res := chol_cov_with_nans_to_cov L.
Let C : 'M[option R]_n := \matrix_(i, j) (if isnan (L i i) || isnan (L j j) then Some 0 else L i j).
Lemma nan_cov_rows i : [exists j, isnan (C i j)] = false.
Proof.
apply/negbTE/existsPn => j; rewrite mxE /isnan; case Li: (L i i) => [li|] //=; case Lj: (L j j) => [lj|] //=.
by have := @fin i j; rewrite Li Lj; case: (L i j) => // h; exfalso; apply: h.
Qed.
Lemma nan_covE i j : res i j = if (i == j) && isnan (L i i) then None
                               else Some (\sum_k value (C i k) * value (C j k)).
Proof. by rewrite /res /chol_cov_with_nans_to_cov -/C mxE; case: ifP => // _; rewrite mxE !nan_cov_rows. Qed.
Theorem C54_valid_block_partial :
  (forall i j, L i i = None \/ L j j = None -> res i j = (if i == j then None else Some 0)) /\
  (forall a b, res (sel a) (sel b) = Some ((Lv *m Lv^T) a b)).
Proof.
split=> [i j h|a b]; rewrite nan_covE.
  case: eqP => [e|ne] /=.
    by subst j; have -> : L i i = None by case: h.
  congr Some; rewrite big1 // => k _; rewrite !mxE.
  by case: h => ->; rewrite /= ?mul0r ?mulr0.
have v (c : 'I_(size (observed y))) : isnan (L (sel c) (sel c)) = false.
  have : sel c \in observed y by exact: mem_tnth.
  by rewrite mem_filter mxE /isnan => /andP[->].
rewrite v andbF; congr Some; rewrite [RHS]mxE.
rewrite (bigID (fun k => isSome (y k ord0))) /= [X in _ + X]big1 ?addr0 => [|k]; last first.
  by rewrite mxE => hk; rewrite /C !mxE /isnan hk !orbT /= mul0r.
transitivity (\sum_(k <- observed y) value (C (sel a) k) * value (C (sel b) k)).
  by rewrite big_filter big_enum_cond.
rewrite big_tnth; apply: eq_bigr => c _; rewrite -/(sel c).
by rewrite !mxE !v.
Qed.
(** when the missing columns do not reach valid rows, this is the product in the documentation *)
Theorem C54_product_partial i j : (forall i j, L i i <> None -> L j j = None -> L i j = Some 0) ->
  L i i <> None -> L j j <> None ->
  res i j = Some ((map_mx value L *m (map_mx value L)^T) i j).
Proof.
move=> z vi vj; rewrite nan_covE; have f k : L k k <> None -> isnan (L k k) = false by rewrite /isnan; case: (L k k).
rewrite f // andbF; congr Some; rewrite mxE; apply: eq_bigr => k _; rewrite !mxE (f i vi) (f j vj) /=.
by case E: (L k k) => [l|] //=; rewrite (z i k vi E) (z j k vj E).
Qed.
End C54.
Print Assumptions C54_valid_block_partial.
Print Assumptions C54_product_partial.
(** The documented result, the product [chol_cov @ chol_cov.T] at every pair of valid dimensions, is not
    what is returned when a missing column has entries in valid rows: with [[NaN, 0], [1, 1]] the variance
    of the second dimension is reported as 1 instead of 2. *)
Theorem C54_refuted : exists (n : nat) (L : 'M[option R]_n) (i : 'I_n),
  [/\ forall a b : 'I_n, (a < b)%N -> L a b = Some 0, forall b, L i b <> None &
      chol_cov_with_nans_to_cov L i i <> Some ((map_mx value L *m (map_mx value L)^T) i i)].
Proof.
pose L : 'M[option R]_2 := \matrix_(i, j) (if (i == 0 :> nat)%N then if (j == 0 :> nat)%N then None else Some 0 else Some 1).
pose o0 : 'I_2 := ord0; pose o1 : 'I_2 := lift ord0 ord0.
have E00 : L o0 o0 = None by rewrite mxE.
have E1 j : L o1 j = Some 1 by rewrite mxE.
have fin : forall i j : 'I_2, L i i <> None -> L j j <> None -> L i j <> None.
  by move=> i j vi _; move: vi; rewrite !mxE; case: eqP.
exists 2%N, L, o1; split.
- move=> a b ab; rewrite mxE; have lb := ltn_ord b.
  have -> : (a == 0 :> nat)%N by rewrite -leqn0 -ltnS; exact: leq_trans ab lb.
  by rewrite (gtn_eqF (leq_ltn_trans (leq0n _) ab)).
- by move=> b; rewrite E1.
rewrite (nan_covE fin) E1 /isnan [isSome _]/= andbF => -[].
rewrite mxE !big_ord_recl !big_ord0 -/o0 -/o1; set C := \matrix_(i, j) _.
have -> : C o1 o0 = Some 0 by rewrite mxE E00 orbT.
have -> : C o1 o1 = Some 1 by rewrite mxE !E1.
have V j : map_mx value L o1 j = 1 by rewrite mxE E1.
have VT j : (map_mx value L)^T j o1 = 1 by rewrite mxE V.
by rewrite !V !VT /value !addr0 !mulr1 mulr0 add0r; toR => h; lra.
Qed.
Print Assumptions C54_refuted.
Example C54_case : (forall i j, demo_A i i <> None -> demo_A j j <> None -> demo_A i j <> None) /\
  chol_cov_with_nans_to_cov demo_A ord0 ord0 = None.
Proof.
have fin : forall i j, demo_A i i <> None -> demo_A j j <> None -> demo_A i j <> None.
  by move=> i j; rewrite !mxE !orbb; case: eqP => // _ _; case: eqP.
split=> //; have [-> //] := C54_valid_block_partial fin; by left; rewrite mxE.
Qed.
