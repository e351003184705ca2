(** C53, C54: exactly when the helpers of [multivariate_normal.py] and [symmetric_inv_sqrt.py] do what is
    documented, and by how much they are off otherwise. *)
From Coq Require Import Reals Lra.
From mathcomp Require Import all_ssreflect all_algebra.
From Verif Require Import RStruct MxBase ZmodTac KalmanModel MvnShapes LinalgModel GaussSpec LinalgSpec
  MvnProofs MvnProofs2 LinalgProofs InvSqrtProofs TriaExist PropMvn.
From Verif Require ScanModel.
Set Implicit Arguments.
Unset Strict Implicit.
Unset Printing Implicit Defensive.
Local Open Scope ring_scope.
Import GRing.Theory Num.Theory Order.Theory.

(** ** C54 *)
Section C54.
Variables (n : nat) (L : 'M[option R]_n).
(** in the rows of valid dimensions all entries are numbers *)
Hypothesis fin : forall i j, L i i <> None -> L i j <> None.
Let P := map_mx value L *m (map_mx value L)^T.

(** what is returned at valid dimensions: the documented product less the part of the missing columns *)
Theorem C54_exact_value i j : L i i <> None -> L j j <> None ->
  chol_cov_with_nans_to_cov L i j
  = Some (P i j - \sum_(k | L k k == None) value (L i k) * value (L j k)).
Proof.
move=> vi vj.
have f k : L k k <> None -> isnan (L k k) = false by rewrite /isnan; case: (L k k).
rewrite nan_covE; last by move=> a b va _; exact: fin.
rewrite f // andbF; congr Some; rewrite /P mxE (bigID (fun k => L k k == None)) /=.
rewrite [in RHS](bigID (fun k => L k k == None)) /= addrAC.
rewrite big1 => [|k /eqP e]; last by rewrite !mxE e /isnan /= !orbT mul0r.
rewrite add0r; symmetry; rewrite -[RHS]add0r; congr (_ + _).
  by apply/eqP; rewrite subr_eq0; apply/eqP/eq_bigr => k _; rewrite !mxE.
by apply: eq_bigr => k /eqP e; rewrite !mxE (f i vi) (f j vj) (f k e).
Qed.

(** the documented product is returned at all valid dimensions exactly when the missing columns are zero
    in the valid rows *)
Theorem C54_exact :
  (forall i j, L i i <> None -> L j j <> None -> chol_cov_with_nans_to_cov L i j = Some (P i j)) <->
  (forall i k, L i i <> None -> L k k = None -> L i k = Some 0).
Proof.
split=> [h i k vi mk|z i j vi vj]; last first.
  rewrite C54_exact_value // big1 ?subr0 // => k /eqP e; by rewrite (z i k) //= mul0r.
have := h i i vi vi; rewrite C54_exact_value // => -[] /eqP.
rewrite -subr_eq0 addrC addKr oppr_eq0 psumr_eq0 => [/allP/(_ k)|j _]; last by rewrite -expr2 sqr_ge0.
rewrite mem_index_enum mk eqxx mulf_eq0 orbb /= => /(_ isT) /eqP.
by have := @fin i k vi; case: (L i k) => [r|] //= _ ->.
Qed.
End C54.
Print Assumptions C54_exact_value.
Print Assumptions C54_exact.

(** ** C53 *)
Section C53.
Variables (n k : nat) (x mean : 'cV[R]_n) (v : 'cV[R]_k.+1).
(** a vector is rejected exactly when its length and that of [x] differ and neither is one *)
Theorem C53_exact_raises :
  logpdf x mean (CVec v) = ScanModel.Err ScanModel.TypeError <-> [/\ n <> k.+1, n <> 1%N & k <> 0%N].
Proof.
split=> [|[]]; last exact: C53_not_broadcastable_partial.
by rewrite /logpdf /logpdf_vec; case: eqP => //=; case: eqP => //=; case: eqP => //= a b c _; split=> // e; apply: b; rewrite e.
Qed.
End C53.
Print Assumptions C53_exact_raises.

Lemma bgetE n (u : 'cV[R]_n.+1) (i : 'I_n.+1) : bget u i = u i ord0.
Proof.
rewrite /bget /at_; case: insubP => [o _ eo|]; last by case: eqP => _; rewrite ?ltn_ord.
congr (u _ _); apply: val_inj; rewrite /= eo; case: eqP => // -[e].
by case: i {o eo} => i /=; rewrite e ltnS leqn0 => /eqP.
Qed.
Lemma bget1 (u : 'cV[R]_1) i : bget u i = u ord0 ord0.
Proof. by rewrite -[RHS]bgetE. Qed.

(** a vector of length one: the isotropic density plus [(n - 1) log |s|] *)
Theorem C53_exact_stretched n (x mean : 'cV[R]_n.+1) (s : R) : s != 0 ->
  logpdf x mean (CVec (const_mx s : 'cV_1))
  = ScanModel.Ok (gauss x mean (s ^+ 2)%:M + n%:R * ln `|s|).
Proof.
move=> s0; have p : Rlt 0 `|s| by apply/RltP; rewrite normr_gt0.
rewrite -(real_normK (num_real s)) -logpdf_isoE // /logpdf /logpdf_vec orbT; congr ScanModel.Ok.
rewrite /logpdf_iso (real_normK (num_real s)) (maxn_idPl _) // big_ord1 mxE.
have -> : dot (x - mean) (x - mean) = s ^+ 2 * \sum_(i < n.+1) ((bget x i - bget mean i) / bget (const_mx s : 'cV_1) i) ^+ 2.
  rewrite /dot mxE mulr_sumr; apply: eq_bigr => i _; rewrite !bgetE bget1 !mxE exprMn exprVn.
  by rewrite mulrCA mulfV ?expf_neq0 // mulr1 expr2.
move: (\sum_(i < _) _) (ln _) (ln _) => S a b.
have -> : (n.+1%:R : R) = n%:R + 1 by rewrite -addn1 natrD.
have e : s ^+ 2 != 0 by rewrite expf_neq0.
move: (s ^+ 2) e => q q0; rewrite [q * S]mulrC mulrA mulfK //.
by move: (n%:R : R) => m; toR; field.
Qed.
Print Assumptions C53_exact_stretched.
(** so the result is the isotropic density exactly when there is one dimension or the entry is 1 or -1 *)
Theorem C53_exact_iff n (x mean : 'cV[R]_n.+1) (s : R) : s != 0 ->
  logpdf x mean (CVec (const_mx s : 'cV_1)) = ScanModel.Ok (gauss x mean (s ^+ 2)%:M)
  <-> n = 0%N \/ s = 1 \/ s = -1.
Proof.
move=> s0; have p : 0 < `|s| by rewrite normr_gt0.
rewrite C53_exact_stretched //; split=> [[] /eqP|].
  rewrite -subr_eq0 addrAC subrr add0r mulf_eq0 pnatr_eq0 => /orP[/eqP ->|/eqP l]; [by left|right].
  have e : `|s| = 1 by apply: ln_inv; [exact/RltP|toR; lra|rewrite l; toR; rewrite ln_1].
  by move: e => /eqP; rewrite eqr_norml ler01 andbT => /orP[]/eqP; [left|right].
case=> [e|h]; first by congr ScanModel.Ok; have -> : (n%:R : R) = 0 by [rewrite e]; rewrite mul0r addr0.
have -> : `|s| = 1 by case: h => ->; rewrite ?normrN normr1.
have -> : ln (1 : R) = 0 by toR; exact: ln_1.
by rewrite mulr0 addr0.
Qed.
Print Assumptions C53_exact_iff.
(** one dimension and a vector of several entries: the sum of the log densities for the entries, with the
    constant counted once *)
Theorem C53_exact_scalar_x k (x mean : 'cV[R]_1) (v : 'cV[R]_k.+1) : (forall i, v i ord0 != 0) ->
  logpdf x mean (CVec v)
  = ScanModel.Ok (\sum_i gauss x mean (v i ord0 ^+ 2)%:M + k%:R / 2%:R * ln (2%:R * PI)).
Proof.
move=> v0; rewrite /logpdf /logpdf_vec !orbT; congr ScanModel.Ok.
have E i : gauss x mean (v i ord0 ^+ 2)%:M =
    - 2%:R^-1 * ((x ord0 ord0 - mean ord0 ord0) / v i ord0) ^+ 2 - 2%:R^-1 * ln (2%:R * PI) - ln `|v i ord0|.
  have p : Rlt 0 `|v i ord0| by apply/RltP; rewrite normr_gt0.
  rewrite -(real_normK (num_real (v i ord0))) -logpdf_isoE // /logpdf_iso (real_normK (num_real _)).
  rewrite /dot mxE big_ord1 !mxE exprMn exprVn -expr2 mulr1n.
  move: ((_ - _) ^+ 2) (v i ord0 ^- 2) (ln (2%:R * PI)) (ln `|_|) => a b c d.
  by toR; field.
rewrite (eq_bigr _ (fun i _ => E i)) !big_split /= -!sumrN sumr_const card_ord -mulr_sumr.
rewrite (maxn_idPr _) // (eq_bigr (fun i : 'I_k.+1 => ((x ord0 ord0 - mean ord0 ord0) / v i ord0) ^+ 2)); last first.
  by move=> i _; rewrite bgetE !bget1.
move: (\sum_(i < _) _) (\sum_(i < _) _) (ln _) => a b c; rewrite mulr1n -[_ *+ k.+1]mulr_natr.
have -> : (k.+1%:R : R) = k%:R + 1 by rewrite -addn1 natrD.
by move: (k%:R : R) => m; toR; field.
Qed.
Print Assumptions C53_exact_scalar_x.

(** *** Concrete cases *)
(** [[NaN, 0], [1, 1]]: the variance of the second dimension is 1 *)
Definition case_L : 'M[option R]_2 :=
  \matrix_(i, j) (if (i == 0 :> nat)%N then if (j == 0 :> nat)%N then None else Some 0 else Some 1).
Example C54_exact_case :
  (forall i j, case_L i i <> None -> case_L i j <> None) /\
  chol_cov_with_nans_to_cov case_L (lift ord0 ord0) (lift ord0 ord0) = Some 1.
Proof.
have f : forall i j, case_L i i <> None -> case_L i j <> None by move=> i j; rewrite !mxE; case: eqP.
split=> //; rewrite (C54_exact_value f) ?mxE //; congr Some.
have E0 j : value (case_L (lift ord0 ord0) j) = 1 by rewrite mxE.
rewrite [X in _ - X](big_pred1 ord0) => [|k]; last by case: k => -[|[|k]] lt; rewrite /= mxE.
rewrite E0 !big_ord_recl !big_ord0 !mxE /=.
by toR; ring.
Qed.
Example C53_exact_case : logpdf (0 : 'cV[R]_3) 0 (CVec (const_mx 2%:R : 'cV_1))
  = ScanModel.Ok (gauss (0 : 'cV[R]_3) 0 (2%:R ^+ 2)%:M + 2%:R * ln `|2%:R|).
Proof. by rewrite C53_exact_stretched // pnatr_eq0. Qed.
