(** Linearisation with missing coordinates, Gaussian potentials, and existence of derivative routines. *)
From Coq Require Import Reals Lra FunctionalExtensionality ClassicalEpsilon.
From mathcomp Require Import all_ssreflect all_algebra.
From Verif Require Import RStruct MxBase ZmodTac KalmanModel LinalgModel LinearizeModel GaussSpec LinalgSpec
  LinearizeSpec MvnProofs InvSqrtProofs LinearizeProofs PropMvn.
Set Implicit Arguments.
Unset Strict Implicit.
Unset Printing Implicit Defensive.
Local Open Scope ring_scope.
Import GRing.Theory Num.Theory Order.Theory.

Lemma sel_isSome n (y : 'cV[option R]_n) (a : 'I_(size (observed y))) : isSome (y (sel a) ord0).
Proof. by have := mem_tnth a (in_tuple (observed y)); rewrite mem_filter => /andP[]. Qed.
Lemma sel_exists n (y : 'cV[option R]_n) i : isSome (y i ord0) -> exists a : 'I_(size (observed y)), sel a = i.
Proof.
move=> yi; have io : i \in observed y by rewrite mem_filter yi mem_enum.
have lt : (index i (observed y) < size (observed y))%N by rewrite index_mem.
by exists (Ordinal lt); rewrite /sel (tnth_nth i) /= nth_index.
Qed.

Lemma trE m n (A : 'M[R]_(m, n)) i j : A i j = A^T j i. Proof. by rewrite mxE. Qed.
Section Selection.
Variables (n : nat) (y : 'cV[option R]_n).
Definition Sel : 'M[R]_(size (observed y), n) := obs_rows y 1%:M.
Lemma SelE a i : Sel a i = (sel a == i)%:R.
Proof. by rewrite !mxE. Qed.
Lemma Sel_mul p (A : 'M[R]_(n, p)) : Sel *m A = obs_rows y A.
Proof.
apply/matrixP => a j; rewrite [RHS]mxE mxE (bigD1 (sel a)) //= big1 ?addr0; first by rewrite SelE eqxx mul1r.
by move=> i ne; rewrite SelE eq_sym (negbTE ne) mul0r.
Qed.
Lemma SelT_mul p (B : 'M[R]_(size (observed y), p)) a j : (Sel^T *m B) (sel a) j = B a j.
Proof.
rewrite mxE (bigD1 a) //= big1 ?addr0; first by rewrite mxE SelE eqxx mul1r.
by move=> b ne; rewrite mxE SelE (inj_eq (@sel_inj _ _)) (negbTE ne) mul0r.
Qed.
Lemma SelT_missing p (B : 'M[R]_(size (observed y), p)) i j : y i ord0 = None -> (Sel^T *m B) i j = 0.
Proof.
move=> yi; rewrite mxE big1 // => a _; rewrite mxE SelE; case: eqP => [e|]; rewrite ?mul0r //.
by have := sel_isSome a; rewrite e yi.
Qed.
Lemma SelSelT : Sel *m Sel^T = 1%:M.
Proof.
by apply/matrixP => a b; rewrite Sel_mul !mxE -(inj_eq (@sel_inj _ _)) eq_sym.
Qed.
Lemma Sel_value h : Sel *m map_mx value (moved y h) = Sel *m (map_mx value y + h).
Proof.
rewrite !Sel_mul; apply/matrixP => a j; rewrite !mxE [j]ord1.
by have := sel_isSome a; case: (y (sel a) ord0).
Qed.
Lemma conjSel_obs (B : 'M[R]_(size (observed y))) a b : (Sel^T *m B *m Sel) (sel a) (sel b) = B a b.
Proof. by rewrite -mulmxA SelT_mul [LHS]trE trmx_mul SelT_mul mxE. Qed.
Lemma conjSel_missing (B : 'M[R]_(size (observed y))) i j : y i ord0 = None \/ y j ord0 = None -> (Sel^T *m B *m Sel) i j = 0.
Proof.
case=> h; first by rewrite -mulmxA SelT_missing.
by rewrite [LHS]trE trmx_mul SelT_missing.
Qed.
(** the matrix with diagonal NaN at the missing coordinates *)
Definition nan_at (W : 'M[R]_n) : 'M[option R]_n :=
  \matrix_(i, j) (if (i == j) && isnan (y i ord0) then None else Some (W i j)).
Lemma nan_at_diag W i : isSome (nan_at W i i) = isSome (y i ord0).
Proof. by rewrite mxE eqxx /= /isnan; case: (y i ord0). Qed.
Lemma nan_at_observed W : observed (\col_i nan_at W i i) = observed y.
Proof. by apply: eq_filter => i; rewrite mxE nan_at_diag. Qed.

Variables (tria : forall m k : nat, 'M[R]_(m, k) -> 'M[R]_m).
Variable svd : forall n, 'M[R]_n -> 'M[R]_n * 'rV[R]_n.
Hypothesis tria_spec : tria_ok tria.
Variables (Ro : 'M[R]_(size (observed y))) (rtol : R).
Hypothesis pdR : pd Ro.
Hypothesis rtol0 : 0 <= rtol.
Hypothesis sep : forall w w', eigenvalue_of (invmx Ro) w -> eigenvalue_of (invmx Ro) w' -> rtol * w' < w.
Hypothesis dec : let M := zero_padded n (invmx Ro) in svd_at M (svd M).1 (svd M).2.
Let W := Sel^T *m invmx Ro *m Sel.
Let res := symmetric_inv_sqrt tria svd rtol true (nan_at W).
Lemma masked_factor : exists Lo : 'M[R]_(size (observed y)),
    [/\ is_trig_mx Lo, Lo *m Lo^T = Ro, (forall a b, res (sel a) (sel b) = Some (Lo a b)) &
      (forall i j, y i ord0 = None \/ y j ord0 = None -> res i j = (if i == j then None else Some 0))].
Proof.
have vA i j : isSome (y i ord0) -> nan_at W i j = Some (W i j).
  by rewrite mxE /isnan => ->; rewrite andbF.
have main := @C42_inverse_factor tria svd n (nan_at W) rtol true tria_spec.
have bE : mxsub (tnth (in_tuple (observed y))) (tnth (in_tuple (observed y))) (map_mx value (nan_at W)) = invmx Ro.
  by apply/matrixP => a b; rewrite [LHS]mxE [LHS]mxE -/(sel a) -/(sel b) vA ?sel_isSome //= conjSel_obs.
move: main; rewrite /obs_block /sel.
have yN i : y i ord0 = None -> nan_at W i i = None by move=> h; rewrite mxE eqxx /isnan h.
have selR : forall a, tnth (in_tuple (observed y)) a = sel a by [].
move: (nan_at_observed W); move: (observed (\col_i nan_at W i i)) => s es; subst s; rewrite bE.
case=> // [|i j|up].
- exact: pd_inv.
- by move=> hi _; rewrite vA // -(nan_at_diag W) //; case: (nan_at W i i) hi.
case=> Lo [t e h1 h2]; exists Lo; split=> //.
- by rewrite e invmxK.
- by move=> i j [h|h]; apply: h2; [left|right]; exact: yN.
Qed.
Lemma masked_cov (res' : 'M[option R]_n) (Lo : 'M[R]_(size (observed y))) :
  Lo *m Lo^T = Ro -> (forall a b, res' (sel a) (sel b) = Some (Lo a b)) ->
  (forall i j, y i ord0 = None \/ y j ord0 = None -> res' i j = (if i == j then None else Some 0)) ->
  chol_cov_with_nans_to_cov res' = nan_at (Sel^T *m Ro *m Sel).
Proof.
move=> e h1 h2; rewrite /chol_cov_with_nans_to_cov.
have mk i : isnan (res' i i) = isnan (y i ord0).
  case E: (y i ord0) => [v|]; last by rewrite h2 ?E ?eqxx; auto.
  by have [|a <-] := @sel_exists _ y i; rewrite ?E // h1.
set C : 'M[option R]_n := \matrix_(i, j) (if isnan (res' i i) || isnan (res' j j) then Some 0 else res' i j).
have CE i j : C i j = Some ((Sel^T *m Lo *m Sel) i j).
  rewrite mxE !mk; case Ei: (y i ord0) => [v|] /=; last by rewrite conjSel_missing ?Ei; auto.
  case Ej: (y j ord0) => [w|] /=; last by rewrite conjSel_missing ?Ej; auto.
  have [|a <-] := @sel_exists _ y i; rewrite ?Ei //.
  by have [|b <-] := @sel_exists _ y j; rewrite ?Ej // h1 conjSel_obs.
have nn i : [exists j, isnan (C i j)] = false by apply/negbTE/existsPn => j; rewrite CE.
apply/matrixP => i j; rewrite [LHS]mxE mk [RHS]mxE; case: ifP => // _; rewrite mxE !nn /=; congr Some.
have -> : Sel^T *m Ro *m Sel = (Sel^T *m Lo *m Sel) *m (Sel^T *m Lo *m Sel)^T.
  by rewrite !trmx_mul trmxK -e -!mulmxA (mulmxA Sel Sel^T) SelSelT mul1mx.
by rewrite mxE; apply: eq_bigr => k _; rewrite !CE /=; congr (_ * _); exact: trE.
Qed.
End Selection.

Lemma nan_mul_row m n p (A : 'M[option R]_(m, n)) (Av : 'M[R]_(m, n)) (B : 'M[R]_(n, p)) i j :
  (forall k, A i k = Some (Av i k)) -> nan_mul A (map_mx Some B) i j = Some ((Av *m B) i j).
Proof.
move=> h; rewrite mxE; case: existsP => [[k]|_]; first by rewrite h mxE.
by rewrite mxE; congr Some; apply: eq_bigr => k _; rewrite h mxE.
Qed.
Lemma nan_mul_none m n p (A : 'M[option R]_(m, n)) (B : 'M[option R]_(n, p)) i k j :
  A i k = None -> nan_mul A B i j = None.
Proof. by move=> h; rewrite mxE; case: existsP => [//|[]]; exists k; rewrite h. Qed.

Section Oracles.
Variable tria : forall m k : nat, 'M[R]_(m, k) -> 'M[R]_m.
Variable svd : forall n, 'M[R]_n -> 'M[R]_n * 'rV[R]_n.
Variable grad : forall n, ('cV[option R]_n -> option R) -> 'cV[option R]_n -> 'cV[option R]_n.
Variable jacobian : forall n p, ('cV[option R]_n -> 'cV[option R]_p) -> 'cV[option R]_n -> 'M[option R]_(p, n).
Hypothesis tria_spec : tria_ok tria.
Hypothesis grad_spec : grad_ok grad.
Hypothesis jac_spec : jacobian_ok jacobian.

Section Missing.
Variables (nx ny : nat) (f : 'cV[option R]_nx -> 'cV[option R]_ny -> option R).
Variables (H : 'M[R]_(ny, nx)) (d : 'cV[R]_ny) (c : R) (y : 'cV[option R]_ny) (Ro : 'M[R]_(size (observed y))).
Variable rtol : R.
Hypothesis pdR : pd Ro.
Hypothesis rtol0 : 0 <= rtol.
Hypothesis sep : forall w w', eigenvalue_of (invmx Ro) w -> eigenvalue_of (invmx Ro) w' -> rtol * w' < w.
Hypothesis dec : let M := zero_padded ny (invmx Ro) in svd_at M (svd M).1 (svd M).2.
Hypothesis fE : forall x h, f (map_mx Some x) (moved y h)
  = Some (c - 2%:R^-1 * mahalanobis Ro (obs_rows y (map_mx value (moved y h) - (H *m x + d)))).
Variable x : 'cV[R]_nx.
Lemma missing_exact mat shift L :
  linearize_log_density tria svd grad jacobian f (map_mx Some x) y rtol true = (mat, shift, L) ->
  (forall (a : 'I_(size (observed y))) j, mat (sel a) j = Some (H (sel a) j)) /\
  (forall a : 'I_(size (observed y)), shift (sel a) ord0 = Some (d (sel a) ord0)) /\
  (exists Lo : 'M[R]_(size (observed y)), [/\ is_trig_mx Lo, Lo *m Lo^T = Ro & forall a b, L (sel a) (sel b) = Some (Lo a b)]) /\
  (forall i, y i ord0 = None ->
    [/\ forall j, mat i j = None, shift i ord0 = None & forall j, L i j = (if i == j then None else Some 0) /\
      L j i = (if i == j then None else Some 0)]).
Proof.
have [sR _] := pdR; have uR := pd_unit pdR.
have symP : (invmx Ro)^T = invmx Ro by rewrite trmx_inv sR.
have fE' x0 h : let e := Sel y *m (map_mx value (moved y h) - (H *m x0 + d)) in
    f (map_mx Some x0) (moved y h) = Some (c - 2%:R^-1 * (e^T *m invmx Ro *m e) ord0 ord0).
  by rewrite Sel_mul fE.
rewrite /linearize_log_density /linearize_log_density_given_chol_cov.
rewrite (cond_hess grad_spec jac_spec symP fE' (@Sel_value _ y)) nan_oppE opprK.
rewrite (cond_jac grad_spec jac_spec symP fE' (@Sel_value _ y)) (cond_grad grad_spec symP fE' (@Sel_value _ y)).
set W := (Sel y)^T *m _ *m _.
have -> : \matrix_(i, j) (if (i == j) && (isnan (y i ord0) || isnan ((map_mx Some W) i i)) then None else (map_mx Some W) i j)
    = nan_at y W by apply/matrixP => i j; rewrite !mxE orbF.
have [Lo [t LL h1 h2]] := masked_factor tria_spec pdR rtol0 sep dec.
rewrite /= (masked_cov LL h1 h2) => -[<- <- <-].
set Cv := (Sel y)^T *m Ro *m Sel y.
have CW : Cv *m W = (Sel y)^T *m Sel y.
  by rewrite /Cv /W -!mulmxA (mulmxA (Sel y) (Sel y)^T) SelSelT mul1mx (mulmxA Ro) mulmxV // mul1mx.
have row (a : 'I_(size (observed y))) k : nan_at y Cv (sel a) k = Some (Cv (sel a) k) by rewrite mxE /isnan sel_isSome andbF.
have proj p (B : 'M[R]_(ny, p)) (a : 'I_(size (observed y))) j : ((Sel y)^T *m Sel y *m B) (sel a) j = B (sel a) j.
  by rewrite -mulmxA SelT_mul Sel_mul mxE.
have matE (a : 'I_(size (observed y))) j : nan_mul (nan_at y Cv) (map_mx Some (W *m H)) (sel a) j = Some (H (sel a) j).
  by rewrite (nan_mul_row _ _ (row a)) mulmxA CW proj.
split=> //; split.
  move=> a; rewrite mxE (nan_mul_row _ _ (row a)) mxE (nan_mul_row _ _ (matE a)) mulmxN mulmxA CW.
  have := sel_isSome a; case E: (y (sel a) ord0) => [v|] // _ /=; congr Some.
  have vE : (map_mx value y) (sel a) ord0 = v by rewrite mxE E.
  have eN (A : 'cV[R]_ny) i : (- A) i ord0 = - A i ord0 by rewrite mxE.
  have eD (A B : 'cV[R]_ny) i : (A + B) i ord0 = A i ord0 + B i ord0 by rewrite mxE.
  rewrite eN proj eD eN eD vE; toR; ring.
split; first by exists Lo.
move=> i yi; split.
- by move=> j; apply: (@nan_mul_none _ _ _ _ _ _ i); rewrite mxE eqxx yi.
- by rewrite !mxE yi.
- by move=> j; rewrite !h2 ?[j == i]eq_sym; auto.
Qed.
End Missing.
End Oracles.
