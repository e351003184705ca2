(** Gaussian potentials, and existence of derivative routines. *)
From Coq Require Import Reals Lra FunctionalExtensionality ClassicalEpsilon.
From mathcomp Require Import all_ssreflect all_algebra.
From Verif Require Import RStruct MxBase ZmodTac KalmanModel LinalgModel LinearizeModel GaussSpec LinalgSpec
  LinearizeSpec MvnProofs InvSqrtProofs LinearizeProofs LinearizeProofs2 PropMvn.
Set Implicit Arguments.
Unset Strict Implicit.
Unset Printing Implicit Defensive.
Local Open Scope ring_scope.
Import GRing.Theory Num.Theory Order.Theory.

(** ** zero rows and columns are treated like missing coordinates *)
Section ZeroRows.
Variable tria : forall m k : nat, 'M[R]_(m, k) -> 'M[R]_m.
Variable svd : forall n, 'M[R]_n -> 'M[R]_n * 'rV[R]_n.
Variables (n : nat) (z : 'cV[option R]_n) (W : 'M[R]_n) (rtol : R).
Hypothesis zero : forall i j, z i ord0 = None \/ z j ord0 = None -> W i j = 0.
Lemma zero_rows : symmetric_inv_sqrt tria svd rtol true (map_mx Some W) = symmetric_inv_sqrt tria svd rtol true (nan_at z W).
Proof.
pose f mask (A : 'M[option R]_n) : 'M[option R]_n :=
  let order := argsort mask in
  let nan_mask_sorted i := mask (order i) in
  let invalid i j := (nan_mask_sorted i || nan_mask_sorted j) && true in
  let arr_sorted : 'M[option R]_n := \matrix_(i, j) (if invalid i j then Some 0 else A (order i) (order j)) in
  let L_sorted := if [exists i, exists j, isnan (arr_sorted i j)] then const_mx None
                  else symmetric_inv_sqrt_core tria svd rtol (map_mx value arr_sorted) in
  let L_sorted : 'M[option R]_n := \matrix_(i, j) (if invalid i j then Some 0 else L_sorted i j) in
  let L_sorted : 'M[option R]_n :=
    \matrix_(i, j) (if (i == j) && nan_mask_sorted i then None else L_sorted i j) in
  let position (i : 'I_n) := nth i (enum 'I_n) (index i (argsort_seq mask)) in
  \matrix_(i, j) L_sorted (position i) (position j).
pose mask (A : 'M[option R]_n) (i : 'I_n) : bool := isnan (A i i) && true || [forall j, A j i == Some 0] && [forall j, A i j == Some (0 : R)].
have fE A : symmetric_inv_sqrt tria svd rtol true A = f (mask A) A by [].
rewrite !fE.
have mE : mask (map_mx Some W) = mask (nan_at z W).
  apply: functional_extensionality => i; rewrite /mask !andbT; case E: (z i ord0) => [v|].
    have nE j : nan_at z W i j = (map_mx Some W) i j by rewrite !mxE /isnan E andbF.
    have nE' j : nan_at z W j i = (map_mx Some W) j i.
      by rewrite !mxE; case: eqP => // ->; rewrite /isnan E.
    by rewrite nE; congr (_ || (_ && _)); apply: eq_forallb => j; rewrite ?nE ?nE'.
  have -> : isnan (nan_at z W i i) by rewrite mxE eqxx /isnan E.
  rewrite /=; apply/orP; right; apply/andP.
  by split; apply/forallP => j; rewrite mxE zero //; auto.
rewrite mE /f; set mk := mask _; cbv zeta.
suff -> : \matrix_(i, j) (if (mk (argsort mk i) || mk (argsort mk j)) && true then Some 0 else (map_mx Some W) (argsort mk i) (argsort mk j))
   = \matrix_(i, j) (if (mk (argsort mk i) || mk (argsort mk j)) && true then Some 0 else nan_at z W (argsort mk i) (argsort mk j)) by [].
apply/matrixP => i j; rewrite [LHS]mxE [RHS]mxE; case E: (mk (argsort mk i)) => //=; case: ifP => // _.
rewrite !mxE; case Ez: (z (argsort mk i) ord0) => [v|]; first by rewrite /= andbF.
by move: E; rewrite {1}/mk /mask mxE eqxx /isnan /= Ez.
Qed.
End ZeroRows.

Section Oracles.
Variable tria : forall m k : nat, 'M[R]_(m, k) -> 'M[R]_m.
Variable svd : forall n, 'M[R]_n -> 'M[R]_n * 'rV[R]_n.
Variable grad : forall n, ('cV[option R]_n -> option R) -> 'cV[option R]_n -> 'cV[option R]_n.
Variable jacobian : forall n p, ('cV[option R]_n -> 'cV[option R]_p) -> 'cV[option R]_n -> 'M[option R]_(p, n).
Hypothesis tria_spec : tria_ok tria.
Hypothesis grad_spec : grad_ok grad.
Hypothesis jac_spec : jacobian_ok jacobian.

Section Full.
Variables (n : nat) (f : 'cV[option R]_n -> option R) (m : 'cV[R]_n) (Rn : 'M[R]_n) (c rtol : R) (ignore : bool).
Hypothesis pdR : pd Rn.
Hypothesis rtol0 : 0 <= rtol.
Hypothesis sep : forall w w', eigenvalue_of (invmx Rn) w -> eigenvalue_of (invmx Rn) w' -> rtol * w' < w.
Hypothesis dec : svd_at (invmx Rn) (svd (invmx Rn)).1 (svd (invmx Rn)).2.
Hypothesis fE : forall x, f (map_mx Some x) = Some (c - 2%:R^-1 * mahalanobis Rn (x - m)).
Lemma taylor_full x : exists L, [/\ linearize_taylor tria svd grad jacobian f (map_mx Some x) rtol ignore
      = (map_mx Some m, map_mx Some L), is_trig_mx L & L *m L^T = Rn].
Proof.
have [sR _] := pdR; have uR := pd_unit pdR.
have symP : (invmx Rn)^T = invmx Rn by rewrite trmx_inv sR.
have fE' h : let e := (x - m) + 1%:M *m h in
    f (moved (map_mx Some x) h) = Some (c - 2%:R^-1 * (e^T *m invmx Rn *m e) ord0 ord0).
  by rewrite moved_some fE mul1mx addrAC.
have g0 := quad_grad grad_spec symP fE' 0.
rewrite moved0 mulmx0 addr0 trmx1 mul1mx in g0.
rewrite /linearize_taylor g0 (quad_hess grad_spec jac_spec symP fE') trmx1 mul1mx mulmx1 nan_oppE opprK.
have [L [LE t LL]] := C42_full_matrix ignore tria_spec (pd_inv pdR) rtol0 sep dec.
rewrite invmxK in LL; exists L; split=> //; rewrite LE; congr (_, _).
have -> : \matrix_(i, j) (if isnan ((map_mx Some L) i i) && ignore || isnan ((map_mx Some L) j j) && ignore then Some 0
    else (map_mx Some L) i j) = map_mx Some L by apply/matrixP => i j; rewrite !mxE.
rewrite map_some_tr !nan_mulE nan_addE LL mulmxN mulmxA mulmxV // mul1mx; congr (map_mx Some _); zmod.
Qed.
End Full.

(** the potential depends on the coordinates [i] with [z i <> None] only *)
Section Subset.
Variables (n : nat) (f : 'cV[option R]_n -> option R) (z : 'cV[option R]_n).
Variables (m : 'cV[R]_n) (Ro : 'M[R]_(size (observed z))) (c rtol : R).
Hypothesis pdR : pd Ro.
Hypothesis rtol0 : 0 <= rtol.
Hypothesis sep : forall w w', eigenvalue_of (invmx Ro) w -> eigenvalue_of (invmx Ro) w' -> rtol * w' < w.
Hypothesis dec : let M := zero_padded n (invmx Ro) in svd_at M (svd M).1 (svd M).2.
Hypothesis fE : forall x, f (map_mx Some x) = Some (c - 2%:R^-1 * mahalanobis Ro (obs_rows z (x - m))).
Lemma taylor_subset (x : 'cV[R]_n) : exists L, let m' := \col_i (if isSome (z i ord0) then m i ord0 else x i ord0) in
  linearize_taylor tria svd grad jacobian f (map_mx Some x) rtol true = (map_mx Some m', L) /\
  (exists Lo : 'M[R]_(size (observed z)), [/\ is_trig_mx Lo, Lo *m Lo^T = Ro & forall a b, L (sel a) (sel b) = Some (Lo a b)]) /\
  (forall i j, z i ord0 = None \/ z j ord0 = None -> L i j = (if i == j then None else Some 0)).
Proof.
have [sR _] := pdR; have uR := pd_unit pdR.
have symP : (invmx Ro)^T = invmx Ro by rewrite trmx_inv sR.
have fE' h : let e := Sel z *m (x - m) + Sel z *m h in
    f (moved (map_mx Some x) h) = Some (c - 2%:R^-1 * (e^T *m invmx Ro *m e) ord0 ord0).
  have eE : Sel z *m (x - m) + Sel z *m h = obs_rows z (x + h - m).
    by rewrite -mulmxDr Sel_mul addrAC.
  by rewrite eE moved_some fE.
have g0 := quad_grad grad_spec symP fE' 0.
rewrite moved0 mulmx0 addr0 in g0.
rewrite /linearize_taylor g0 (quad_hess grad_spec jac_spec symP fE') nan_oppE opprK.
rewrite (zero_rows _ _ _ (z := z)); last by move=> i j h; rewrite conjSel_missing.
have [Lo [t LL h1 h2]] := masked_factor tria_spec pdR rtol0 sep dec.
move: (symmetric_inv_sqrt _ _ _ _ _) h1 h2 => L h1 h2.
exists L; split; last by split=> //; exists Lo.
congr (_, _).
have mk i : isnan (L i i) = isnan (z i ord0).
  case E: (z i ord0) => [v|]; last by rewrite h2 ?E ?eqxx; auto.
  by have [|a <-] := @sel_exists _ z i; rewrite ?E // h1.
have -> : \matrix_(i, j) (if isnan (L i i) && true || isnan (L j j) && true then Some 0 else L i j)
    = map_mx Some ((Sel z)^T *m Lo *m Sel z).
  apply/matrixP => i j; rewrite [LHS]mxE [RHS]mxE !mk !andbT.
  case Ei: (z i ord0) => [v|] /=; last by rewrite conjSel_missing ?Ei; auto.
  case Ej: (z j ord0) => [w|] /=; last by rewrite conjSel_missing ?Ej; auto.
  have [|a <-] := @sel_exists _ z i; rewrite ?Ei //.
  by have [|b <-] := @sel_exists _ z j; rewrite ?Ej // h1 conjSel_obs.
rewrite map_some_tr !nan_mulE nan_addE; congr (map_mx Some _).
have -> : (Sel z)^T *m Lo *m Sel z *m ((Sel z)^T *m Lo *m Sel z)^T = (Sel z)^T *m Ro *m Sel z.
  by rewrite !trmx_mul trmxK -LL -!mulmxA (mulmxA (Sel z) (Sel z)^T) SelSelT mul1mx.
rewrite mulmxN -!mulmxA (mulmxA (Sel z) (Sel z)^T) SelSelT mul1mx (mulmxA Ro) mulmxV // mul1mx Sel_mul.
have eN (A : 'cV[R]_n) i : (- A) i ord0 = - A i ord0 by rewrite mxE.
have eD (A B : 'cV[R]_n) i : (A + B) i ord0 = A i ord0 + B i ord0 by rewrite mxE.
apply/colP => i; rewrite eD eN [RHS]mxE; case E: (z i ord0) => [v|] /=; last first.
  by rewrite SelT_missing // oppr0 addr0.
have [|a <-] := @sel_exists _ z i; first by rewrite E.
by rewrite SelT_mul mxE eD eN opprB addrC subrK.
Qed.
End Subset.
End Oracles.

(** ** derivative routines exist *)
Lemma maxnorm_le n (h : 'cV[R]_n) (c : R) : 0 <= c -> (forall i, `|h i ord0| <= c) -> maxnorm h <= c.
Proof.
by move=> c0 hc; rewrite /maxnorm; elim/big_rec: _ => // i x _ xc; rewrite le_maxl hc.
Qed.
Lemma grad_unique n (f : 'cV[option R]_n -> option R) x g g' : has_grad f x g -> has_grad f x g' -> g = g'.
Proof.
move=> [v [fx hg]] [v' [fx' hg']]; have ev : v' = v by move: fx'; rewrite fx => -[].
subst v'; apply/colP => i; apply/eqP; rewrite -subr_eq0 -normr_le0; apply/ler_addgt0Pr => e e0; rewrite add0r.
have e4 : 0 < e / 2%:R by rewrite divr_gt0 // ltr0n.
have [d1 [d10 h1]] := hg _ e4; have [d2 [d20 h2]] := hg' _ e4.
pose t := Num.min d1 d2; have t0 : 0 < t by rewrite lt_minr d10 d20.
pose h : 'cV[R]_n := t *: delta_mx i ord0.
have hE j : h j ord0 = t *+ (j == i) by rewrite !mxE eqxx andbT mulr_natr.
have mh : maxnorm h <= t.
  apply: maxnorm_le; first exact: ltW.
  by move=> j; rewrite hE; case: eqP => _; [rewrite mulr1n gtr0_norm|rewrite mulr0n normr0 ltW].
have sumE (q : 'cV[R]_n) : \sum_j q j ord0 * h j ord0 = q i ord0 * t.
  rewrite (bigD1 i) //= big1 ?addr0; first by rewrite hE eqxx mulr1n.
  by move=> j /negbTE ji; rewrite hE ji mulr0n mulr0.
have [|w [fw b1]] := h1 h; first by apply: le_trans mh _; rewrite le_minl lexx.
have [|w' [fw' b2]] := h2 h; first by apply: le_trans mh _; rewrite le_minl lexx orbT.
have ew : w' = w by move: fw'; rewrite fw => -[].
subst w'; rewrite !sumE in b1 b2.
have b : `|(g i ord0 - g' i ord0) * t| <= e * t.
  have -> : (g i ord0 - g' i ord0) * t = (w - v - g' i ord0 * t) - (w - v - g i ord0 * t) by toR; ring.
  apply: le_trans (ler_norm_sub _ _) _; apply: le_trans (ler_add b2 b1) _.
  rewrite -mulrDl -splitr; apply: ler_wpmul2l => //; exact: ltW.
by move: b; rewrite normrM (gtr0_norm t0) ler_pmul2r.
Qed.
Definition some_grad n (f : 'cV[option R]_n -> option R) (x : 'cV[option R]_n) : 'cV[option R]_n :=
  match excluded_middle_informative (exists g, has_grad f x g) with
  | left h => map_mx Some (proj1_sig (constructive_indefinite_description _ h))
  | right _ => const_mx None
  end.
Definition some_jacobian n p (f : 'cV[option R]_n -> 'cV[option R]_p) (x : 'cV[option R]_n) : 'M[option R]_(p, n) :=
  \matrix_(i, j) (some_grad (fun z => f z i ord0) x) j ord0.
Lemma some_grad_ok : grad_ok some_grad.
Proof.
move=> n f x g hg; rewrite /some_grad; case: excluded_middle_informative => [h|[]]; last by exists g.
by case: constructive_indefinite_description => g' hg' /=; rewrite (grad_unique hg' hg).
Qed.
Lemma some_jacobian_ok : jacobian_ok some_jacobian.
Proof.
move=> n p f x J h; apply/matrixP => i j; rewrite mxE (some_grad_ok (h i)) !mxE //.
Qed.
