(** Second moments of affine functions of uncorrelated variables. *)
From Coq Require Import Reals Lra FunctionalExtensionality.
From mathcomp Require Import all_ssreflect all_algebra.
From Coquelicot Require Import Coquelicot.
From Verif Require Import RStruct GenReals GenSpec UnbiasedSpec.
Set Implicit Arguments.
Unset Strict Implicit.
Unset Printing Implicit Defensive.
Local Open Scope ring_scope.
Import GRing.Theory.

Lemma RinvnatE k : (k.+1%:R^-1 : R) = Rinv (INR k.+1).
Proof. by rewrite RinvE RnatE //; apply/eqP; exact: not_0_INR. Qed.
Lemma third : Rdiv (IZR 1) (IZR 3) = 3%:R^-1.
Proof. by rewrite RinvnatE /Rdiv Rmult_1_l; congr Rinv; rewrite /INR; Lra.lra. Qed.
Section Moments.
Variable U : Type.
Variable mean : (U -> R) -> R.
Variable good : (U -> R) -> Prop.
Hypothesis Hm : expectation_ok mean good.

Lemma mean_const c : good (fun _ => c) /\ mean (fun _ => c) = c.
Proof. by have [h _] := Hm; exact: h. Qed.
Lemma mean_lin f g a b : good f -> good g ->
  good (fun u => a * f u + b * g u) /\ mean (fun u => a * f u + b * g u) = a * mean f + b * mean g.
Proof. by have [_ h] := Hm; exact: h. Qed.
Lemma mean_add f g : good f -> good g -> good (fun u => f u + g u) /\ mean (fun u => f u + g u) = mean f + mean g.
Proof.
move=> hf hg; have := mean_lin 1 1 hf hg.
by rewrite !mul1r; have -> : (fun u => 1 * f u + 1 * g u) = (fun u => f u + g u) by apply: functional_extensionality => u; rewrite !mul1r.
Qed.
Lemma mean_scale f a : good f -> good (fun u => a * f u) /\ mean (fun u => a * f u) = a * mean f.
Proof.
move=> hf; have := mean_lin a 0 hf hf.
by rewrite mul0r addr0; have -> : (fun u => a * f u + 0 * f u) = (fun u => a * f u) by apply: functional_extensionality => u; rewrite mul0r addr0.
Qed.
Lemma mean_sum (I : Type) (r : seq I) (f : I -> U -> R) : (forall i, good (f i)) ->
  good (fun u => \sum_(i <- r) f i u) /\ mean (fun u => \sum_(i <- r) f i u) = \sum_(i <- r) mean (f i).
Proof.
move=> hf; elim: r => [|a r [g e]].
  rewrite big_nil; have -> : (fun u => \sum_(i <- [::]) f i u) = (fun _ => 0) by apply: functional_extensionality => u; rewrite big_nil.
  exact: mean_const.
rewrite big_cons; have -> : (fun u => \sum_(i <- a :: r) f i u) = (fun u => f a u + \sum_(i <- r) f i u).
  by apply: functional_extensionality => u; rewrite big_cons.
by have [h1 h2] := mean_add (hf a) g; rewrite h2 e.
Qed.

Section Quad.
Variables (I : finType) (z : I -> U -> R).
Hypothesis z1 : forall i, good (z i) /\ mean (z i) = 0.
Hypothesis z2 : forall i j, good (fun u => z i u * z j u) /\ mean (fun u => z i u * z j u) = (i == j)%:R.
Lemma square_mean (B : I -> R) (v : R) :
  good (fun u => (\sum_i B i * z i u + v) ^+ 2) /\
  mean (fun u => (\sum_i B i * z i u + v) ^+ 2) = \sum_i B i ^+ 2 + v ^+ 2.
Proof.
have -> : (fun u => (\sum_i B i * z i u + v) ^+ 2)
        = (fun u => (\sum_i \sum_j (B i * B j) * (z i u * z j u)) + ((2%:R * v) * (\sum_i B i * z i u) + v ^+ 2)).
  apply: functional_extensionality => u; rewrite sqrrD -!mulrA mulr_natl -addrA; congr (_ + _).
    rewrite expr2 mulr_suml; apply: eq_bigr => i _; rewrite mulr_sumr; apply: eq_bigr => j _.
    by rewrite mulrACA.
  by rewrite mulrC.
have h0 i := mean_sum (index_enum I) (fun j => (mean_scale (B i * B j) (z2 i j).1).1).
have [g0 e0] := mean_sum (index_enum I) (fun i => (h0 i).1).
have [g1 e1] := mean_sum (index_enum I) (fun i => (mean_scale (B i) (z1 i).1).1).
have [g2 e2] := mean_scale (2%:R * v) g1.
have [g3 e3] := mean_add g2 (mean_const (v ^+ 2)).1.
have [g4 e4] := mean_add g0 g3.
split=> //; rewrite e4 e3 e2 e1 e0 (mean_const _).2.
rewrite [X in 2%:R * v * X]big1 => [|i _]; last by rewrite (mean_scale _ (z1 i).1).2 (z1 i).2 mulr0.
rewrite mulr0 add0r; congr (_ + _); apply: eq_bigr => i _; rewrite (h0 i).2 (bigD1 i) //=.
rewrite big1 => [|j ji]; last by rewrite (mean_scale _ (z2 i j).1).2 (z2 i j).2 eq_sym (negbTE ji) mulr0.
by rewrite addr0 (mean_scale _ (z2 i i).1).2 (z2 i i).2 eqxx mulr1 expr2.
Qed.
End Quad.

(** one array of normals in the middle of an affine map *)
Lemma affine_mean m n (z : U -> 'M[R]_(m, n)) p (B : 'I_p -> 'I_m -> 'I_n -> R) (v : 'cV[R]_p) :
  normal_moments mean good z ->
  good (fun u => \sum_(a < p) (\sum_i \sum_j B a i j * z u i j + v a ord0) ^+ 2) /\
  mean (fun u => \sum_(a < p) (\sum_i \sum_j B a i j * z u i j + v a ord0) ^+ 2)
  = \sum_(a < p) \sum_i \sum_j B a i j ^+ 2 + normsq v.
Proof.
move=> hz; pose zz (q : 'I_m * 'I_n) u := z u q.1 q.2.
have z1 q : good (zz q) /\ mean (zz q) = 0 by have [g e _] := hz q.1 q.2.
have z2 q r : good (fun u => zz q u * zz r u) /\ mean (fun u => zz q u * zz r u) = (q == r)%:R.
  have [_ _ /(_ r.1 r.2) [g e]] := hz q.1 q.2; split=> //; rewrite e.
  by case: (q) (r) => [q1 q2] [r1 r2] /=; rewrite xpair_eqE; case: ifP.
have sq a := square_mean z1 z2 (fun q => B a q.1 q.2) (v a ord0).
have [g e] := mean_sum (index_enum [finType of 'I_p]) (fun a => (sq a).1).
have -> : (fun u => \sum_(a < p) (\sum_i \sum_j B a i j * z u i j + v a ord0) ^+ 2)
        = (fun u => \sum_a (\sum_q B a q.1 q.2 * zz q u + v a ord0) ^+ 2).
  by apply: functional_extensionality => u; apply: eq_bigr => a _; rewrite (pair_bigA _ (fun i j => B a i j * z u i j)).
split=> //; rewrite e /normsq -big_split; apply: eq_bigr => a _.
by rewrite (sq a).2 (pair_bigA _ (fun i j => B a i j ^+ 2)).
Qed.
(** |a Z x + v|^2 *)
Lemma mean_mul m n (z : U -> 'M[R]_(m, n)) (a : R) (x : 'cV[R]_n) (v : 'cV[R]_m) :
  normal_moments mean good z ->
  good (fun u => normsq (a *: (z u *m x) + v)) /\
  mean (fun u => normsq (a *: (z u *m x) + v)) = a ^+ 2 * m%:R * normsq x + normsq v.
Proof.
move=> hz; have := affine_mean (fun b i j => if b == i then a * x j ord0 else 0) v hz.
have -> : (fun u => \sum_(b < m) (\sum_i \sum_j (if b == i then a * x j ord0 else 0) * z u i j + v b ord0) ^+ 2)
        = (fun u => normsq (a *: (z u *m x) + v)).
  apply: functional_extensionality => u; apply: eq_bigr => b _; congr ((_ ) ^+ 2); rewrite !mxE; congr (_ + _).
  rewrite (bigD1 b) //= [X in _ + X]big1 => [|i ib]; last by apply: big1 => j _; rewrite eq_sym (negbTE ib) mul0r.
  rewrite addr0 mulr_sumr; apply: eq_bigr => j _; rewrite eqxx; by rewrite -mulrA [x _ _ * _]mulrC.
move=> [g ->]; split=> //; congr (_ + _).
transitivity (\sum_(b < m) a ^+ 2 * normsq x).
  apply: eq_bigr => b _; rewrite (bigD1 b) //= [X in _ + X]big1 => [|i ib].
    by rewrite addr0 /normsq mulr_sumr; apply: eq_bigr => j _; rewrite eqxx exprMn.
  by apply: big1 => j _; rewrite eq_sym (negbTE ib) expr0n.
by rewrite sumr_const card_ord -mulr_natr mulrAC.
Qed.
(** |a z + v|^2 *)
Lemma mean_add_noise m (z : U -> 'cV[R]_m) (a : R) (v : 'cV[R]_m) :
  normal_moments mean good z ->
  good (fun u => normsq (a *: z u + v)) /\ mean (fun u => normsq (a *: z u + v)) = a ^+ 2 * m%:R + normsq v.
Proof.
move=> hz; have := mean_mul a (const_mx 1 : 'cV[R]_1) v hz.
have -> : (fun u => normsq (a *: (z u *m (const_mx 1 : 'cV[R]_1)) + v)) = (fun u => normsq (a *: z u + v)).
  apply: functional_extensionality => u; congr (normsq (a *: _ + v)).
  by apply/colP => i; rewrite !mxE big_ord1 mxE mulr1 ?ord1.
by rewrite {3}/normsq big_ord1 mxE expr1n mulr1.
Qed.
(** |L z|^2 *)
Lemma mean_factor m n (z : U -> 'cV[R]_n) (L : 'M[R]_(m, n)) :
  normal_moments mean good z ->
  good (fun u => normsq (L *m z u)) /\ mean (fun u => normsq (L *m z u)) = \sum_i \sum_j L i j ^+ 2.
Proof.
move=> hz; have := affine_mean (fun (a : 'I_m) (i : 'I_n) (_ : 'I_1) => L a i) 0 hz.
have -> : (fun u => \sum_(a < m) (\sum_i \sum_(j < 1) L a i * z u i j + (0 : 'cV[R]_m) a ord0) ^+ 2)
        = (fun u => normsq (L *m z u)).
  apply: functional_extensionality => u; apply: eq_bigr => a _; congr (_ ^+ 2); rewrite !mxE addr0.
  by apply: eq_bigr => i _; rewrite big_ord1 ?ord1.
move=> [g ->]; split=> //; rewrite [normsq 0]big1 => [|i _]; last by rewrite mxE expr0n.
by rewrite addr0; apply: eq_bigr => a _; apply: eq_bigr => i _; rewrite big_ord1.
Qed.
(** a lower triangle of uniforms *)
Lemma mean_triangle n (z : U -> 'M[R]_n) :
  uniform_entries mean good z ->
  let L u : 'M[R]_n := \matrix_(i, j) (if (i < j)%N then 0 else z u i j) in
  good (fun u => \sum_i \sum_j L u i j ^+ 2) /\
  mean (fun u => \sum_i \sum_j L u i j ^+ 2) = n%:R * n.+1%:R / 6%:R.
Proof.
move=> hz L.
have e1 i j : good (fun u => L u i j ^+ 2) /\ mean (fun u => L u i j ^+ 2) = if (i < j)%N then 0 else 3%:R^-1.
  case: ifP => lt.
    have -> : (fun u => L u i j ^+ 2) = (fun _ => 0) by apply: functional_extensionality => u; rewrite mxE lt expr0n.
    exact: mean_const.
  have [i1 i2] := GenReals.RInt_square; have [g e] := hz i j _ i1.
  have -> : (fun u => L u i j ^+ 2) = (fun u => (z u i j * z u i j)%R).
    by apply: functional_extensionality => u; rewrite mxE lt expr2.
  by split=> //; rewrite e i2 -third.
have h i := mean_sum (index_enum [finType of 'I_n]) (fun j => (e1 i j).1).
have [g e] := mean_sum (index_enum [finType of 'I_n]) (fun i => (h i).1).
split=> //; rewrite e.
transitivity (\sum_(i < n) (i.+1%:R * 3%:R^-1 : R)).
  apply: eq_bigr => i _; rewrite (h i).2.
  transitivity (\sum_(j < n | (j < i.+1)%N) (3%:R^-1 : R)).
    rewrite [RHS]big_mkcond /=; apply: eq_bigr => j _; rewrite (e1 i j).2 [in RHS]ltnS [in RHS]leqNgt; by case: (i < j)%N.
  by rewrite -(big_ord_widen n (fun=> 3%:R^-1) (ltn_ord i)) sumr_const card_ord mulr_natl.
rewrite -mulr_suml.
have -> : \sum_(i < n) (i.+1%:R : R) = n%:R * n.+1%:R / 2%:R.
  clear; elim: n => [|n IH]; first by rewrite big_ord0 mul0r mul0r.
  by rewrite big_ord_recr /= IH; toR; rewrite !S_INR; field.
by rewrite -[LHS]mulrA -invfM; congr (_ * _^-1); rewrite -natrM.
Qed.
End Moments.
