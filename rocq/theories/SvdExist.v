(** Existence of the decompositions that svd(A, hermitian=True) returns: the spectral theorem for real
    symmetric matrices. *)
From Coq Require Import Reals Lra ClassicalEpsilon.
From mathcomp Require Import all_ssreflect all_algebra fingroup perm.
From mathcomp.real_closed Require Import complex.
From Verif Require Import RStruct ZmodTac LinalgSpec.
Set Implicit Arguments.
Unset Strict Implicit.
Unset Printing Implicit Defensive.
Local Open Scope ring_scope.
Import GRing.Theory Num.Theory Order.Theory.

(** ** the reals are a real closed field *)
Lemma horner_continuous (p : {poly R}) : continuity (fun x : R => p.[x]).
Proof.
have ext (f g : R -> R) x : (forall y, f y = g y) -> continuity_pt f x -> continuity_pt g x.
  by move=> h; exact: (continuity_pt_locally_ext f g 1 x Rlt_0_1 (fun y _ => h y)).
move=> x; elim/poly_ind: p => [|p c IH].
  by apply: (ext (fun _ => 0)) => [y|]; [rewrite horner0|exact: continuity_pt_const].
apply: (ext (fun y => Rplus (Rmult p.[y] y) c)) => [y|].
  by rewrite hornerMXaddC.
apply: continuity_pt_plus; last exact: continuity_pt_const.
by apply: continuity_pt_mult => //; exact: derivable_continuous_pt (derivable_pt_id x).
Qed.
Lemma R_closed : Num.real_closed_axiom R_numDomainType.
Proof.
move=> p a b /RleP ab /andP[/RleP pa /RleP pb].
have [lt|ge] := Rlt_le_dec a b; last first.
  have e : a = b by apply: Rle_antisym.
  exists a; first by rewrite lexx; apply/RleP.
  by rewrite /root eq_le; apply/andP; split; apply/RleP => //; rewrite e.
have m0 : Rle (Rmult p.[a] p.[b]) 0 by move: pa pb; toR => pa pb; nra.
have [x [[h1 h2] h3]] := IVT_cor (fun x => p.[x]) a b (@horner_continuous p) ab m0.
by exists x; [apply/andP; split; apply/RleP|apply/eqP].
Qed.

Canonical R_rcfType := RcfType R R_closed.

(** ** a symmetric matrix has a real eigenvector *)
Notation C := (complex_closedField R_rcfType).
Local Notation re := (@complex.Re R).
Local Notation im := (@complex.Im R).
Lemma re_sum (I : finType) (f : I -> R[i]) : re (\sum_i f i) = \sum_i re (f i).
Proof. by apply: (big_morph _ (id1 := 0) (op1 := +%R)) => [[? ?] [? ?]|]. Qed.
Lemma im_sum (I : finType) (f : I -> R[i]) : im (\sum_i f i) = \sum_i im (f i).
Proof. by apply: (big_morph _ (id1 := 0) (op1 := +%R)) => [[? ?] [? ?]|]. Qed.
Lemma sqn_real n (v : 'rV[R]_n) : (v *m v^T) ord0 ord0 = \sum_j v ord0 j ^+ 2.
Proof. by rewrite mxE; apply: eq_bigr => j _; rewrite mxE expr2. Qed.
Lemma sqn_eq0' n (v : 'rV[R]_n) : (v *m v^T) ord0 ord0 = 0 -> v = 0.
Proof.
rewrite sqn_real => /eqP; rewrite psumr_eq0 => [/allP h|j _]; last exact: sqr_ge0.
apply/rowP => j; rewrite mxE; apply/eqP; rewrite -sqrf_eq0; apply: h; exact: mem_index_enum.
Qed.
Lemma sqn_ge0' n (v : 'rV[R]_n) : 0 <= (v *m v^T) ord0 ord0.
Proof. by rewrite sqn_real; apply: sumr_ge0 => j _; exact: sqr_ge0. Qed.
Lemma real_eigenvector n (A : 'M[R]_n.+1) : A^T = A -> exists (v : 'rV[R]_n.+1) w, v != 0 /\ v *m A = w *: v.
Proof.
move=> sA; pose A' : 'M[C]_n.+1 := map_mx (fun x => (x%:C)%C) A.
have /closed_rootP [a] : size (char_poly A') != 1%N by rewrite size_char_poly.
rewrite -eigenvalue_root_char => /eigenvalueP [v va v0].
pose u : 'rV[R]_n.+1 := map_mx re v; pose z : 'rV[R]_n.+1 := map_mx im v.
have eu : u *m A = re a *: u - im a *: z.
  apply/rowP => j; have := congr1 (fun M : 'rV[C]_n.+1 => re (M ord0 j)) va; rewrite !mxE re_sum => h.
  transitivity (\sum_k re (v ord0 k * A' k j)).
    by apply: eq_bigr => k _; rewrite !mxE; case: (v ord0 k) => p q /=; rewrite mulr0 subr0.
  by rewrite h; move: (a) (v ord0 j) => [p q] [r t].
have ez : z *m A = im a *: u + re a *: z.
  apply/rowP => j; have := congr1 (fun M : 'rV[C]_n.+1 => im (M ord0 j)) va; rewrite !mxE im_sum => h.
  transitivity (\sum_k im (v ord0 k * A' k j)).
    by apply: eq_bigr => k _; rewrite !mxE; case: (v ord0 k) => p q /=; rewrite mulr0 add0r.
  by rewrite h; move: (a) (v ord0 j) => [p q] [r t] /=; rewrite addrC.
have nz : u != 0 \/ z != 0.
  apply/orP; apply: contraR v0; rewrite negb_or !negbK => /andP[/eqP u0 /eqP z0].
  apply/eqP/rowP => j; rewrite mxE; move/rowP: u0 => /(_ j); move/rowP: z0 => /(_ j); rewrite !mxE.
  by case: (v ord0 j) => p q /= -> ->.
have y0 : im a = 0.
  have h1 : (u *m A *m z^T) ord0 ord0 = (z *m A *m u^T) ord0 ord0.
    have -> : u *m A *m z^T = (z *m A *m u^T)^T by rewrite !trmx_mul trmxK sA mulmxA.
    by rewrite mxE.
  have c : (u *m z^T) ord0 ord0 = (z *m u^T) ord0 ord0.
    have -> : u *m z^T = (z *m u^T)^T by rewrite trmx_mul trmxK.
    by rewrite mxE.
  have h : im a * ((u *m u^T) ord0 ord0 + (z *m z^T) ord0 ord0) = 0.
    move: h1; rewrite eu ez mulmxBl mulmxDl -!scalemxAl.
    move: (u *m u^T) (z *m z^T) (u *m z^T) (z *m u^T) c => U Z W W' c; rewrite !mxE c.
    move: (im a) (re a) (U _ _) (Z _ _) (W' _ _) => y x U0 Z0 W0.
    by toR => e; lra.
  move/eqP: h; rewrite mulf_eq0 => /orP[/eqP //|/eqP s0].
  have hu := sqn_ge0' u; have hz := sqn_ge0' z.
  have u0 : (u *m u^T) ord0 ord0 = 0.
    by apply/eqP; rewrite eq_le hu andbT -s0 ler_addl.
  have z0 : (z *m z^T) ord0 ord0 = 0 by move: s0; rewrite u0 add0r.
  by case: nz => [/eqP[]|/eqP[]]; exact: sqn_eq0'.
move: eu ez; rewrite y0 !scale0r subr0 add0r => eu ez.
by case: nz => h; [exists u, (re a)|exists z, (re a)].
Qed.

(** ** a reflection that takes the first basis vector to a given unit vector *)
Lemma reflection n (v e : 'rV[R]_n) : v *m v^T = 1%:M -> e *m e^T = 1%:M ->
  exists Q : 'M[R]_n, [/\ Q^T = Q, Q *m Q = 1%:M & e *m Q = v].
Proof.
move=> vv ee; pose d := v - e; have [d0|d0] := eqVneq d 0.
  exists 1%:M; rewrite trmx1 !mulmx1; split=> //; exact/esym/subr0_eq.
pose q : R := (d *m d^T) ord0 ord0; have q0 : q != 0 by apply: contra_neq d0; exact: sqn_eq0'.
have dd : d *m d^T = q%:M by rewrite [LHS]mx11_scalar.
exists (1%:M - (2%:R / q) *: (d^T *m d)).
have sq : (d^T *m d)^T = d^T *m d by rewrite trmx_mul trmxK.
have dq : d^T *m d *m (d^T *m d) = q *: (d^T *m d).
  by rewrite mulmxA -(mulmxA d^T d d^T) dd mul_mx_scalar scalemxAl.
split.
- by rewrite linearB /= linearZ /= trmx1 sq.
- move: (d^T *m d) sq dq => P sq dq; rewrite mulmxBl mul1mx mulmxBr mulmx1 -scalemxAl -scalemxAr dq !scalerA.
  have -> : 2%:R / q * (2%:R / q) * q = 2%:R / q + 2%:R / q by rewrite -mulrA divfK // -mulr2n mulr_natr.
  by rewrite scalerDl; zmod.
- pose c : R := (e *m v^T) ord0 ord0.
  have ev : e *m v^T = c%:M by rewrite [LHS]mx11_scalar.
  have ve : v *m e^T = c%:M by rewrite -[LHS]trmxK trmx_mul trmxK ev tr_scalar_mx.
  have qE : q = 2%:R - 2%:R * c.
    rewrite /q /d linearB /= mulmxBr !mulmxBl vv ee ev ve !mxE /=; move: c {ev ve} => c.
    by rewrite !mulr1n; toR; ring.
  have -> : e *m (1%:M - 2%:R / q *: (d^T *m d)) = e - (2%:R / q * (c - 1)) *: d.
    rewrite mulmxBr mulmx1 -scalemxAr mulmxA; congr (_ - _).
    have -> : e *m d^T = (c - 1)%:M by rewrite /d linearB /= mulmxBr ev ee raddfB.
    by rewrite mul_scalar_mx scalerA.
  have -> : 2%:R / q * (c - 1) = -1.
    by rewrite mulrAC; apply: (mulIf q0); rewrite divfK // qE; move: c {ev ve qE} => c; toR; ring.
  by rewrite scaleN1r opprK /d addrC subrK.
Qed.

(** ** the spectral theorem *)
Lemma spectral n (A : 'M[R]_n) : A^T = A ->
  exists (u : 'M[R]_n) (w : 'rV[R]_n), u^T *m u = 1%:M /\ A = u *m diag_mx w *m u^T.
Proof.
elim: n A => [|n IH] A sA.
  by exists 1%:M, 0; split; [rewrite trmx1 mulmx1|rewrite [LHS]flatmx0 [RHS]flatmx0].
have [v [w [v0 vA]]] := real_eigenvector sA.
pose q : R := (v *m v^T) ord0 ord0.
have q0 : 0 < q.
  rewrite lt_def sqn_ge0' andbT; apply: contra_neq v0; exact: sqn_eq0'.
have q1 : Rle 0 q by apply/RleP; exact: ltW.
have s0 : sqrt q != 0 by apply/eqP => /(sqrt_eq_0 _ q1) h; move: q0; rewrite h ltxx.
have ss : sqrt q * sqrt q = q by exact: sqrt_sqrt.
pose v1 := (sqrt q)^-1 *: v.
have vv : v1 *m v1^T = 1%:M.
  rewrite /v1 linearZ /= -scalemxAl -scalemxAr scalerA [v *m v^T]mx11_scalar -/q scale_scalar_mx -invfM ss.
  by rewrite mulVf // gt_eqF.
pose e : 'rV[R]_(1 + n) := row_mx 1%:M 0.
have ee : e *m e^T = 1%:M by rewrite /e tr_row_mx mul_row_col trmx1 trmx0 mulmx1 mulmx0 addr0.
have [Q [sQ QQ eQ]] := reflection (vv : (v1 : 'rV_(1 + n)) *m _ = _) ee.
pose B : 'M[R]_(1 + n) := Q *m A *m Q.
have sB : B^T = B by rewrite /B !trmx_mul sQ sA mulmxA.
have eB : e *m B = w *: e.
  rewrite /B !mulmxA eQ /v1 -scalemxAl vA !scalerA mulrC -scalerA -scalemxAl -/v1.
  by rewrite -eQ -mulmxA QQ mulmx1.
have BE : B = block_mx w%:M 0 0 (drsubmx B).
  have /esym := eB; rewrite -{1}[B]submxK /e mul_row_block !mul1mx !mul0mx !addr0 scale_row_mx scaler0.
  move=> /eq_row_mx [b1 b2]; rewrite -[LHS]submxK -b1 -b2 scale_scalar_mx mulr1.
  suff -> : dlsubmx B = 0 by [].
  by rewrite -sB -trmx_ursub -b2 trmx0.
have [|u' [w' [uu BE']]] := IH (drsubmx B); first by rewrite trmx_drsub sB.
pose V : 'M[R]_(1 + n) := block_mx 1%:M 0 0 u'.
have VV : V^T *m V = 1%:M.
  by rewrite /V tr_block_mx mulmx_block !trmx0 trmx1 !mulmx0 !mul0mx mul1mx uu !(addr0, add0r) -scalar_mx_block.
exists (Q *m V : 'M_(1 + n)), (row_mx w%:M w' : 'rV_(1 + n)); split.
  by rewrite trmx_mul sQ mulmxA -(mulmxA V^T) QQ mulmx1.
have -> : A = Q *m B *m Q by rewrite /B !mulmxA QQ mul1mx -mulmxA QQ mulmx1.
have -> : Q *m V *m diag_mx (row_mx w%:M w') *m (Q *m V)^T = Q *m (V *m diag_mx (row_mx w%:M w') *m V^T) *m Q.
  by rewrite trmx_mul sQ !mulmxA.
congr (_ *m _ *m _).
rewrite BE BE' diag_mx_row /V tr_block_mx !mulmx_block !trmx0 trmx1 !mulmx0 !mul0mx !mul1mx !(addr0, add0r) mulmx1.
by congr block_mx; rewrite ?mul0mx // [RHS]mx11_scalar !mxE.
Qed.

(** ** with the absolute eigenvalues in decreasing order *)
Lemma decreasing_order n (f : 'I_n -> R) : exists s : 'S_n, forall i j : 'I_n, (i <= j)%N -> f (s j) <= f (s i).
Proof.
pose r (i j : 'I_n) := f j <= f i.
pose t := sort r (enum 'I_n).
have sz : size t = n by rewrite size_sort size_enum_ord.
have un : uniq t by rewrite sort_uniq enum_uniq.
have inj : injective (fun i : 'I_n => nth i t i).
  move=> i j; rewrite (set_nth_default j) ?sz // => /eqP; rewrite nth_uniq ?sz // => /eqP; exact: val_inj.
exists (perm inj) => i j ij; rewrite !permE (set_nth_default i j) ?sz //.
have tr : transitive r by move=> y x z h1 h2; exact: le_trans h2 h1.
have := sorted_leq_nth tr (fun x => lexx _) i (sort_sorted (fun x y => le_total _ _) (enum 'I_n)).
by move=> /(_ i j); rewrite -/t !inE sz !ltn_ord; apply.
Qed.
Theorem svd_exists n (A : 'M[R]_n) : A^T = A -> exists u s, svd_at A u s.
Proof.
move=> /spectral [u [w [uu AE]]]; have [s sd] := decreasing_order (fun j => `|w ord0 j|).
exists (\matrix_(i, j) u i (s j)), (\row_j `|w ord0 (s j)|); split.
  apply/matrixP => i j; move/matrixP: uu => /(_ (s i) (s j)); rewrite !mxE (inj_eq perm_inj) => <-.
  by apply: eq_bigr => k _; rewrite !mxE.
exists (\row_j w ord0 (s j)); split=> [|j|i j ij]; rewrite ?mxE //; last exact: sd.
rewrite AE; apply/matrixP => i k; rewrite !mul_mx_diag ![LHS]mxE [RHS]mxE (reindex_inj (@perm_inj _ s)).
by apply: eq_bigr => j _; rewrite !mxE.
Qed.
Print Assumptions svd_exists.

(** a function that meets the contract of svd on every symmetric matrix *)
Definition some_svd n (A : 'M[R]_n) : 'M[R]_n * 'rV[R]_n :=
  epsilon (inhabits (1%:M, 0)) (fun p => svd_at A p.1 p.2).
Theorem some_svd_ok n (A : 'M[R]_n) : A^T = A -> svd_at A (some_svd A).1 (some_svd A).2.
Proof.
move=> /svd_exists [u [s h]].
by apply: (epsilon_spec (inhabits (1%:M, 0)) (fun p => svd_at A p.1 p.2)); exists (u, s).
Qed.
Print Assumptions some_svd_ok.
