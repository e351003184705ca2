(** symmetric_inv_sqrt of a positive semidefinite matrix, and which matrices the decomposition routine of
    SvdExist.v serves. *)
From Coq Require Import Reals Lra FunctionalExtensionality.
From mathcomp Require Import all_ssreflect all_algebra.
From Verif Require Import RStruct MxBase ZmodTac KalmanModel LinalgModel LinearizeModel GaussSpec LinalgSpec LinearizeSpec LinSpec
  MvnProofs MvnProofs2 InvSqrtProofs LinearizeProofs LinearizeProofs2 TriaExist CholUpdate SvdExist.
Set Implicit Arguments.
Unset Strict Implicit.
Unset Printing Implicit Defensive.
Local Open Scope ring_scope.
Import GRing.Theory Num.Theory Order.Theory.

Section Sing.
Variables (n : nat) (M : 'M[R]_n) (rtol : R).
Hypothesis psdM : psd M.
Hypothesis rtol0 : 0 <= rtol.
Hypothesis gap : forall w w', eigenvalue_of M w -> eigenvalue_of M w' -> w != 0 -> w' != 0 -> rtol * w' < w.
Variables (u : 'M[R]_n) (s : 'rV[R]_n).
Hypothesis dec : svd_at M u s.

Lemma sing_ge0 j : 0 <= s ord0 j. Proof. by case: dec => _ [w [_ -> _]]; exact: normr_ge0. Qed.
Lemma sing_eig : M = u *m diag_mx s *m u^T.
Proof.
have [uu [w [e es _]]] := dec; have [_ qM] := psdM.
suff -> : s = w by [].
apply/rowP => j; rewrite es ger0_norm //.
have := qM (u *m delta_mx j 0).
have -> : qf M (u *m delta_mx j 0) = qf (diag_mx w) (delta_mx j 0).
  rewrite /qf {1}e trmx_mul -!mulmxA (mulmxA u^T u) uu mul1mx (mulmxA u^T u) uu mul1mx //.
by rewrite /qf trmx_delta -rowE -colE !mxE eqxx mulr1n.
Qed.
Lemma sing_col j : M *m col j u = s ord0 j *: col j u.
Proof.
have [uu _] := dec; rewrite {1}sing_eig colE -!mulmxA (mulmxA u^T u) uu mul1mx -colE.
have -> : col j (diag_mx s) = s ord0 j *: delta_mx j 0.
  apply/matrixP => a b; rewrite !mxE [b]ord1 eqxx andbT.
  by case: eqP => [->|_]; rewrite ?mulr1n ?mulr1 ?mulr0n ?mulr0.
by rewrite -scalemxAr.
Qed.
Lemma sing_value j : eigenvalue_of M (s ord0 j).
Proof.
exists (col j u); split; last exact: sing_col.
apply/eqP => c0; have [uu _] := dec; move: uu => /matrixP/(_ j j); rewrite !mxE eqxx.
rewrite big1 => [/eqP|i _]; first by rewrite eq_sym oner_eq0.
by move/matrixP/(_ i ord0): c0; rewrite !mxE => ->; rewrite mulr0.
Qed.
Lemma sing_cut0 : 0 <= cutoff rtol s.
Proof. by apply: mulr_ge0 => //; case: insubP => // o _ _; exact: sing_ge0. Qed.
Lemma sing_inv0 j : s ord0 j = 0 -> inv_s rtol s j = 0.
Proof. by move=> e; rewrite /inv_s e; case: RltbP => // /RltP; rewrite ltNge sing_cut0. Qed.
Lemma sing_invE j : s ord0 j != 0 -> inv_s rtol s j * inv_s rtol s j = (s ord0 j)^-1.
Proof.
move=> sj; rewrite /inv_s; case: RltbP => [_|[]].
  by rewrite -invfM; congr (_^-1); apply: sqrt_sqrt; apply/RleP; exact: sing_ge0.
apply/RltP; rewrite /cutoff; case: insubP => [o _ o0|]; last by rewrite (leq_ltn_trans (leq0n j) (ltn_ord j)).
have so : s ord0 o != 0.
  apply/eqP => z; have [_ [w [_ _ h]]] := dec; have := h o j; rewrite o0 leq0n z => /(_ isT).
  by rewrite leNgt lt_def sj sing_ge0.
by apply: gap => //; exact: sing_value.
Qed.
Let d2 : 'rV[R]_n := \row_j (inv_s rtol s j * inv_s rtol s j).
Let W := B rtol u s *m (B rtol u s)^T.
Lemma sing_gram : W = u *m diag_mx d2 *m u^T. Proof. exact: B_gram. Qed.
Lemma sing_dd a b : (u *m diag_mx a *m u^T) *m (u *m diag_mx b *m u^T) = u *m diag_mx (\row_j (a ord0 j * b ord0 j)) *m u^T.
Proof.
have [uu _] := dec.
rewrite -!mulmxA (mulmxA u^T u) uu mul1mx; congr (_ *m _); rewrite mulmxA; congr (_ *m _).
by apply/matrixP => i j; rewrite mul_diag_mx !mxE; case: eqP => [->|_]; rewrite ?mulr0 ?mulr1n.
Qed.
Lemma sing_pinv : [/\ M *m W *m M = M, W *m M *m W = W & W *m M = M *m W].
Proof.
have z0 j : d2 ord0 j * s ord0 j * d2 ord0 j = d2 ord0 j.
  rewrite mxE; have [e|sj] := eqVneq (s ord0 j) 0; first by rewrite sing_inv0 ?mul0r.
  by rewrite sing_invE // mulVf // mul1r.
have z1 j : s ord0 j * d2 ord0 j * s ord0 j = s ord0 j.
  rewrite mxE; have [e|sj] := eqVneq (s ord0 j) 0; first by rewrite e mulr0.
  by rewrite sing_invE // divff // mul1r.
split.
- by rewrite sing_gram sing_eig !sing_dd; congr (_ *m diag_mx _ *m _); apply/rowP => j; rewrite -[RHS](z1 j) !mxE.
- by rewrite sing_gram sing_eig !sing_dd; congr (_ *m diag_mx _ *m _); apply/rowP => j; rewrite -[RHS](z0 j) !mxE.
by rewrite sing_gram sing_eig !sing_dd; congr (_ *m diag_mx _ *m _); apply/rowP => j; rewrite !mxE mulrC.
Qed.
End Sing.

Lemma psd_diag0 n (A : 'M[R]_n) a : psd A -> A a a = 0 -> row a A = 0.
Proof.
move=> /chol_exists [L [_ <-]] z; have := gram_row0 z.
by move=> r0; rewrite row_mul r0 mul0mx.
Qed.

Lemma block_pinv k n (P : 'M[R]_(n, k)) (Av : 'M[R]_k) (M W : 'M[R]_n) : P^T *m P = 1%:M -> M = P *m Av *m P^T ->
  M *m W *m M = M -> W *m M *m W = W -> W *m M = M *m W ->
  [/\ W = P *m (P^T *m W *m P) *m P^T, Av *m (P^T *m W *m P) *m Av = Av,
      P^T *m W *m P *m Av *m (P^T *m W *m P) = P^T *m W *m P & P^T *m W *m P *m Av = Av *m (P^T *m W *m P)].
Proof.
move=> PP MA h1 h2 h3; pose E := P *m P^T.
have EM : E *m M = M by rewrite /E MA -!mulmxA (mulmxA P^T P) PP mul1mx.
have ME : M *m E = M by rewrite /E MA -!mulmxA (mulmxA P^T P) PP mul1mx.
have AM : Av = P^T *m M *m P by rewrite MA !mulmxA PP mul1mx -(mulmxA Av) PP mulmx1.
clear MA; subst Av.
have W1 : W = M *m (W *m W) by rewrite mulmxA -h3 h2.
have W2 : W = W *m W *m M by rewrite -mulmxA h3 mulmxA h2.
have EW : P *m (P^T *m W) = W by rewrite mulmxA -/E W1 mulmxA EM.
have WE : W *m P *m P^T = W by rewrite -mulmxA -/E {1}W2 -mulmxA ME -W2.
have EM' : P *m (P^T *m M) = M by rewrite mulmxA.
have two (S T : 'M[R]_n) : P *m (P^T *m T) = T -> P^T *m S *m P *m (P^T *m T *m P) = P^T *m (S *m T) *m P.
  by move=> h; rewrite -!mulmxA (mulmxA P^T T P) (mulmxA P (P^T *m T) P) h.
rewrite !two // h1 h2 h3; split=> //.
by rewrite (mulmxA P (P^T *m W) P) EW WE.
Qed.

Section Wrapper.
Variable tria : forall m k : nat, 'M[R]_(m, k) -> 'M[R]_m.
Hypothesis tria_spec : tria_ok tria.
Variable svd : forall n, 'M[R]_n -> 'M[R]_n * 'rV[R]_n.
Variables (n : nat) (A : 'M[option R]_n) (rtol : R) (ignore : bool).
Let y : 'cV[option R]_n := \col_i A i i.
Let k := size (observed y).
Let Pd := Pd y.
Let Av := obs_block y (map_mx value A).
Hypothesis psdA : psd Av.
Hypothesis rtol0 : 0 <= rtol.
Hypothesis gap : forall w w', eigenvalue_of Av w -> eigenvalue_of Av w' -> w != 0 -> w' != 0 -> rtol * w' < w.
Hypothesis rows : forall a, row a Av != 0.
Hypothesis fin : forall i j, A i i <> None -> A j j <> None -> A i j <> None.
Hypothesis full : ignore = false -> forall i, A i i <> None.
Let M := Pd *m Av *m Pd^T.
Hypothesis dec : svd_at M (svd M).1 (svd M).2.
Let res := symmetric_inv_sqrt tria svd rtol ignore A.

Lemma inv_sqrt_sing : exists Lv : 'M[R]_k, let X := Lv *m Lv^T in
  [/\ is_trig_mx Lv, [/\ Av *m X *m Av = Av, X *m Av *m X = X & X *m Av = Av *m X],
      (forall a b, res (sel a) (sel b) = Some (Lv a b)) &
      (forall i j, A i i = None \/ A j j = None -> res i j = (if i == j then None else Some 0))].
Proof.
have psdM : psd M by exact: psd_conj.
have PP : Pd^T *m Pd = 1%:M by exact: PdTPd.
have gapM w w' : eigenvalue_of M w -> eigenvalue_of M w' -> w != 0 -> w' != 0 -> rtol * w' < w.
  have eig t : eigenvalue_of M t -> t != 0 -> eigenvalue_of Av t.
    move=> [v [v0 e]] t0; exists (Pd^T *m v); split.
      apply/eqP => z; move: e; rewrite /M -!mulmxA z !mulmx0 => /esym/eqP; rewrite scaler_eq0 (negbTE t0) /=.
      by rewrite (negbTE v0).
    by rewrite scalemxAr -e /M !mulmxA PP mul1mx.
  by move=> e e' w0 w0'; apply: gap => //; apply: eig.
pose Bm := B rtol (svd M).1 (svd M).2; have [W WB] : exists W, W = Bm *m Bm^T by eexists.
have [h1 h2 h3] := sing_pinv psdM rtol0 gapM dec; rewrite -/Bm -WB in h1 h2 h3.
have [gramX p1 p2 cX] := block_pinv PP (erefl M) h1 h2 h3.
set X := Pd^T *m W *m Pd in gramX p1 p2 cX.
have psdX : psd X.
  by rewrite /X WB; have := gram_psd (Pd^T *m Bm); rewrite trmx_mul trmxK !mulmxA.
have Xd a : X a a != 0.
  apply/eqP => /(psd_diag0 psdX) r0; have := rows a; rewrite -p1 -cX -mulmxA row_mul r0 mul0mx eqxx //.
have Ad a : Av a a != 0.
  by apply/eqP => /(psd_diag0 psdA) r0; have := rows a; rewrite r0 eqxx.
have [Lv [[t e v r1 r2] up]] := inv_sqrt_gen tria_spec Ad fin full (etrans (esym WB) gramX) Xd.
by exists Lv; rewrite e; split=> // i j [/r1 ->|/r2 ->].
Qed.
End Wrapper.
