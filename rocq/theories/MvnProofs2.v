(** logpdf for the other factor shapes and with missing entries. *)
From Coq Require Import Reals Lra.
From mathcomp Require Import all_ssreflect all_algebra.
From Verif Require Import RStruct MxBase ZmodTac KalmanModel GaussSpec MvnProofs.
Set Implicit Arguments.
Unset Strict Implicit.
Unset Printing Implicit Defensive.
Local Open Scope ring_scope.
Import GRing.Theory Num.Theory Order.Theory.

Lemma diag_trig n (v : 'rV[R]_n) : is_trig_mx (diag_mx v).
Proof. by apply/is_trig_mxP => i j ij; rewrite mxE -val_eqE ltn_eqF. Qed.
Lemma diag_unit n (v : 'rV[R]_n) : (forall i, v ord0 i != 0) -> diag_mx v \in unitmx.
Proof. by move=> h; rewrite trig_unit ?diag_trig //; apply/forallP => i; rewrite mxE eqxx mulr1n. Qed.
Lemma diag_inv n (v : 'rV[R]_n) : (forall i, v ord0 i != 0) ->
  invmx (diag_mx v) = diag_mx (\row_i (v ord0 i)^-1).
Proof.
move=> h; apply: invmx_uniq; apply/matrixP => i j; rewrite mul_diag_mx !mxE.
by case: eqP => [->|_]; rewrite ?mulr0 // mulr1n divff.
Qed.
Lemma logpdf_diag_mx n (x m c : 'cV[R]_n) : (forall i, c i ord0 != 0) ->
  logpdf_diag x m c = logpdf_mx x m (diag_mx c^T).
Proof.
move=> h; have h' i : c^T ord0 i != 0 by rewrite mxE.
rewrite /logpdf_diag /logpdf_mx solve_lowerE ?diag_trig // diag_inv //.
have -> : diag_mx (\row_i (c^T ord0 i)^-1) *m (x - m) = \col_i ((x i ord0 - m i ord0) / c i ord0).
  by apply/matrixP => i j; rewrite [j]ord1 mul_diag_mx !mxE mulrC.
congr (_ - _); apply: eq_bigr => i _; by rewrite !mxE eqxx mulr1n.
Qed.
Lemma logpdf_diagE n (x m c : 'cV[R]_n) : (forall i, c i ord0 != 0) ->
  logpdf_diag x m c = gauss x m (diag_mx (\row_i c i ord0 ^+ 2)).
Proof.
move=> h; rewrite logpdf_diag_mx // logpdf_mxE ?diag_trig //; last by apply: diag_unit => i; rewrite mxE.
congr (gauss _ _ _); rewrite /cov; apply/matrixP => i j; rewrite tr_diag_mx mul_diag_mx !mxE.
by case: eqP => [->|_]; rewrite ?mulr0 // mulr1n expr2.
Qed.
Lemma logpdf_iso_diag n (x m : 'cV[R]_n) (c : R) : Rlt 0 c ->
  logpdf_iso x m c = logpdf_diag x m (const_mx c).
Proof.
move=> c0; have cn := pos_neq0 c0; rewrite /logpdf_iso /logpdf_diag.
have -> : \col_i ((x i ord0 - m i ord0) / (const_mx c : 'cV[R]_n) i ord0) = c^-1 *: (x - m).
  by apply/matrixP => i j; rewrite [j]ord1 !mxE mulrC.
rewrite /dot trmxZ -scalemxAl -scalemxAr !mxE.
have -> : \sum_(i < n) ln `|(const_mx c : 'cV[R]_n) i ord0| = n%:R * ln c.
  rewrite (eq_bigr (fun=> ln c)); first by rewrite sumr_const card_ord mulr_natl.
  by move=> i _; rewrite mxE ger0_norm //; apply/RleP/Rlt_le.
move: (\sum_j _) (ln (2%:R * PI)) (ln c) => a l l'.
rewrite -addrA -opprD; congr (_ - _).
  by rewrite -exprVn expr2; move: (c^-1) => ci; toR; ring.
by toR; field.
Qed.
Lemma logpdf_isoE n (x m : 'cV[R]_n) (c : R) : Rlt 0 c ->
  logpdf_iso x m c = gauss x m (c ^+ 2)%:M.
Proof.
move=> c0; rewrite logpdf_iso_diag // logpdf_diagE; last by move=> i; rewrite mxE pos_neq0.
by congr (gauss _ _ _); apply/matrixP => i j; rewrite !mxE.
Qed.
Lemma logpdf_scalarE (x m c : R) : Rlt 0 c ->
  logpdf_scalar x m c = gauss (const_mx x : 'cV_1) (const_mx m) (c ^+ 2)%:M.
Proof.
move=> c0; rewrite -logpdf_isoE // /logpdf_scalar /logpdf_iso mul1r; congr (_ * _ / _ - _).
by rewrite /dot mxE big_ord1 !mxE expr2.
Qed.

Section Nan.
Variables (n : nat) (x : 'cV[option R]_n) (mean : 'cV[R]_n).
Let flag i := isnan (x i ord0).
Let k := size (observed x).

Section Mx.
Variable tria : forall m l : nat, 'M[R]_(m, l) -> 'M[R]_m.
Hypothesis tria_spec : tria_ok tria.
Lemma det_pos_gram p q (A : 'M[R]_(p, q)) : A *m A^T \in unitmx -> Rlt 0 (\det (A *m A^T)).
Proof.
move=> u; set T := tria (row_mx A 0 : 'M_(p, q + p)).
have [_ e] := tria_spec (row_mx A 0 : 'M_(p, q + p)) (leq_addl q p).
have e' : A *m A^T = cov T by rewrite /cov e tr_row_mx mul_row_col trmx0 mulmx0 addr0.
by move: u; rewrite e' => u; apply: det_gram_pos; rewrite -gram_unit.
Qed.
Lemma obs_block_gram p (A : 'M[R]_(n, p)) : obs_block x (A *m A^T) = cov (obs_rows x A).
Proof.
by rewrite /obs_block mxsub_mul /cov; congr (_ *m _); apply/matrixP => i j; rewrite !mxE.
Qed.
Lemma logpdf_nan_mxE (L : 'M[R]_n) : obs_block x (cov L) \in unitmx ->
  logpdf_nan_mx tria x mean L = gauss (obs_values x) (obs_rows x mean) (obs_block x (cov L)).
Proof.
move=> u; have pS : Rlt 0 (\det (obs_block x (cov L))).
  by move: u; rewrite /cov obs_block_gram; exact: det_pos_gram.
have [tX eX] := collect_nansE x tria_spec L.
have uX : collect_nans_chol tria flag L \in unitmx.
  by rewrite -gram_unit -/(cov _) eX; exact: (@padded_unit _ x _ u).
rewrite /logpdf_nan_mx logpdf_mxE // eX !collect_restE value_rows.
exact: (@gauss_padded _ x _ u pS).
Qed.
End Mx.

Lemma Pd_mul p (B : 'M[R]_(k, p)) i j :
  (Pd x *m B) i j = if insub (i : nat) is Some a then B a j else 0.
Proof.
rewrite mxE; case: insubP => [a ik ai|]; last first.
  rewrite -leqNgt => ki; rewrite big1 // => a _; rewrite mxE.
  by case: eqP => [e|_]; rewrite ?mul0r // ltnNge ki /= mul0r.
rewrite (bigD1 a) //= big1 ?addr0 => [|b /eqP ba]; rewrite !mxE.
  by rewrite -ai eqxx ltn_ord mul1r.
by case: eqP => [e|_]; rewrite ?mul0r //; case: ba; apply: val_inj; rewrite /= -e ai.
Qed.
Lemma Pd_conj (B : 'M[R]_k) i j :
  (Pd x *m B *m (Pd x)^T) i j =
  if insub (i : nat) is Some a then if insub (j : nat) is Some b then B a b else 0 else 0.
Proof.
rewrite -mulmxA Pd_mul; case: insubP => // a _ _.
by rewrite -[B]trmxK -trmx_mul mxE Pd_mul; case: insubP => // b _ _; rewrite !mxE.
Qed.
Lemma logpdf_nan_diagE (c : 'cV[R]_n) : (forall i, x i ord0 != None -> c i ord0 != 0) ->
  logpdf_nan_diag x mean c
  = gauss (obs_values x) (obs_rows x mean) (diag_mx (\row_a obs_rows x c a ord0 ^+ 2)).
Proof.
move=> h; have selN (a : 'I_k) : c (sel a) ord0 != 0.
  apply: h; have : sel a \in observed x by exact: mem_tnth.
  by rewrite mem_filter; case: (x _ _).
have h' a : (\row_a obs_rows x c a ord0 ^+ 2 : 'rV_k) ord0 a != 0.
  by rewrite !mxE sqrf_eq0.
have u := diag_unit h'.
have pS : Rlt 0 (\det (diag_mx (\row_a obs_rows x c a ord0 ^+ 2))).
  rewrite det_diag; elim/big_ind: _ => [|a b pa pb|i _]; [exact: Rlt_0_1|exact: mul_pos|].
  by apply/RltP; rewrite lt_def h' !mxE sqr_ge0.
rewrite -(gauss_padded u pS) /logpdf_nan_diag logpdf_diagE.
  rewrite !collect_restE value_rows; congr (gauss _ _ _); apply/matrixP => i j.
  rewrite /padded CpE PdPdT [in RHS]mxE Pd_conj [X in _ = _ + X]mxE ![in LHS]mxE sorted_flagE.
  rewrite [X in _ = _ + _ * X]mxE [X in _ = _ + _ * (X + _)]mxE [X in _ = _ + _ * (_ + X)]mxE.
  rewrite [X in _ = _ + _ * (_ - X)]mxE.
  have [<-|ij] := eqVneq i j; rewrite ?mulr0n ?mulr1n.
    case: insubP => [a ik ai|]; last first.
      rewrite -leqNgt => ki; rewrite ki eqxx ltnNge ki /= subr0 mulr1 add0r.
      rewrite exprVn; congr (_^-1); rewrite expr2; apply: sqrt_sqrt; exact/Rlt_le/two_pi_pos.
    rewrite leqNgt ik /= eqxx /= subrr mulr0 addr0 !mxE eqxx mulr1n (argsort_lt ik).
    by congr (c (sel _) _ ^+ 2); apply: val_inj.
  have e : (i == j :> nat) = false by apply: contraNF ij => /eqP e; apply/eqP/val_inj.
  rewrite e /= subr0 mulr0 addr0; case: insubP => // a ik ai; case: insubP => // b jk bj.
  by rewrite mxE -val_eqE ai bj e.
move=> i; rewrite mxE sorted_flagE; case: leqP => [_|ik].
  by rewrite invr_neq0 //; apply: pos_neq0; apply: sqrt_lt_R0; exact: two_pi_pos.
by rewrite (argsort_lt ik).
Qed.
End Nan.
