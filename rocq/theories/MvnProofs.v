(** Proofs about logpdf and NaN collection. *)
From Coq Require Import Reals Lra.
From mathcomp Require Import all_ssreflect all_algebra.
From Verif Require Import RStruct MxBase ZmodTac KalmanModel GaussSpec.
Set Implicit Arguments.
Unset Strict Implicit.
Unset Printing Implicit Defensive.
Local Open Scope ring_scope.
Import GRing.Theory Num.Theory Order.Theory.

Lemma ltri_trig n (A : 'M[R]_n) : is_trig_mx A -> ltri A = A.
Proof.
move=> /is_trig_mxP tA; apply/matrixP => i j; rewrite mxE; case: leqP => // ij.
by rewrite tA.
Qed.
Lemma solve_lowerE n p (A : 'M[R]_n) (B : 'M[R]_(n, p)) : is_trig_mx A -> solve_lower A B = invmx A *m B.
Proof. by move=> tA; rewrite /solve_lower ltri_trig. Qed.
Lemma cho_solveE n p (A : 'M[R]_n) (B : 'M[R]_(n, p)) : is_trig_mx A -> A \in unitmx ->
  cho_solve A B = invmx (A *m A^T) *m B.
Proof. by move=> tA uA; rewrite /cho_solve ltri_trig // invmxM ?unitmx_tr // mulmxA. Qed.

(** ** logarithms *)
Lemma pos_neq0 (x : R) : Rlt 0 x -> x != 0. Proof. by move=> h; apply/eqP => e; rewrite e in h; exact: Rlt_irrefl h. Qed.
Lemma RdivE' (x y : R) : Rlt 0 y -> x / y = Rdiv x y.
Proof. by move=> h; rewrite RdivE // pos_neq0. Qed.
Lemma two_pi_pos : Rlt 0 (2%:R * PI).
Proof. rewrite RmultE RnatE /= R0E; have := PI_RGT_0; lra. Qed.
Lemma lnM (x y : R) : Rlt 0 x -> Rlt 0 y -> ln (x * y) = ln x + ln y.
Proof. by move=> *; rewrite RmultE ln_mult. Qed.
Lemma ln1 : ln 1 = 0. Proof. exact: ln_1. Qed.
Lemma lnV (x : R) : Rlt 0 x -> ln (x^-1) = - ln x.
Proof. by move=> h; rewrite RinvE ?pos_neq0 // ln_Rinv. Qed.
Lemma mul_pos (x y : R) : Rlt 0 x -> Rlt 0 y -> Rlt 0 (x * y).
Proof. by move=> *; apply: Rmult_lt_0_compat. Qed.
Lemma inv_pos (x : R) : Rlt 0 x -> Rlt 0 (x^-1).
Proof. by move=> h; rewrite RinvE ?pos_neq0 //; apply: Rinv_0_lt_compat. Qed.
Lemma expr_pos (x : R) n : Rlt 0 x -> Rlt 0 (x ^+ n).
Proof. by move=> h; elim: n => [|n IH]; [rewrite expr0; exact: Rlt_0_1|rewrite exprS; exact: mul_pos]. Qed.
Lemma ln_expr (x : R) n : Rlt 0 x -> ln (x ^+ n) = n%:R * ln x.
Proof.
move=> h; elim: n => [|n IH]; first by rewrite expr0 ln1 mul0r.
by rewrite exprS lnM // ?IH; [rewrite -{1}[ln x]mul1r -mulrDl -mulrS|exact: expr_pos].
Qed.
Lemma ln_prod (I : Type) (r : seq I) (f : I -> R) : (forall i, Rlt 0 (f i)) ->
  Rlt 0 (\prod_(i <- r) f i) /\ ln (\prod_(i <- r) f i) = \sum_(i <- r) ln (f i).
Proof.
move=> h; elim: r => [|a r [p IH]]; first by rewrite !big_nil ln1; split=> //; exact: Rlt_0_1.
by rewrite !big_cons; split; [exact: mul_pos|rewrite lnM // IH].
Qed.
Lemma norm_pos (x : R) : x != 0 -> Rlt 0 `|x|.
Proof. by move=> /eqP; exact: Rabs_pos_lt. Qed.
Lemma half2 (x : R) : 2%:R^-1 * (2%:R * x) = x.
Proof. by rewrite mulKf // pnatr_eq0. Qed.
Lemma ln_sqr (x : R) : x != 0 -> 2%:R^-1 * ln (x ^+ 2) = ln `|x|.
Proof.
move=> h; have -> : x ^+ 2 = `|x| ^+ 2 by rewrite real_normK ?num_real.
by rewrite ln_expr ?half2 //; exact: norm_pos.
Qed.

Lemma ln_det_gram n (L : 'M[R]_n) : is_trig_mx L -> L \in unitmx ->
  2%:R^-1 * ln (\det (cov L)) = \sum_i ln `|L i i|.
Proof.
move=> tL uL; rewrite /cov det_mulmx det_tr -expr2 ln_sqr; last by rewrite -unitfE -unitmxE.
rewrite det_trig // normr_prod; apply: (proj2 (ln_prod _ _)) => i; apply: norm_pos.
by move: uL; rewrite trig_unit // => /forallP.
Qed.
Lemma det_gram_pos n (L : 'M[R]_n) : L \in unitmx -> Rlt 0 (\det (cov L)).
Proof.
move=> uL; rewrite /cov det_mulmx det_tr -expr2; apply/RltP.
by rewrite lt_def sqr_ge0 sqrf_eq0 -unitfE -unitmxE uL.
Qed.

(** C39 core *)
Lemma mahalanobis_chol n (L : 'M[R]_n) v : L \in unitmx ->
  mahalanobis (cov L) v = dot (invmx L *m v) (invmx L *m v).
Proof.
move=> uL; rewrite /mahalanobis /cov /dot invmxM ?unitmx_tr // trmx_mul trmx_inv !mulmxA.
by [].
Qed.
Lemma logpdf_mxE n (x m : 'cV[R]_n) (L : 'M[R]_n) : is_trig_mx L -> L \in unitmx ->
  logpdf_mx x m L = gauss x m (cov L).
Proof.
move=> tL uL; rewrite /logpdf_mx /gauss ln_det_gram // mahalanobis_chol // solve_lowerE //.
Qed.

(** ** sorting the flagged coordinates last *)
Section Collect.
Variables (n : nat) (y : 'cV[option R]_n).
Let flag i := isnan (y i ord0).
Let obs := observed y.
Let k := size obs.

Lemma observedE : obs = [seq j <- enum 'I_n | ~~ flag j].
Proof. by apply: eq_filter => j; rewrite /flag /isnan negbK. Qed.
Lemma size_argsort : size (argsort_seq flag) = n.
Proof.
rewrite /argsort_seq size_cat !size_filter addnC -[RHS](size_enum_ord n).
exact: (count_predC flag (enum 'I_n)).
Qed.
Lemma k_le : (k <= n)%N.
Proof. by rewrite -[X in (_ <= X)%N]size_argsort /argsort_seq size_cat -observedE leq_addr. Qed.
Lemma argsort_lt (i : 'I_n) (ik : (i < k)%N) : argsort flag i = sel (Ordinal ik).
Proof.
by rewrite /argsort /argsort_seq nth_cat -observedE ik /sel (tnth_nth i).
Qed.
Lemma sorted_flagE (i : 'I_n) : sorted_flag flag i = (k <= i)%N.
Proof.
rewrite /sorted_flag leqNgt; case: (ltnP i k) => /= ik.
  rewrite (argsort_lt ik) /flag /sel.
  have : tnth (in_tuple obs) (Ordinal ik) \in obs by exact: mem_tnth.
  by rewrite mem_filter /isnan => /andP[->].
have : argsort flag i \in [seq j <- enum 'I_n | flag j].
  rewrite /argsort /argsort_seq nth_cat -observedE ltnNge ik /=; apply: mem_nth.
  rewrite -(ltn_add2l (size obs)) subnKC //.
  by have := size_argsort; rewrite /argsort_seq size_cat -observedE => ->.
by rewrite mem_filter => /andP[].
Qed.
Definition Pd : 'M[R]_(n, k) := pid_mx k.
Lemma collect_restE p (A : 'M[R]_(n, p)) : collect_rest flag A = Pd *m obs_rows y A.
Proof.
apply/matrixP => i j; rewrite !mxE sorted_flagE leqNgt; case: (ltnP i k) => ik /=.
  rewrite (bigD1 (Ordinal ik)) //= big1 ?addr0.
    by rewrite !mxE /= eqxx ik mul1r (argsort_lt ik).
  move=> a /eqP ai; rewrite !mxE; case: eqP => [e|_]; last by rewrite mul0r.
  by case: ai; apply: val_inj; rewrite /= -e.
by rewrite big1 // => a _; rewrite !mxE; case: eqP => [e|_]; rewrite ?mul0r // ltnNge ik /= mul0r.
Qed.
Lemma PdTPd : Pd^T *m Pd = 1%:M.
Proof. by rewrite /Pd tr_pid_mx pid_mx_id ?k_le // pid_mx_1. Qed.
Lemma PdPdT : Pd *m Pd^T = pid_mx k.
Proof. by rewrite /Pd tr_pid_mx pid_mx_id. Qed.
Definition Cp : 'M[R]_n := copid_mx k.
Lemma CpE : Cp = 1%:M - Pd *m Pd^T. Proof. by rewrite PdPdT. Qed.
Lemma CpT : Cp^T = Cp. Proof. by rewrite CpE linearB /= trmx1 trmx_mul trmxK. Qed.
Lemma CpPd : Cp *m Pd = 0.
Proof. by rewrite CpE mulmxBl mul1mx -mulmxA PdTPd mulmx1 subrr. Qed.
Lemma PdTCp : Pd^T *m Cp = 0.
Proof. by rewrite -CpT -trmx_mul CpPd trmx0. Qed.
Lemma CpCp : Cp *m Cp = Cp.
Proof. by rewrite {1}CpE mulmxBl mul1mx -mulmxA PdTCp mulmx0 subr0. Qed.
Lemma value_rows : obs_rows y (map_mx value y) = obs_values y.
Proof. by apply/matrixP => i j; rewrite !mxE ord1. Qed.

Variable tria : forall m l : nat, 'M[R]_(m, l) -> 'M[R]_m.
Hypothesis tria_spec : tria_ok tria.
Lemma collect_nansE (L : 'M[R]_n) :
  is_trig_mx (collect_nans_chol tria flag L) /\
  cov (collect_nans_chol tria flag L)
  = Pd *m obs_block y (cov L) *m Pd^T + (2%:R * PI)^-1 *: Cp.
Proof.
rewrite /collect_nans_chol.
have -> : \matrix_(i, j) (\matrix_(i, j) (if flag i then 0 else L i j) : 'M[R]_n) (argsort flag i) j
  = collect_rest flag L by apply/matrixP => i j; rewrite !mxE.
rewrite collect_restE; set A := Pd *m _.
have [tT eT] := tria_spec A (leqnn n); set T := tria A in tT eT *.
set X := \matrix_(i, j) _; set s := (sqrt (2%:R * PI))^-1.
have eA : A *m A^T = Pd *m obs_block y (cov L) *m Pd^T.
  rewrite /A trmx_mul -!mulmxA; congr (_ *m _); rewrite mulmxA; congr (_ *m _).
  by rewrite /obs_block /cov mxsub_mul; congr (_ *m _); apply/matrixP => i j; rewrite !mxE.
have rowT (i : 'I_n) : (k <= i)%N -> row i T = 0.
  move=> ki; apply: gram_row0; rewrite eT /A !mxE big1 // => j _.
  suff -> : (Pd *m obs_rows y L) i j = 0 by rewrite mul0r.
  rewrite -collect_restE mxE sorted_flagE ki //.
have eX : X = T + s *: Cp.
  apply/matrixP => i j; rewrite !mxE sorted_flagE; have [<-|ij] := eqVneq i j.
    rewrite /= eqxx /=; case: (ltnP i k) => ik /=; first by rewrite subrr mulr0 addr0.
    by have /rowP/(_ i) := rowT i ik; rewrite !mxE => ->; rewrite add0r subr0 mulr1.
  have -> : (i == j :> nat) = false by apply: contraNF ij => /eqP e; apply/eqP/val_inj.
  by rewrite /= subr0 mulr0 addr0.
have TC : T *m Cp = 0.
  apply/matrixP => i j; rewrite !mxE big1 // => l _; rewrite !mxE.
  have [ki|ik] := leqP k i; first by have /rowP/(_ l) := rowT i ki; rewrite !mxE => ->; rewrite mul0r.
  case: (ltnP i l) => il; first by move/is_trig_mxP: tT => ->; rewrite ?mul0r.
  have lk : (l < k)%N by exact: leq_ltn_trans il ik.
  have [<-|lj] := eqVneq l j; first by rewrite eqxx lk /= subrr mulr0.
  have -> : (l == j :> nat) = false by apply: contraNF lj => /eqP e; apply/eqP/val_inj.
  by rewrite /= subrr mulr0.
split.
  rewrite eX; apply/is_trig_mxP => i j ij; rewrite !mxE; move/is_trig_mxP: tT => -> //.
  have -> : (i == j) = false by apply: contraTF ij => /eqP ->; rewrite ltnn.
  have -> : (i == j :> nat) = false by apply: contraTF ij => /eqP ->; rewrite ltnn.
  by rewrite /= subrr mulr0 addr0.
have CT : Cp *m T^T = 0 by rewrite -CpT -trmx_mul TC trmx0.
have eXT : X^T = T^T + s *: Cp by rewrite eX linearD /= linearZ /= CpT.
rewrite /cov eXT eX mulmxDl !mulmxDr -!scalemxAl -!scalemxAr TC CT CpCp eT eA.
rewrite !scaler0 addr0 add0r scalerA; congr (_ + _ *: _).
have q : Rlt 0 (sqrt (2%:R * PI)) by apply: sqrt_lt_R0; exact: two_pi_pos.
rewrite /s -invfM; congr (_^-1); apply: sqrt_sqrt; exact/Rlt_le/two_pi_pos.
Qed.

(** inverse, determinant and density of the padded covariance *)
Variable S : 'M[R]_k.
Hypothesis uS : S \in unitmx.
Hypothesis pS : Rlt 0 (\det S).
Let s2 : R := (2%:R * PI)^-1.
Definition padded : 'M[R]_n := Pd *m S *m Pd^T + s2 *: Cp.
Lemma s2_neq0 : s2 != 0. Proof. exact/pos_neq0/inv_pos/two_pi_pos. Qed.
Lemma padded_inv : padded *m (Pd *m invmx S *m Pd^T + s2^-1 *: Cp) = 1%:M.
Proof.
rewrite /padded mulmxDl !mulmxDr -!scalemxAl -!scalemxAr.
rewrite -!(mulmxA (Pd *m _)) (mulmxA Pd^T) (mulmxA Pd^T Pd) PdTPd mul1mx PdTCp.
rewrite (mulmxA Cp) (mulmxA Cp) CpPd !mul0mx !mulmx0 !scaler0 addr0 add0r.
rewrite -mulmxA (mulmxA S) mulmxV // mul1mx CpCp scalerA divff ?s2_neq0 // scale1r.
by rewrite CpE addrC subrK.
Qed.
Lemma padded_unit : padded \in unitmx. Proof. by have [] := mulmx1_unit padded_inv. Qed.
Lemma invmx_padded : invmx padded = Pd *m invmx S *m Pd^T + s2^-1 *: Cp.
Proof. exact: invmx_uniq padded_inv. Qed.
Lemma invmx_padded_Pd p (B : 'M[R]_(k, p)) : invmx padded *m (Pd *m B) = Pd *m (invmx S *m B).
Proof.
rewrite invmx_padded mulmxDl -!scalemxAl (mulmxA Cp) CpPd mul0mx scaler0 addr0.
by rewrite -!mulmxA (mulmxA Pd^T) PdTPd mul1mx.
Qed.
Lemma det_padded : \det padded = s2 ^+ (n - k) * \det S.
Proof.
have e : padded = s2 *: (1%:M + Pd *m ((s2^-1 *: S - 1%:M) *m Pd^T)).
  rewrite /padded CpE scalerBr scalerDr mulmxBl mul1mx mulmxBr scalerBr.
  rewrite -!scalemxAl -scalemxAr scalerA divff ?s2_neq0 // scale1r mulmxA.
  by rewrite addrCA.
rewrite e detZ sylvester -mulmxA PdTPd mulmx1 addrC subrK detZ mulrA; congr (_ * _).
have -> : s2 ^+ n = s2 ^+ (n - k) * s2 ^+ k by rewrite -exprD subnK // k_le.
by rewrite (exprVn s2 k) mulfK // expf_neq0 // s2_neq0.
Qed.
Lemma gauss_padded (a b : 'cV[R]_k) : gauss (Pd *m a) (Pd *m b) padded = gauss a b S.
Proof.
rewrite /gauss det_padded (lnM _ pS); last by apply: expr_pos; exact/inv_pos/two_pi_pos.
rewrite ln_expr; last exact/inv_pos/two_pi_pos.
rewrite lnV; last exact: two_pi_pos.
rewrite -mulmxBr /mahalanobis -mulmxA invmx_padded_Pd trmx_mul -!mulmxA (mulmxA Pd^T) PdTPd mul1mx.
rewrite mulmxA -!addrA; congr (_ + _).
rewrite mulrDr opprD addrA; congr (_ - _).
have -> : n%:R = (n - k)%:R + k%:R :> R by rewrite -natrD subnK // k_le.
rewrite mulrN mulrN opprK.
by move: (ln _) => l; toR; field.
Qed.
End Collect.

(** no NaN: nothing is moved *)
Lemma argsort_none n (flag : 'I_n -> bool) : (forall i, flag i = false) -> forall i, argsort flag i = i.
Proof.
move=> h i; rewrite /argsort /argsort_seq.
have -> : [seq j <- enum 'I_n | ~~ flag j] = enum 'I_n.
  by apply/all_filterP/allP => j _; rewrite h.
by rewrite nth_cat size_enum_ord ltn_ord nth_ord_enum.
Qed.
Lemma collect_rest_none n p (flag : 'I_n -> bool) (A : 'M[R]_(n, p)) :
  (forall i, flag i = false) -> collect_rest flag A = A.
Proof.
by move=> h; apply/matrixP => i j; rewrite mxE /sorted_flag h argsort_none.
Qed.
