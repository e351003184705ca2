(** Matrix lemmas used by the Gaussian proofs (no model content). *)
From mathcomp Require Import all_ssreflect all_algebra.
Set Implicit Arguments.
Unset Strict Implicit.
Unset Printing Implicit Defensive.
Local Open Scope ring_scope.
Import GRing.Theory Num.Theory Order.Theory.

Section Field.
Variable F : fieldType.

Lemma invmx_uniq n (A B : 'M[F]_n) : A *m B = 1%:M -> invmx A = B.
Proof.
by move=> h; have [uA _] := mulmx1_unit h; rewrite -[RHS](mulKmx uA) h mulmx1.
Qed.
Lemma invmx_uniqV n (A B : 'M[F]_n) : B *m A = 1%:M -> invmx A = B.
Proof. by move=> /mulmx1C; exact: invmx_uniq. Qed.
Lemma invmxM n (A B : 'M[F]_n) : A \in unitmx -> B \in unitmx ->
  invmx (A *m B) = invmx B *m invmx A.
Proof. by move=> uA uB; apply: invmx_uniq; rewrite -mulmxA (mulmxA B) mulmxV // mul1mx mulmxV. Qed.

Lemma sylvester m n (A : 'M[F]_(m, n)) (B : 'M[F]_(n, m)) :
  \det (1%:M + A *m B) = \det (1%:M + B *m A).
Proof.
pose X := block_mx 1%:M (- A) B 1%:M.
have e1 : X *m block_mx 1%:M A 0 1%:M = block_mx 1%:M 0 B (1%:M + B *m A).
  by rewrite /X mulmx_block !mulmx1 !mulmx0 !mul1mx !addr0 subrr addrC.
have e2 : X *m block_mx 1%:M 0 (- B) 1%:M = block_mx (1%:M + A *m B) (- A) 0 1%:M.
  by rewrite /X mulmx_block !mulmx1 !mulmx0 !mul1mx mulmxN mulNmx opprK !add0r subrr.
have d1 : \det X = \det (1%:M + B *m A).
  have := congr1 (@determinant _ _) e1.
  by rewrite det_mulmx det_ublock det_lblock !det1 !mul1r mulr1.
have d2 : \det X = \det (1%:M + A *m B).
  have := congr1 (@determinant _ _) e2.
  by rewrite det_mulmx det_ublock det_lblock !det1 !mulr1.
by rewrite -d1 -d2.
Qed.

Lemma unit_sylvester m n (A : 'M[F]_(m, n)) (B : 'M[F]_(n, m)) :
  (1%:M + A *m B \in unitmx) = (1%:M + B *m A \in unitmx).
Proof. by rewrite !unitmxE sylvester. Qed.

Lemma push_through m n (A : 'M[F]_(m, n)) (B : 'M[F]_(n, m)) :
  1%:M + A *m B \in unitmx -> invmx (1%:M + A *m B) *m A = A *m invmx (1%:M + B *m A).
Proof.
move=> u; have u' : 1%:M + B *m A \in unitmx by rewrite -unit_sylvester.
apply: (canRL (mulmxK u')); rewrite -mulmxA.
have -> : A *m (1%:M + B *m A) = (1%:M + A *m B) *m A.
  by rewrite mulmxDr mulmxDl mulmx1 mul1mx mulmxA.
by rewrite mulKmx.
Qed.

(** triangular matrices *)
Lemma trig_sub m n (A : 'M[F]_(m + n)) : is_trig_mx A ->
  [/\ ursubmx A = 0, is_trig_mx (ulsubmx A) & is_trig_mx (drsubmx A)].
Proof.
by rewrite -{1}[A]submxK is_trig_block_mx // => /and3P[/eqP].
Qed.
Lemma trig_unit n (A : 'M[F]_n) : is_trig_mx A -> (A \in unitmx) = [forall i, A i i != 0].
Proof.
move=> tA; rewrite unitmxE det_trig // unitfE; apply/prodf_neq0/forallP => h i //.
  exact: h.
Qed.
Lemma trig_mulmx n (A B : 'M[F]_n) : is_trig_mx A -> is_trig_mx B -> is_trig_mx (A *m B).
Proof.
move=> /is_trig_mxP tA /is_trig_mxP tB; apply/is_trig_mxP => i j ij.
rewrite mxE big1 // => k _; have [ik|ki] := ltnP i k; first by rewrite tA ?mul0r.
by rewrite tB ?mulr0 //; exact: leq_ltn_trans ki ij.
Qed.

End Field.

Section Real.
Variable F : realFieldType.

(** squared norm and quadratic forms *)
Definition sqn n (v : 'cV[F]_n) : F := (v^T *m v) ord0 ord0.
Definition qf n (A : 'M[F]_n) (v : 'cV[F]_n) : F := (v^T *m A *m v) ord0 ord0.
Definition psd n (A : 'M[F]_n) : Prop := A^T = A /\ forall v, 0 <= qf A v.
Definition pd n (A : 'M[F]_n) : Prop := A^T = A /\ forall v, v != 0 -> 0 < qf A v.

Lemma sqnE n (v : 'cV[F]_n) : sqn v = \sum_i v i ord0 ^+ 2.
Proof. by rewrite /sqn mxE; apply: eq_bigr => i _; rewrite mxE expr2. Qed.
Lemma sqn_ge0 n (v : 'cV[F]_n) : 0 <= sqn v.
Proof. by rewrite sqnE sumr_ge0 // => i _; exact: sqr_ge0. Qed.
Lemma sqn_eq0 n (v : 'cV[F]_n) : (sqn v == 0) = (v == 0).
Proof.
rewrite sqnE psumr_eq0; last by move=> i _; exact: sqr_ge0.
apply/allP/eqP => [h|-> i _]; last by rewrite mxE expr0n /= eqxx.
apply/matrixP => i j; rewrite ord1 mxE.
have := h i (mem_index_enum i); rewrite /= sqrf_eq0 => /eqP //.
Qed.
Lemma qf_gram n k (A : 'M[F]_(n, k)) v : qf (A *m A^T) v = sqn (A^T *m v).
Proof. by rewrite /qf /sqn trmx_mul trmxK !mulmxA. Qed.
Lemma qfD n (A B : 'M[F]_n) v : qf (A + B) v = qf A v + qf B v.
Proof. by rewrite /qf mulmxDr mulmxDl mxE. Qed.
Lemma qf1 n (v : 'cV[F]_n) : qf 1%:M v = sqn v.
Proof. by rewrite /qf mulmx1. Qed.

Lemma gram_psd n k (A : 'M[F]_(n, k)) : psd (A *m A^T).
Proof. by split=> [|v]; [rewrite trmx_mul trmxK|rewrite qf_gram sqn_ge0]. Qed.
Lemma psdD n (A B : 'M[F]_n) : psd A -> psd B -> psd (A + B).
Proof.
by move=> [sA pA] [sB pB]; split=> [|v]; [rewrite linearD /= sA sB|rewrite qfD addr_ge0].
Qed.
Lemma pdD n (A B : 'M[F]_n) : pd A -> psd B -> pd (A + B).
Proof.
move=> [sA pA] [sB pB]; split=> [|v v0]; first by rewrite linearD /= sA sB.
by rewrite qfD ltr_paddr // pA.
Qed.
Lemma pdDr n (A B : 'M[F]_n) : psd A -> pd B -> pd (A + B).
Proof. by move=> pA pB; rewrite addrC; apply: pdD. Qed.
Lemma pd1 n : pd (1%:M : 'M[F]_n).
Proof. by split=> [|v v0]; [rewrite trmx1|rewrite qf1 lt_def sqn_ge0 sqn_eq0 v0]. Qed.
Lemma pd_psd n (A : 'M[F]_n) : pd A -> psd A.
Proof.
move=> [sA pA]; split=> // v; have [->|v0] := eqVneq v 0; last exact/ltW/pA.
by rewrite /qf mulmx0 mxE.
Qed.
Lemma unit_inj n (A : 'M[F]_n) : (forall v : 'cV[F]_n, A *m v = 0 -> v = 0) -> A \in unitmx.
Proof.
move=> h; rewrite -unitmx_tr -row_free_unit -kermx_eq0.
apply/eqP/row_matrixP => i; rewrite row0.
apply: trmx_inj; rewrite trmx0; apply: h.
by rewrite -[A]trmxK -trmx_mul trmxK -row_mul mulmx_ker row0 trmx0.
Qed.
Lemma pd_unit n (A : 'M[F]_n) : pd A -> A \in unitmx.
Proof.
move=> [_ pA]; apply: unit_inj => v Av; apply/eqP; apply: contraT => /pA.
by rewrite /qf -mulmxA Av mulmx0 mxE ltxx.
Qed.
Lemma unit_pd n (A : 'M[F]_n) : A \in unitmx -> pd (A *m A^T).
Proof.
move=> uA; split=> [|v v0]; first by rewrite trmx_mul trmxK.
rewrite qf_gram lt_def sqn_ge0 andbT sqn_eq0; apply: contraNneq v0 => h.
have u' : A^T \in unitmx by rewrite unitmx_tr.
by rewrite -[v](mulKmx u') h mulmx0.
Qed.
Lemma gram_unit n (A : 'M[F]_n) : (A *m A^T \in unitmx) = (A \in unitmx).
Proof. by rewrite unitmx_mul unitmx_tr andbb. Qed.
Lemma gram_pd n k (A : 'M[F]_(n, k)) : A *m A^T \in unitmx -> pd (A *m A^T).
Proof.
move=> uA; split=> [|v v0]; first by rewrite trmx_mul trmxK.
rewrite qf_gram lt_def sqn_ge0 andbT sqn_eq0; apply: contraNneq v0 => h.
by rewrite -[v](mulKmx uA) -mulmxA h !mulmx0.
Qed.
Lemma psd_conj n k (A : 'M[F]_(n, k)) (P : 'M[F]_k) : psd P -> psd (A *m P *m A^T).
Proof.
move=> [sP pP]; split=> [|v]; first by rewrite !trmx_mul trmxK sP mulmxA.
suff -> : qf (A *m P *m A^T) v = qf P (A^T *m v) by exact: pP.
by rewrite /qf trmx_mul trmxK !mulmxA.
Qed.
Lemma gram_eq0 n k (A : 'M[F]_(n, k)) : A *m A^T = 0 -> A = 0.
Proof.
move=> h; apply: trmx_inj; rewrite trmx0; apply/matrixP => i j; rewrite !mxE.
have : qf (A *m A^T) (delta_mx j 0) = 0 by rewrite h /qf mulmx0 mul0mx mxE.
rewrite qf_gram => /eqP; rewrite sqn_eq0 -colE => /eqP/matrixP/(_ i ord0).
by rewrite !mxE.
Qed.
Lemma gram_row0 n k (A : 'M[F]_(n, k)) i : (A *m A^T) i i = 0 -> row i A = 0.
Proof.
move=> h; apply: gram_eq0; apply/matrixP => a b; rewrite !ord1 -row_mul.
rewrite !mxE in h *; rewrite -[RHS]h.
by apply: eq_bigr => j _; rewrite !mxE.
Qed.

(** [I + C J] is invertible for covariance-like [C], [J]. *)
Lemma unit_1CJ n (C J : 'M[F]_n) k (U : 'M[F]_(n, k)) : C = U *m U^T -> psd J -> 1%:M + C *m J \in unitmx.
Proof.
move=> -> pJ; rewrite -mulmxA unit_sylvester; apply: pd_unit; apply: pdD; first exact: pd1.
by have := psd_conj U^T pJ; rewrite trmxK -!mulmxA.
Qed.

(** Block triangular factorisation: what the blocks of a triangular square root of [X X^T] are. *)
Lemma block_factor m n k (X : 'M[F]_(m + n, k)) (T : 'M[F]_(m + n)) (S : 'M[F]_m) (B : 'M[F]_(n, m)) (P : 'M[F]_n) :
  is_trig_mx T -> T *m T^T = X *m X^T -> X *m X^T = block_mx S B^T B P ->
  [/\ ulsubmx T *m (ulsubmx T)^T = S,
      dlsubmx T *m (ulsubmx T)^T = B &
      dlsubmx T *m (dlsubmx T)^T + drsubmx T *m (drsubmx T)^T = P].
Proof.
move=> tT e1 e2; have [ur _ _] := trig_sub tT.
move: e1; rewrite e2 -{1 2}[T]submxK ur tr_block_mx mulmx_block !trmx0 !mulmx0 !mul0mx !addr0.
by move=> /eq_block_mx[].
Qed.
Lemma block_factor_unit m n (T : 'M[F]_(m + n)) (S : 'M[F]_m) (B : 'M[F]_(n, m)) (P : 'M[F]_n) :
  ulsubmx T *m (ulsubmx T)^T = S ->
  dlsubmx T *m (ulsubmx T)^T = B ->
  dlsubmx T *m (dlsubmx T)^T + drsubmx T *m (drsubmx T)^T = P -> S \in unitmx ->
  [/\ ulsubmx T \in unitmx,
      dlsubmx T *m invmx (ulsubmx T) = B *m invmx S &
      drsubmx T *m (drsubmx T)^T = P - B *m invmx S *m B^T].
Proof.
set T1 := ulsubmx T; set T2 := dlsubmx T; set T3 := drsubmx T.
move=> e1 e2 e3 uS.
have u1 : T1 \in unitmx by rewrite -gram_unit e1.
have u1' : T1^T \in unitmx by rewrite unitmx_tr.
have g : T2 *m invmx T1 = B *m invmx S.
  by rewrite -e2 -e1 invmxM // mulmxA -(mulmxA T2) mulmxV // mulmx1.
split=> //.
rewrite -g -e3 -e2 trmx_mul trmxK (mulmxA (T2 *m _)) -(mulmxA T2) mulVmx // mulmx1.
by rewrite addrC addKr.
Qed.

(** Square roots of the same matrix have the same determinant up to sign. *)
Lemma det_gram n (A B : 'M[F]_n) : A *m A^T = B *m B^T -> `|\det A| = `|\det B|.
Proof.
move=> /(congr1 (@determinant _ _)); rewrite !det_mulmx !det_tr -!expr2 => h.
by apply/eqP; rewrite -(eqr_expn2 (n := 2)) ?normr_ge0 // !real_normK ?num_real // h.
Qed.
End Real.
