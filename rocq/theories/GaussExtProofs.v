(** Proofs about the one-dimensional special-value models. *)
From Coq Require Import Reals Lra.
From mathcomp Require Import all_ssreflect all_algebra.
From Verif Require Import RStruct MxBase Ext KalmanModel GaussSpec MvnProofs KalmanProofs FilterOp MvnExt MvnExtProofs GaussExt.
Set Implicit Arguments.
Unset Strict Implicit.
Unset Printing Implicit Defensive.
Import GRing.Theory.

Section Op1.
Variable tria : forall m k : nat, 'M[R]_(m, k) -> 'M[R]_m.
Hypothesis tria_spec : tria_ok tria.
Local Open Scope ring_scope.
Lemma mx11 (A : 'M[R]_1) : A = (ent A)%:M.
Proof. by rewrite [LHS]mx11_scalar. Qed.
Lemma ent_mul (A B : 'M[R]_1) : ent (A *m B) = ent A * ent B.
Proof. by rewrite [A]mx11 [B]mx11 -scalar_mxM /ent !mxE. Qed.
Lemma entD (A B : 'M[R]_1) : ent (A + B) = ent A + ent B. Proof. by rewrite /ent mxE. Qed.
Lemma entN (A : 'M[R]_1) : ent (- A) = - ent A. Proof. by rewrite /ent mxE. Qed.
Lemma entT (A : 'M[R]_1) : ent (A^T) = ent A. Proof. by rewrite /ent mxE. Qed.
Lemma ent1 : ent 1%:M = 1. Proof. by rewrite /ent mxE. Qed.
Lemma ent_inv (A : 'M[R]_1) : ent (invmx A) = (ent A)^-1.
Proof. by rewrite [A]mx11 invmx_scalar /ent !mxE. Qed.
Lemma ent_ltri (A : 'M[R]_1) : ltri A = A.
Proof. by apply/matrixP => i j; rewrite !ord1 mxE. Qed.
Lemma ent_det (A : 'M[R]_1) : \det A = ent A. Proof. by rewrite det_mx11. Qed.

Section Block.
Variables (U Z : 'M[R]_1).
Let T := tria (block_mx (U^T *m Z) 1%:M Z 0).
Lemma op1_xi11 : ent (ulsubmx T) * ent (ulsubmx T) = 1 + (ent U * ent Z) ^+ 2.
Proof.
have [_ e] := tria_spec (block_mx (U^T *m Z) 1%:M Z 0) (leqnn _).
have := congr1 ulsubmx e; rewrite -/T -{1 2}[T]submxK !tr_block_mx !mulmx_block !block_mxKul.
have [/trig_sub [-> _ _] _] := tria_spec (block_mx (U^T *m Z) 1%:M Z 0) (leqnn _).
rewrite mul0mx addr0 => /(congr1 ent); rewrite !(ent_mul, entD, entT) ent1.
by move=> ->; rewrite expr2; toR; ring.
Qed.
Lemma op1_xi11_neq0 : ent (ulsubmx T) <> R0.
Proof.
move=> e; have := op1_xi11; rewrite e expr2; move: (ent U) (ent Z) => u z; toR => h.
by have := Rle_0_sqr (Rmult u z); rewrite /Rsqr; change R0 with (IZR 0) in h; lra.
Qed.
Lemma op1_xi21 : ent (dlsubmx T) * ent (ulsubmx T) = ent U * ent Z ^+ 2.
Proof.
have [_ e] := tria_spec (block_mx (U^T *m Z) 1%:M Z 0) (leqnn _).
have := congr1 dlsubmx e; rewrite -/T -{1 2}[T]submxK !tr_block_mx !mulmx_block !block_mxKdl.
have [/trig_sub [-> _ _] _] := tria_spec (block_mx (U^T *m Z) 1%:M Z 0) (leqnn _).
rewrite trmx0 mulmx0 addr0 mul0mx addr0 => /(congr1 ent); rewrite !(ent_mul, entD, entT).
by move=> ->; rewrite expr2; toR; ring.
Qed.
Lemma op1_D : Rlt 0 (Rminus 1 (Rmult (Rdiv (ent U) (ent (ulsubmx T))) (ent (dlsubmx T)))).
Proof.
have := op1_xi11; have := op1_xi21; have := op1_xi11_neq0; rewrite !expr2.
move: (ent (ulsubmx T)) (ent (dlsubmx T)) (ent U) (ent Z) => x11 x21 u z n; toR => e1 e2.
have h : Rmult (Rminus (IZR 1) (Rmult (Rdiv u x11) x21)) (Rmult x11 x11) = IZR 1.
  have -> : Rmult (Rminus (IZR 1) (Rmult (Rdiv u x11) x21)) (Rmult x11 x11)
          = Rminus (Rmult x11 x11) (Rmult u (Rmult x21 x11)) by field; exact: n.
  by rewrite e1 e2; ring.
by nra.
Qed.
End Block.

(** with an invertible factor the operator's value is finite and the one of the real model *)
Lemma operator_ell_fin e1 e2 : ent (fU e1) <> R0 ->
  operator_ell_ext tria e1 e2 (Fin (fell e1)) (Fin (fell e2)) = Fin (fell (filtering_operator tria e1 e2)).
Proof.
case: e1 e2 => A1 b1 U1 h1 Z1 l1 [A2 b2 U2 h2 Z2 l2]; rewrite [fU _]/= => nU.
rewrite [fell (filtering_operator _ _ _)]/= [fell _]/= [fell (MkFSE _ _ _ _ _ l2)]/=.
have nx := @op1_xi11_neq0 U1 Z2; have pD := @op1_D U1 Z2.
rewrite /operator_ell_ext; set T := tria _ in nx pD *.
have n0 (x : R) : x <> R0 -> x != 0 by move=> h; apply/eqP.
have D0 : 1%:M - (solve_lower (ulsubmx T) U1^T)^T *m (dlsubmx T)^T
  = (Rminus 1 (Rmult (Rdiv (ent U1) (ent (ulsubmx T))) (ent (dlsubmx T))))%:M.
  rewrite [LHS]mx11; congr (_%:M); rewrite !(entD, entN, ent_mul, entT) ent1 /solve_lower ent_ltri.
  by rewrite ?ent_mul ent_inv ?entT RinvE ?n0 //; toR; rewrite /Rdiv; ring.
rewrite D0; move: pD D0; set D := Rminus _ _ => pD _.
rewrite (ediv_nz _ _ nx) (ediv_nz _ _ nU) (ediv_nz _ _ nU).
rewrite -[esub (Fin R1) _]/(Fin D) /half ediv_nz; last by apply: not_0_IZR.
rewrite /= /dot -!/(ent _) !(ent_mul, entD, entT) /cho_solve !ent_ltri !(ent_mul, ent_inv, entT) (RinvE (n0 _ nU)).
rewrite det_mx11 mxE eqxx mulr1n RnormE Rabs_right; last by apply: Rle_ge; apply: Rlt_le.
case: Rlt_dec => [_|//]; congr Fin.
have -> : ent D%:M = D by rewrite /ent mxE eqxx mulr1n.
by move: (ln D) => lD; toR; rewrite /Rdiv; change R1 with (IZR 1); field; exact: nU.
Qed.
(** with chol_P = 0 it is NaN, whatever the other arguments are *)
Lemma operator_ell_singular e1 e2 l1 l2 : ent (fU e1) = R0 -> operator_ell_ext tria e1 e2 l1 l2 = NaN.
Proof.
case: e1 e2 => A1 b1 U1 h1 Z1 m1 [A2 b2 U2 h2 Z2 m2]; rewrite [fU _]/= => z.
rewrite /operator_ell_ext; set T := tria _; have nx := @op1_xi11_neq0 U1 Z2; rewrite -/T in nx.
rewrite z; change R0 with (IZR 0).
move: (ent (dlsubmx T)) (ent (ulsubmx T)) nx (ent b1) (ent h2) => x21 x11 nx b h.
rewrite (ediv_nz _ _ nx) ediv_0.
have -> : Rdiv (IZR 0) x11 = IZR 0 by rewrite /Rdiv Rmult_0_l.
have e1 : esub (Fin R1) (emul (Fin (IZR 0)) (Fin x21)) = Fin (IZR 1).
  by rewrite /= Rmult_0_l Ropp_0 Rplus_0_r.
have e2 : emul (Fin (IZR 1)) (eadd (Fin b) (emul (Fin (IZR 0)) (emul (Fin (IZR 0)) (Fin h)))) = Fin b.
  by rewrite /= !Rmult_0_l Rplus_0_r Rmult_1_l.
have -> : half = Fin (Rdiv R1 (IZR 2)) by rewrite /half ediv_nz //; apply: not_0_IZR.
rewrite e1 e2; move: (emul _ (elog (eabs _))) => lg.
have n0 : forall (P : Prop), IZR 0 <> IZR 0 -> P by move=> P; case.
have [pb|[zb|nb]] := Rtotal_order (IZR 0) b.
- rewrite inf_times_pos // /ediv; case: Req_EM_T => [_|/n0]; last exact.
  by rewrite /emul !(inf_times_pos _ b pb) /=; case: (eadd l1 l2); case: lg.
- by rewrite -zb inf_times_0 /=; case: (eadd l1 l2); case: lg.
- rewrite inf_times_neg // /ediv; case: Req_EM_T => [_|/n0]; last exact.
  by rewrite /emul !(inf_times_neg _ b nb) /=; case: (eadd l1 l2); case: lg.
Qed.
End Op1.
