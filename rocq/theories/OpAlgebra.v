(** Matrix algebra behind the filtering operator: associativity of the composition of
    (A, C, J) triples, and of the log-determinant correction.  No model definitions. *)
From mathcomp Require Import all_ssreflect all_algebra.
From Verif Require Import MxBase ZmodTac.
Set Implicit Arguments.
Unset Strict Implicit.
Unset Printing Implicit Defensive.
Local Open Scope ring_scope.
Import GRing.Theory.

Section Assoc.
Variables (F : fieldType) (n : nat).
Implicit Types A C J D : 'M[F]_n.
Variables A1 C1 J1 A2 C2 J2 A3 C3 J3 : 'M[F]_n.
Hypotheses (sC1 : C1^T = C1) (sC2 : C2^T = C2) (sJ2 : J2^T = J2) (sJ3 : J3^T = J3).
Variables D12 D23 : 'M[F]_n.
Hypotheses (d12 : D12 *m (1%:M + C1 *m J2) = 1%:M) (d23 : D23 *m (1%:M + C2 *m J3) = 1%:M).
Variables C12 J23 E G : 'M[F]_n.
Hypothesis C12E : C12 = A2 *m D12 *m C1 *m A2^T + C2.
Hypothesis J23E : J23 = A2^T *m J3 *m D23 *m A2 + J2.
Hypotheses (eE : E *m (1%:M + C12 *m J3) = 1%:M) (gE : G *m (1%:M + C1 *m J23) = 1%:M).

Lemma key : E *m A2 *m D12 = D23 *m A2 *m G.
Proof.
have d23' := mulmx1C d23; have gE' := mulmx1C gE.
have h : (1%:M + C12 *m J3) *m (D23 *m A2) = A2 *m D12 *m (1%:M + C1 *m J23).
  have -> : 1%:M + C12 *m J3 = (1%:M + C2 *m J3) + A2 *m D12 *m C1 *m A2^T *m J3.
    by rewrite C12E; mxzmod.
  have -> : 1%:M + C1 *m J23 = (1%:M + C1 *m J2) + C1 *m A2^T *m J3 *m D23 *m A2.
    by rewrite J23E; mxzmod.
  rewrite mulmxDl mulmxDr mulmxA d23' mul1mx -(mulmxA A2 D12 (_ + _)) d12 mulmx1.
  by rewrite !mulmxA.
have h2 : E *m ((1%:M + C12 *m J3) *m (D23 *m A2)) *m G = E *m (A2 *m D12 *m (1%:M + C1 *m J23)) *m G.
  by rewrite h.
by move: h2; rewrite !mulmxA eE mul1mx -(mulmxA _ (1%:M + C1 *m J23) G) gE' mulmx1.
Qed.
(** transposes of the inverses *)
Lemma DT (C J D : 'M[F]_n) : C^T = C -> J^T = J -> D *m (1%:M + C *m J) = 1%:M -> D^T = 1%:M - J *m D *m C.
Proof.
move=> sC sJ h; have h' : (1%:M + J *m C) *m D^T = 1%:M.
  by have := congr1 trmx h; rewrite !trmxE sC sJ.
have h2 : (1%:M - J *m D *m C) *m (1%:M + J *m C) = 1%:M.
  have -> : (1%:M - J *m D *m C) *m (1%:M + J *m C) = 1%:M + J *m C - J *m (D *m (1%:M + C *m J)) *m C.
    by mxzmod.
  by rewrite h mulmx1; zmod.
by rewrite -[LHS]mul1mx -{1}h2 -mulmxA h' mulmx1.
Qed.
Lemma assocA : A3 *m E *m (A2 *m D12 *m A1) = (A3 *m D23 *m A2) *m G *m A1.
Proof. by have := congr1 (fun M => A3 *m M *m A1) key; rewrite !mulmxA. Qed.
Lemma assocC : A3 *m E *m C12 *m A3^T + C3
  = (A3 *m D23 *m A2) *m G *m C1 *m (A3 *m D23 *m A2)^T + (A3 *m D23 *m C2 *m A3^T + C3).
Proof.
have t : D23^T = 1%:M - J3 *m D23 *m C2 := DT sC2 sJ3 d23.
have k1 : D23 *m A2 *m G *m C1 *m A2^T *m J3 *m D23 *m C2 = D23 *m C2 - E *m C2.
  rewrite -key.
  have -> : E *m A2 *m D12 *m C1 *m A2^T *m J3 *m D23 *m C2
          = E *m ((1%:M + C12 *m J3) - (1%:M + C2 *m J3)) *m D23 *m C2.
    by rewrite C12E; mxzmod.
  rewrite mulmxBr !mulmxBl eE -(mulmxA E) (mulmx1C d23) mulmx1 mul1mx //.
have k2 : E *m C12 = D23 *m A2 *m G *m C1 *m A2^T *m D23^T + D23 *m C2.
  rewrite t mulmxBr mulmx1 !mulmxA k1 C12E mulmxDr !mulmxA key.
  by zmod.
rewrite -(mulmxA A3) k2 !trmxE; mxzmod.
Qed.
Lemma assocJ : (A2 *m D12 *m A1)^T *m J3 *m E *m (A2 *m D12 *m A1) + (A1^T *m J2 *m D12 *m A1 + J1)
  = A1^T *m J23 *m G *m A1 + J1.
Proof.
have t : D12^T = 1%:M - J2 *m D12 *m C1 := DT sC1 sJ2 d12.
have k1 : J2 *m D12 *m C1 *m A2^T *m J3 *m (E *m A2 *m D12) = J2 *m D12 - J2 *m G.
  rewrite key.
  have -> : J2 *m D12 *m C1 *m A2^T *m J3 *m (D23 *m A2 *m G)
    = J2 *m (D12 *m ((1%:M + C1 *m J23) - (1%:M + C1 *m J2)) *m G).
    by rewrite J23E; mxzmod.
  by rewrite (mulmxBr D12) d12 mulmxBl mul1mx -(mulmxA D12) (mulmx1C gE) mulmx1 mulmxBr.
have k2 : J23 *m G = D12^T *m A2^T *m J3 *m (E *m A2 *m D12) + J2 *m D12.
  rewrite t !mulmxBl mul1mx k1 J23E mulmxDl key !mulmxA.
  by zmod.
rewrite -(mulmxA A1^T J23) k2 !trmxE; mxzmod.
Qed.
Lemma det_cocycle : \det (1%:M + C1 *m J2) * \det (1%:M + C12 *m J3)
  = \det (1%:M + C1 *m J23) * \det (1%:M + C2 *m J3).
Proof.
have -> : 1%:M + C12 *m J3 = (1%:M + A2 *m (D12 *m C1 *m A2^T *m J3 *m D23)) *m (1%:M + C2 *m J3).
  rewrite mulmxDl mul1mx C12E.
  have -> : A2 *m (D12 *m C1 *m A2^T *m J3 *m D23) *m (1%:M + C2 *m J3)
    = A2 *m D12 *m C1 *m A2^T *m J3 *m (D23 *m (1%:M + C2 *m J3)) by rewrite !mulmxA.
  by rewrite d23; mxzmod.
have -> : 1%:M + C1 *m J23 = (1%:M + C1 *m J2) *m (1%:M + (D12 *m C1 *m A2^T *m J3 *m D23) *m A2).
  rewrite mulmxDr mulmx1 J23E !mulmxA (mulmx1C d12) mul1mx; mxzmod.
by rewrite !det_mulmx (sylvester A2) !mulrA.
Qed.
End Assoc.
