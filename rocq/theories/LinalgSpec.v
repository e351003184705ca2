(** Specifications for the linear algebra helpers. *)
From Coq Require Import Reals.
From mathcomp Require Import all_ssreflect all_algebra.
From Verif Require Import RStruct.
Set Implicit Arguments.
Unset Strict Implicit.
Unset Printing Implicit Defensive.
Local Open Scope ring_scope.
Import GRing.Theory.

(** What svd(A, hermitian=True) returns for a symmetric matrix: orthonormal eigenvectors and the
    absolute eigenvalues in decreasing order. *)
Definition svd_at n (A u : 'M[R]_n) (s : 'rV[R]_n) : Prop :=
  u^T *m u = 1%:M /\
  exists w : 'rV[R]_n, [/\ A = u *m diag_mx w *m u^T, (forall j, s ord0 j = `|w ord0 j|) &
                           forall i j : 'I_n, (i <= j)%N -> s ord0 j <= s ord0 i].
Definition eigenvalue_of n (A : 'M[R]_n) (w : R) : Prop := exists v : 'cV[R]_n, v != 0 /\ A *m v = w *: v.
(** the matrix with upper left block [B] and zeros elsewhere *)
Definition zero_padded n k (B : 'M[R]_k) : 'M[R]_n :=
  \matrix_(i, j) (if insub (i : nat) is Some a then if insub (j : nat) is Some b then B a b else 0 else 0).
