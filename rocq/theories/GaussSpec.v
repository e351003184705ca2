(** Specifications for the Gaussian part: densities, textbook conditioning formulas, observed
    coordinates.  Nothing here refers to the model definitions. *)
From Coq Require Import Reals.
From mathcomp Require Import all_ssreflect all_algebra.
From Verif Require Import RStruct.
Set Implicit Arguments.
Unset Strict Implicit.
Unset Printing Implicit Defensive.
Local Open Scope ring_scope.
Import GRing.Theory.

(** Contract of the triangularisation routine (linalg/tria.py:8-21): for wide matrices the result is
    lower triangular with the same Gram matrix. *)
Definition tria_ok (tria : forall m k : nat, 'M[R]_(m, k) -> 'M[R]_m) : Prop :=
  forall m k (A : 'M[R]_(m, k)), (m <= k)%N ->
    is_trig_mx (tria _ _ A) /\ tria _ _ A *m (tria _ _ A)^T = A *m A^T.

(** covariance represented by a factor *)
Definition cov m k (L : 'M[R]_(m, k)) : 'M[R]_m := L *m L^T.

(** Mahalanobis form and Gaussian log density with mean [m] and covariance [P] *)
Definition mahalanobis n (P : 'M[R]_n) (v : 'cV[R]_n) : R := (v^T *m invmx P *m v) ord0 ord0.
Definition gauss n (x m : 'cV[R]_n) (P : 'M[R]_n) : R :=
  - 2%:R^-1 * mahalanobis P (x - m) - n%:R / 2%:R * ln (2%:R * PI) - 2%:R^-1 * ln (\det P).

(** conditioning x ~ N(m, P) on y = H x + d + noise, noise ~ N(0, R) *)
Section Conditioning.
Variables nx ny : nat.
Variables (m : 'cV[R]_nx) (P : 'M[R]_nx) (H : 'M[R]_(ny, nx)) (d : 'cV[R]_ny) (Rn : 'M[R]_ny).
Definition innovation_cov : 'M[R]_ny := H *m P *m H^T + Rn.
Definition kalman_gain : 'M[R]_(nx, ny) := P *m H^T *m invmx innovation_cov.
Definition cond_mean (y : 'cV[R]_ny) : 'cV[R]_nx := m + kalman_gain *m (y - (H *m m + d)).
Definition cond_cov : 'M[R]_nx := P - kalman_gain *m H *m P.
End Conditioning.

(** the observed (non-NaN) coordinates of a vector, in order *)
Definition observed n (y : 'cV[option R]_n) : seq 'I_n := [seq i <- enum 'I_n | isSome (y i ord0)].
Definition sel n (y : 'cV[option R]_n) (a : 'I_(size (observed y))) : 'I_n := tnth (in_tuple (observed y)) a.
(** the observed values *)
Definition obs_values n (y : 'cV[option R]_n) : 'cV[R]_(size (observed y)) :=
  \col_a odflt 0 (y (sel a) ord0).
(** rows of an array, and the block of a covariance, at the observed coordinates *)
Definition obs_rows n p (y : 'cV[option R]_n) (A : 'M[R]_(n, p)) : 'M[R]_(size (observed y), p) :=
  rowsub (@sel n y) A.
Definition obs_block n (y : 'cV[option R]_n) (P : 'M[R]_n) : 'M[R]_(size (observed y)) :=
  mxsub (@sel n y) (@sel n y) P.
