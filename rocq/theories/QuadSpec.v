(** Specifications for quadrature: what the external routines promise and what moments are. *)
From Coq Require Import Reals.
From mathcomp Require Import all_ssreflect all_algebra.
From Verif Require Import RStruct MxBase.
Set Implicit Arguments.
Unset Strict Implicit.
Unset Printing Implicit Defensive.
Local Open Scope ring_scope.
Import GRing.Theory Num.Theory.

(** row [i] of an array of points, as a column *)
Notation pt X i := (row i X)^T.

(** numpy's hermegauss: nodes and non-negative weights that integrate 1, x and x^2 exactly against
    exp(-x^2/2), for two or more nodes *)
Definition hermegauss_ok (hermegauss : nat -> seq R * seq R) : Prop :=
  forall order, (2 <= order)%N ->
  let: (x, w) := hermegauss order in
  [/\ size x = size w, forall a, a \in w -> 0 <= a,
      \sum_(i < size w) nth 0 w i = sqrt (2%:R * PI),
      \sum_(i < size w) nth 0 w i * nth 0 x i = 0
    & \sum_(i < size w) nth 0 w i * nth 0 x i ^+ 2 = sqrt (2%:R * PI)].

(** jnp.linalg.cholesky *)
Definition cholesky_ok (cholesky : forall n, 'M[R]_n -> 'M[R]_n) : Prop :=
  forall n (A : 'M[R]_n), pd A -> is_trig_mx (cholesky n A) /\ cholesky n A *m (cholesky n A)^T = A.

(** weighted mean and covariance of points *)
Definition weighted_mean N n (w : 'cV[R]_N) (X : 'M[R]_(N, n)) : 'cV[R]_n := \sum_i w i ord0 *: pt X i.
Definition weighted_cov N n (w : 'cV[R]_N) (X : 'M[R]_(N, n)) (m : 'cV[R]_n) : 'M[R]_n :=
  \sum_i w i ord0 *: ((pt X i - m) *m (pt X i - m)^T).
(** weighted sum of the values of a function *)
Definition weighted_value N n (w : 'cV[R]_N) (X : 'M[R]_(N, n)) (f : 'cV[R]_n -> R) : R :=
  \sum_i w i ord0 * f (pt X i).
