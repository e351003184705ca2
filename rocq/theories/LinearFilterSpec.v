(** Specification: linear recursive state estimators with arbitrary gains and the covariance of their
    errors. Nothing here refers to the model definitions. *)
From Coq Require Import Reals List.
From mathcomp Require Import all_ssreflect all_algebra.
From Verif Require Import RStruct GaussSpec KalmanSpec.
Set Implicit Arguments.
Unset Strict Implicit.
Unset Printing Implicit Defensive.
Local Open Scope ring_scope.
Import GRing.Theory.

Section Spec.
Variables nx ny : nat.
(** the gain used at time t for the observed entries of y *)
Variable gain : nat -> forall y : 'cV[option R]_ny, 'M[R]_(nx, size (observed y)).
(** The estimator m' = p + K (y - H p - d), p = F m + c, of x' = F x + c + w from y = H x' + d + v has
    error x' - m' = (1 - K H) (F (x - m) + w) - K v; this is its covariance when the error x - m has
    covariance [P] and w ~ Q, v ~ R are uncorrelated with it *)
Definition error_cov_step (t : nat) (P : 'M[R]_nx) (s : lgstep nx ny) : 'M[R]_nx :=
  let A := 1%:M - gain t (ly s) *m obsH s in
  A *m (lF s *m P *m (lF s)^T + lQ s) *m A^T + gain t (ly s) *m obsR s *m (gain t (ly s))^T.
(** error covariances at times t, t + 1, ... *)
Fixpoint error_covs (t : nat) (P : 'M[R]_nx) (steps : list (lgstep nx ny)) : list 'M[R]_nx :=
  P :: match steps with nil => nil | s :: rest => error_covs t.+1 (error_cov_step t P s) rest end.
(** same model, but everything observed in [s'] is also observed in [s] *)
Definition sees_more (s s' : lgstep nx ny) : Prop :=
  [/\ lF s = lF s', lQ s = lQ s', lH s = lH s', lR s = lR s' &
      forall i, isSome (ly s' i ord0) -> isSome (ly s i ord0)].
End Spec.

(** variance of the linear functional v of the state *)
Definition variance n (P : 'M[R]_n) (v : 'cV[R]_n) : R := (v^T *m P *m v) ord0 ord0.
(** no linear functional has larger variance under [P] than under [P'] *)
Definition at_most n (P P' : 'M[R]_n) : Prop := forall v, variance P v <= variance P' v.
