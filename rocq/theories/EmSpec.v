(** Expectations over trajectories: what expectation-maximisation has to compute.  [mean f] is the expectation of [f]
    of the random trajectory, for integrable [f] ([good f]). *)
From Coq Require Import Reals.
From mathcomp Require Import all_ssreflect all_algebra.
From Verif Require Import RStruct.
Set Implicit Arguments.
Unset Strict Implicit.
Unset Printing Implicit Defensive.
Local Open Scope ring_scope.
Import GRing.Theory.

Section Moments.
Variables (nx : nat).
Variables (mean : ((nat -> 'cV[R]_nx) -> R) -> R) (good : ((nat -> 'cV[R]_nx) -> R) -> Prop).
Definition has_mean f v : Prop := good f /\ mean f = v.
(** means, covariances and lag-one covariances of a random trajectory: [P t] is the covariance of x_t and
    [C t] that of x_{t+1} with x_t *)
Definition pair_moments (m : nat -> 'cV[R]_nx) (P C : nat -> 'M[R]_nx) (T : nat) : Prop :=
  [/\ forall t i, (t <= T)%N -> has_mean (fun x => x t i ord0) (m t i ord0),
      forall t i j, (t <= T)%N ->
        has_mean (fun x => x t i ord0 * x t j ord0) (m t i ord0 * m t j ord0 + P t i j) &
      forall t i j, (t < T)%N ->
        has_mean (fun x => x t.+1 i ord0 * x t j ord0) (m t.+1 i ord0 * m t j ord0 + C t i j)].
End Moments.
