(** Specification of derivatives of functions whose arguments may have missing (NaN) entries: moving a
    missing entry leaves it missing. *)
From Coq Require Import Reals.
From mathcomp Require Import all_ssreflect all_algebra.
From Verif Require Import RStruct.
Set Implicit Arguments.
Unset Strict Implicit.
Unset Printing Implicit Defensive.
Local Open Scope ring_scope.
Import GRing.Theory.

Definition moved n (x : 'cV[option R]_n) (h : 'cV[R]_n) : 'cV[option R]_n :=
  \col_i omap (fun v => v + h i ord0) (x i ord0).
(** largest absolute entry *)
Definition maxnorm n (h : 'cV[R]_n) : R := \big[Num.max/0]_i `|h i ord0|.
(** [g] is the gradient of [f] at [x] (Frechet) *)
Definition has_grad n (f : 'cV[option R]_n -> option R) (x : 'cV[option R]_n) (g : 'cV[R]_n) : Prop :=
  exists v, f x = Some v /\
  forall eps : R, 0 < eps -> exists delta : R, 0 < delta /\ forall h, maxnorm h <= delta ->
    exists w, f (moved x h) = Some w /\ `|w - v - \sum_i g i ord0 * h i ord0| <= eps * maxnorm h.
(** what the automatic differentiation routines return where a derivative exists *)
Definition grad_ok (grad : forall n, ('cV[option R]_n -> option R) -> 'cV[option R]_n -> 'cV[option R]_n) : Prop :=
  forall n (f : 'cV[option R]_n -> option R) x g, has_grad f x g -> grad n f x = map_mx Some g.
Definition jacobian_ok (jacobian : forall n p, ('cV[option R]_n -> 'cV[option R]_p) -> 'cV[option R]_n ->
    'M[option R]_(p, n)) : Prop :=
  forall n p (f : 'cV[option R]_n -> 'cV[option R]_p) x (J : 'M[R]_(p, n)),
    (forall i, has_grad (fun z => f z i ord0) x (row i J)^T) -> jacobian n p f x = map_mx Some J.
