(** Specification for potentials whose precision matrix may be singular. *)
From Coq Require Import Reals.
From mathcomp Require Import all_ssreflect all_algebra.
From Verif Require Import RStruct GaussSpec KalmanSpec LinalgSpec LinearizeSpec LinSpec.
Set Implicit Arguments.
Unset Strict Implicit.
Unset Printing Implicit Defensive.
Local Open Scope ring_scope.
Import GRing.Theory.

(** symmetric positive semidefinite *)
Definition pos_semidef n (A : 'M[R]_n) : Prop :=
  A^T = A /\ forall v : 'cV[R]_n, 0 <= (v^T *m A *m v) ord0 ord0.
(** the smallest nonzero eigenvalue exceeds [rtol] times the largest *)
Definition clear_rank n (rtol : R) (A : 'M[R]_n) : Prop :=
  forall w w', eigenvalue_of A w -> eigenvalue_of A w' -> w != 0 -> w' != 0 -> rtol * w' < w.
(** [f] is differentiable, has gradient [g] and second derivative [K] at [x] *)
Definition second_order n (f : 'cV[option R]_n -> option R) (x g : 'cV[R]_n) (K : 'M[R]_n) : Prop :=
  exists G : 'cV[R]_n -> 'cV[R]_n,
  [/\ G x = g, forall z, has_grad f (map_mx Some z) (G z) &
      forall i, has_grad (fun z => Some (G (map_mx (odflt 0) z) i ord0)) (map_mx Some x) (row i K)^T].
(** the coordinates on which a quadratic form depends *)
Definition touched n (J : 'M[R]_n) : 'cV[option R]_n := \col_i (if row i J == 0 then None else Some 0).
(** [N(m', P')] is the posterior for the prior [N(mp, P)] and the potential [f] *)
Definition posterior n (mp : 'cV[R]_n) (P : 'M[R]_n) (f : 'cV[option R]_n -> option R) (m' : 'cV[R]_n) (P' : 'M[R]_n)
    (logZ : R) : Prop :=
  pos_def P' /\ forall x v, f (map_mx Some x) = Some v -> gauss x mp P + v = logZ + gauss x m' P'.
