(** Specification: second-order (Laplace) approximation of log densities.  Nothing here refers to the model
    definitions. *)
From Coq Require Import Reals List.
From mathcomp Require Import all_ssreflect all_algebra.
From Verif Require Import RStruct GaussSpec LinearizeSpec EkfSpec.
Set Implicit Arguments.
Unset Strict Implicit.
Unset Printing Implicit Defensive.
Local Open Scope ring_scope.
Import GRing.Theory.

(** [g] is the gradient of [l] at [v] *)
Definition gradient_at n (l : 'cV[R]_n -> R) (v g : 'cV[R]_n) : Prop :=
  forall eps : R, 0 < eps -> exists delta : R, 0 < delta /\ forall h, maxnorm h <= delta ->
    `|l (v + h) - l v - (g^T *m h) ord0 ord0| <= eps * maxnorm h.
Definition near n (r : R) (x p : 'cV[R]_n) : Prop := maxnorm (x - p) < r.

(** log density l(x, v) of [v] given [x]: near (x0, v0) it has a gradient in [v], whose value there is [g] and whose
    derivatives there are -L in [v] and [M] in [x] *)
Definition expansion nx k (l : 'cV[R]_nx -> 'cV[R]_k -> R) (x0 : 'cV[R]_nx) (v0 g : 'cV[R]_k)
    (L : 'M[R]_k) (M : 'M[R]_(k, nx)) : Prop :=
  exists (r : R) (G : 'cV[R]_nx -> 'cV[R]_k -> 'cV[R]_k),
  [/\ 0 < r, forall x v, near r x x0 -> near r v v0 -> gradient_at (l x) v (G x v), G x0 v0 = g,
      derivative_at (G x0) v0 (- L) & derivative_at (fun x => G x v0) x0 M].
(** without conditioning *)
Definition expansion0 k (l : 'cV[R]_k -> R) (v0 g : 'cV[R]_k) (L : 'M[R]_k) : Prop :=
  exists (r : R) (G : 'cV[R]_k -> 'cV[R]_k),
  [/\ 0 < r, forall v, near r v v0 -> gradient_at l v (G v), G v0 = g & derivative_at G v0 (- L)].
(** mean of the Gaussian approximation: one Newton step from [v0], moved along with [x] *)
Definition newton nx k (x0 : 'cV[R]_nx) (v0 g : 'cV[R]_k) (L : 'M[R]_k) (M : 'M[R]_(k, nx)) (x : 'cV[R]_nx) : 'cV[R]_k :=
  v0 + invmx L *m (g + M *m (x - x0)).
