(** Specification for the linearised filters: linear-Gaussian models given by moments or by log
    densities, with observation vectors whose length may change from step to step. *)
From Coq Require Import Reals List.
From mathcomp Require Import all_ssreflect all_algebra.
From Verif Require Import RStruct GaussSpec KalmanSpec LinalgSpec LinearizeSpec.
Set Implicit Arguments.
Unset Strict Implicit.
Unset Printing Implicit Defensive.
Local Open Scope ring_scope.
Import GRing.Theory.

(** a Kalman step with any observation length *)
Definition anystep nx := {ny : nat & lgstep nx ny}.
Definition any_kf_step nx (b : belief nx) (s : anystep nx) : belief nx := kf_step b (projT2 s).
Fixpoint any_beliefs nx (b : belief nx) (steps : list (anystep nx)) : list (belief nx) :=
  b :: match steps with nil => nil | s :: rest => any_beliefs (any_kf_step b s) rest end.

(** mean function x |-> F x + c with constant covariance factor L *)
Definition affine_moments n m (f : 'cV[option R]_n -> 'cV[option R]_m * 'M[option R]_m)
    (F : 'M[R]_(m, n)) (c : 'cV[R]_m) (L : 'M[R]_m) : Prop :=
  forall x, f (map_mx Some x) = (map_mx Some (F *m x + c), map_mx Some L).
(** log N(y; H x + d, Rn) up to a constant, for NaN-free arguments *)
Definition linear_gaussian n m (f : 'cV[option R]_n -> 'cV[option R]_m -> option R)
    (H : 'M[R]_(m, n)) (d : 'cV[R]_m) (Rn : 'M[R]_m) : Prop :=
  exists c, forall x y, f (map_mx Some x) (map_mx Some y) = Some (c - 2%:R^-1 * mahalanobis Rn (y - (H *m x + d))).
(** the same when some entries of y are missing: the density of the others *)
Definition linear_gaussian_at n m (f : 'cV[option R]_n -> 'cV[option R]_m -> option R)
    (H : 'M[R]_(m, n)) (d : 'cV[R]_m) (Rn : 'M[R]_m) (y : 'cV[option R]_m) : Prop :=
  exists c, forall x h, f (map_mx Some x) (moved y h)
    = Some (c - 2%:R^-1 * mahalanobis (obs_block y Rn) (obs_rows y (map_mx (odflt 0) (moved y h) - (H *m x + d)))).
(** log N(x; m, Rn) up to a constant, for NaN-free arguments *)
Definition gaussian_potential n (f : 'cV[option R]_n -> option R) (m : 'cV[R]_n) (Rn : 'M[R]_n) : Prop :=
  exists c, forall x, f (map_mx Some x) = Some (c - 2%:R^-1 * mahalanobis Rn (x - m)).
(** the same for the coordinates [i] with [z i <> None] only *)
Definition gaussian_potential_at n (f : 'cV[option R]_n -> option R) (z : 'cV[option R]_n) (Rn : 'M[R]_n) : Prop :=
  exists c, forall x, f (map_mx Some x) = Some (c - 2%:R^-1 * mahalanobis (obs_block z Rn) (obs_rows z x - obs_values z)).

(** symmetric positive definite *)
Definition pos_def n (A : 'M[R]_n) : Prop :=
  A^T = A /\ forall v : 'cV[R]_n, v != 0 -> 0 < (v^T *m A *m v) ord0 ord0.
(** the smallest eigenvalue exceeds [rtol] times the largest *)
Definition well_conditioned n (rtol : R) (A : 'M[R]_n) : Prop :=
  forall w w', eigenvalue_of A w -> eigenvalue_of A w' -> rtol * w' < w.
(** [svd] decomposes the symmetric matrix [A] *)
Definition decomposes (svd : forall n, 'M[R]_n -> 'M[R]_n * 'rV[R]_n) n (A : 'M[R]_n) : Prop :=
  svd_at A (svd n A).1 (svd n A).2.
(** a noise covariance that can be recovered from its inverse *)
Definition recoverable (svd : forall n, 'M[R]_n -> 'M[R]_n * 'rV[R]_n) n (rtol : R) (Rn : 'M[R]_n) : Prop :=
  [/\ pos_def Rn, well_conditioned rtol (invmx Rn) & decomposes svd (invmx Rn)].
Definition recoverable_at (svd : forall n, 'M[R]_n -> 'M[R]_n * 'rV[R]_n) n (rtol : R) (y : 'cV[option R]_n)
    (Rn : 'M[R]_n) : Prop :=
  let Ro := obs_block y Rn in
  [/\ pos_def Ro, well_conditioned rtol (invmx Ro) & decomposes svd (zero_padded n (invmx Ro))].
(** a linear observation of any length, and the step made of a transition and an observation *)
Definition anyobs nx := {ny : nat & ('M[R]_(ny, nx) * 'cV[R]_ny * 'M[R]_ny * 'cV[option R]_ny)%type}.
Definition any_step nx (F : 'M[R]_nx) (c : 'cV[R]_nx) (Q : 'M[R]_nx) (q : anyobs nx) : anystep nx :=
  let: existT ny (H, d, Rn, y) := q in existT _ ny (LgStep F c Q H d Rn y).
(** the Rauch-Tung-Striebel recursion on filtering moments [ms] and transitions [ts] *)
Fixpoint rts_pass nx (ms : list ('cV[R]_nx * 'M[R]_nx)) (ts : list ('M[R]_nx * 'cV[R]_nx * 'M[R]_nx))
  : list ('cV[R]_nx * 'M[R]_nx) :=
  match ms, ts with
  | (m, P) :: ms', (F, c, Q) :: ts' =>
      let later := rts_pass ms' ts' in
      match later with
      | (m', P') :: _ => (rts_mean m P F c Q m', rts_cov P F Q P') :: later
      | nil => nil
      end
  | (m, P) :: _, nil => (m, P) :: nil
  | nil, _ => nil
  end.
