(** Specification of the motion in the tracking example: positions driven by velocities, velocities driven by white
    noise, in continuous time; and the motion along one axis. Nothing here refers to the model definitions. *)
From Coq Require Import Reals List.
From Coquelicot Require Import Coquelicot.
From mathcomp Require Import all_ssreflect all_algebra.
From Verif Require Import RStruct GaussSpec KalmanSpec.
Set Implicit Arguments.
Unset Strict Implicit.
Unset Printing Implicit Defensive.
Local Open Scope ring_scope.
Import GRing.Theory.

(** state (x, y, x', y'): dx/dt = x', dy/dt = y' *)
Definition drift : 'M[R]_4 := \matrix_(i, j) (j == i + 2 :> nat)%N%:R.
(** spectral density of the white noise on the velocities *)
Definition shake (q1 q2 : R) : 'M[R]_4 :=
  \matrix_(i, j) (if i == j then nth 0 [:: 0; 0; q1; q2] i else 0).
(** [F] is the family of transition matrices of dX/dt = A X *)
Definition transitions n (A : 'M[R]_n) (F : R -> 'M[R]_n) : Prop :=
  F 0 = 1%:M /\ forall (t : R) i j, is_derive (fun u : R => F u i j) t ((A *m F t) i j).
(** [Q] is the covariance of the noise with spectral density [S] accumulated over a time [dt] *)
Definition accumulated n (F : R -> 'M[R]_n) (S : 'M[R]_n) (dt : R) (Q : 'M[R]_n) : Prop :=
  forall i j, is_RInt (fun s => (F s *m S *m (F s)^T) i j) 0 dt (Q i j).

(** one axis on its own: state (position, velocity), position measured with variance [r] *)
Definition axis_step (dt q r : R) (y : 'cV[option R]_1) : lgstep 2 1 :=
  LgStep (\matrix_(i, j) (if i == j then 1 else if i == 0 then dt else 0)) 0
         (\matrix_(i, j) (q * dt ^+ (3 - i - j) / (3 - i - j)%:R))
         (\row_j (j == 0)%:R) 0 r%:M y.
Definition axis_start (p v : R) (r : R) : belief 2 := Belief (\col_i (if i == 0 then p else v)) r%:M 0.
(** coordinate [i] of a sequence of measurements *)
Definition coordinate n (i : 'I_n) (ys : list 'cV[option R]_n) : list 'cV[option R]_1 :=
  List.map (fun y : 'cV[option R]_n => const_mx (y i ord0)) ys.

(** the positions are measured *)
Definition positions : 'M[R]_(2, 4) := \matrix_(i, j) (i == j :> nat)%:R.
(** the car starts at the origin with velocity (1, -1), known up to a variance [p0]; then comes one measurement, with
    variance [r], after every [dt] *)
Definition planar_step (F Q : 'M[R]_4) (r : R) (y : 'cV[option R]_2) : lgstep 4 2 :=
  LgStep F 0 Q positions 0 r%:M y.
Definition planar_start (p0 : R) : belief 4 := Belief (\col_i nth 0 [:: 0; 0; 1; -1] i) p0%:M 0.
Definition planar_beliefs F Q (p0 r : R) (ys : list 'cV[option R]_2) : list (belief 4) :=
  kf_beliefs (planar_start p0) (List.map (planar_step F Q r) ys).
Definition axis_beliefs dt q (v p0 r : R) (ys : list 'cV[option R]_1) : list (belief 2) :=
  kf_beliefs (axis_start 0 v p0) (List.map (axis_step dt q r) ys).
(** coordinates (x, y, x', y') from the beliefs (x, x') and (y, y') of the axes *)
Definition planar_mean (m1 m2 : 'cV[R]_2) : 'cV[R]_4 := \col_i (if odd i then m2 else m1) (inord i./2) ord0.
Definition planar_cov (P1 P2 : 'M[R]_2) : 'M[R]_4 :=
  \matrix_(i, j) (if odd i == odd j then (if odd i then P2 else P1) (inord i./2) (inord j./2) else 0).
