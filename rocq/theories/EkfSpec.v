(** Specification: the extended Kalman filter for nonlinear models with additive Gaussian noise, written
    with real functions and their derivatives.  Nothing here refers to the model definitions. *)
From Coq Require Import Reals List.
From mathcomp Require Import all_ssreflect all_algebra.
From Verif Require Import RStruct GaussSpec LinearizeSpec.
Set Implicit Arguments.
Unset Strict Implicit.
Unset Printing Implicit Defensive.
Local Open Scope ring_scope.
Import GRing.Theory.

(** [J] is the derivative of [f] at [p] (Frechet) *)
Definition derivative_at n m (f : 'cV[R]_n -> 'cV[R]_m) (p : 'cV[R]_n) (J : 'M[R]_(m, n)) : Prop :=
  forall eps : R, 0 < eps -> exists delta : R, 0 < delta /\ forall h, maxnorm h <= delta ->
    maxnorm (f (p + h) - f p - J *m h) <= eps * maxnorm h.

Section Ekf.
Variable nx : nat.
Variable Inp : Type.
(** what is known at one time: mean, covariance, log evidence so far, input of the time step, mean of the
    previous time step *)
Record view := View { v_mean : 'cV[R]_nx; v_cov : 'M[R]_nx; v_ell : R; v_input : Inp; v_prev : 'cV[R]_nx }.
(** x' = f(x) + noise of covariance Q, to be linearised at a point with derivative J *)
Record transition := Transition {
  t_fun : 'cV[R]_nx -> 'cV[R]_nx; t_cov : 'M[R]_nx; t_point : 'cV[R]_nx; t_jac : 'M[R]_nx }.
(** y = h(x) + noise of covariance R; the length of y may change from step to step, entries may be missing *)
Record measurement := Measurement { o_dim : nat;
  o_fun : 'cV[R]_nx -> 'cV[R]_o_dim; o_cov : 'M[R]_o_dim; o_point : 'cV[R]_nx; o_jac : 'M[R]_(o_dim, nx);
  o_y : 'cV[option R]_o_dim }.
(** first-order value of a function at [x] *)
Definition first_order n m (f : 'cV[R]_n -> 'cV[R]_m) (p : 'cV[R]_n) (J : 'M[R]_(m, n)) (x : 'cV[R]_n) : 'cV[R]_m :=
  f p + J *m (x - p).

Definition ekf_predict (v : view) (x : Inp) (t : transition) : view :=
  View (first_order (t_fun t) (t_point t) (t_jac t) (v_mean v)) (t_jac t *m v_cov v *m (t_jac t)^T + t_cov t)
       (v_ell v) x (v_mean v).
Definition ekf_update (v : view) (o : measurement) : view :=
  let H := obs_rows (o_y o) (o_jac o) in
  let expected := obs_rows (o_y o) (first_order (o_fun o) (o_point o) (o_jac o) (v_mean v)) in
  let S := H *m v_cov v *m H^T + obs_block (o_y o) (o_cov o) in
  let K := v_cov v *m H^T *m invmx S in
  View (v_mean v + K *m (obs_values (o_y o) - expected)) (v_cov v - K *m H *m v_cov v)
       (v_ell v + gauss (obs_values (o_y o)) expected S) (v_input v) (v_prev v).
(** the user's choice of model and linearisation point may use everything known so far; the measurement
    function sees the predicted view *)
Variables (trans : view -> Inp -> transition) (meas : view -> Inp -> measurement).
Definition ekf_step (v : view) (x : Inp) : view :=
  let p := ekf_predict v x (trans v x) in ekf_update p (meas p x).
Fixpoint ekf_run (v : view) (xs : list Inp) : list view :=
  v :: match xs with nil => nil | x :: rest => ekf_run (ekf_step v x) rest end.

(** linearisation at the current mean, in the usual form *)
Definition classic_step (v : view) (x : Inp) : view :=
  let t := trans v x in let F := t_jac t in
  let mp := t_fun t (v_mean v) in let P := F *m v_cov v *m F^T + t_cov t in
  let o := meas (View mp P (v_ell v) x (v_mean v)) x in
  let H := obs_rows (o_y o) (o_jac o) in
  let e := obs_values (o_y o) - obs_rows (o_y o) (o_fun o mp) in
  let S := H *m P *m H^T + obs_block (o_y o) (o_cov o) in
  let K := P *m H^T *m invmx S in
  View (mp + K *m e) (P - K *m H *m P) (v_ell v + gauss e 0 S) x (v_mean v).
Fixpoint classic_run (v : view) (xs : list Inp) : list view :=
  v :: match xs with nil => nil | x :: rest => classic_run (classic_step v x) rest end.
End Ekf.
