(** Model of docs/examples/kalman_tracking.md (the tangled script examples_scripts/kalman_tracking.py): a car
    observed in the plane, state (x, y, x', y'). *)
From Coq Require Import Reals ZArith List.
From mathcomp Require Import all_ssreflect all_algebra.
From Verif Require Import RStruct KalmanModel.
From Verif Require ScanModel.
Set Implicit Arguments.
Unset Strict Implicit.
Unset Printing Implicit Defensive.
Local Open Scope ring_scope.

(** jnp.array of a list of rows *)
Definition array m n (rows : seq (seq R)) : 'M[R]_(m, n) := \matrix_(i, j) nth 0 (nth [::] rows i) j.

(** lines 24-46. [dt], the spectral densities and the noise levels are literals in the script (0.1, 1.0, 1.0, 0.05,
    0.5); they are parameters here. *)
Section Car.
Variables (dt q1_squared q2_squared sd_P0 sd_R : R).
Definition car_m0 : 'cV[R]_4 := array 4 1 [:: [:: 0]; [:: 0]; [:: 1]; [:: -1]].
Definition car_chol_P0 : 'M[R]_4 := sd_P0%:M.
Definition car_F : 'M[R]_4 :=
  array 4 4 [:: [:: 1; 0; dt; 0]; [:: 0; 1; 0; dt]; [:: 0; 0; 1; 0]; [:: 0; 0; 0; 1]].
Definition car_Q : 'M[R]_4 :=
  array 4 4 [:: [:: q1_squared * dt ^+ 3 / 3%:R; 0; q1_squared * dt ^+ 2 / 2%:R; 0];
                [:: 0; q2_squared * dt ^+ 3 / 3%:R; 0; q2_squared * dt ^+ 2 / 2%:R];
                [:: q1_squared * dt ^+ 2 / 2%:R; 0; q1_squared * dt; 0];
                [:: 0; q2_squared * dt ^+ 2 / 2%:R; 0; q2_squared * dt]].
Definition car_H : 'M[R]_(2, 4) := array 2 4 [:: [:: 1; 0; 0; 0]; [:: 0; 1; 0; 0]].
Definition car_chol_R : 'M[R]_2 := sd_R%:M.
(** line 42: jnp.linalg.cholesky, a parameter *)
Variable cholesky : forall n, 'M[R]_n -> 'M[R]_n.
Definition car_chol_Q : 'M[R]_4 := cholesky car_Q.

(** jax indexing of an array with rows [ys] by an integer: negative indices count from the end, indices out of
    bounds are clamped *)
Definition jax_get (A : Type) (dflt : A) (ys : list A) (i : Z) : A :=
  let n := Z.of_nat (List.length ys) in
  let j := if Z.ltb i Z0 then Z.add i n else i in
  List.nth (Z.to_nat (Z.max Z0 (Z.min j (Z.pred n)))) ys dflt.

(** lines 118-129. Measurements are reals in the script; here their entries may also be NaN. *)
Variable ys : list 'cV[option R]_2.
Definition car_init_params (model_inputs : Z) := (car_m0, car_chol_P0).
Definition car_dynamics_params (model_inputs : Z) := (car_F, 0 : 'cV[R]_4, car_chol_Q).
Definition car_observation_params (model_inputs : Z) :=
  (car_H, 0 : 'cV[R]_2, car_chol_R, jax_get (const_mx None) ys (Z.pred model_inputs)).
Definition car_filter tria Key :=
  kalman_build_filter tria (Key := Key) car_init_params car_dynamics_params car_observation_params.
(** line 130: jnp.arange(len(ys) + 1) *)
Definition car_inputs : list Z := List.map Z.of_nat (List.seq 0 (List.length ys).+1).
End Car.
