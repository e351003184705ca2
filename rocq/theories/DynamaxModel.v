(** Model of the Kalman filter that docs/examples/dynamax_integration.md builds from a dynamax linear-Gaussian
    model (lines 106-163, the tangled script examples_scripts/dynamax_integration.py). A dynamax model has an
    observation y_0 of the initial state; cuthbert does not. The wrapper therefore inserts one transition with
    F = 1, c = 0 and a zero noise factor. *)
From Coq Require Import Reals.
From mathcomp Require Import all_ssreflect all_algebra.
From Verif Require Import RStruct KalmanModel.
From Verif Require ScanModel.
Set Implicit Arguments.
Unset Strict Implicit.
Unset Printing Implicit Defensive.
Local Open Scope ring_scope.

Section Dynamax.
Variables state_dim emission_dim : nat.
(** lines 120-130: m0, chol_P0, F, c, chol_Q, H, d, chol_R. jnp.linalg.cholesky is not modelled: the factors
    are parameters here. *)
Variables (m0 : 'cV[R]_state_dim) (chol_P0 : 'M[R]_state_dim) (F : 'M[R]_state_dim) (c : 'cV[R]_state_dim)
  (chol_Q : 'M[R]_state_dim) (H : 'M[R]_(emission_dim, state_dim)) (d : 'cV[R]_emission_dim)
  (chol_R : 'M[R]_emission_dim).
(** the observation array; rows may contain NaN entries *)
Variable observations : nat -> 'cV[option R]_emission_dim.
(** lines 131-133 *)
Definition dynamax_init_params (model_inputs : nat) := (m0, chol_P0).
(** lines 135-144. model_inputs is an integer array, so t = -1 for model_inputs = 0 and the test t == 0 holds
    exactly for model_inputs = 1. *)
Definition dynamax_dynamics_params (model_inputs : nat) :=
  if model_inputs == 1%N then (1%:M, 0, 0) else (F, c, chol_Q).
(** lines 146-150. Index -1 (the last row) for model_inputs = 0 is never evaluated by the filter; the model
    reads row 0 there. *)
Definition dynamax_observation_params (model_inputs : nat) := (H, d, chol_R, observations model_inputs.-1).
(** lines 152-157 *)
Definition dynamax_filter tria Key :=
  kalman_build_filter tria (Key := Key) dynamax_init_params dynamax_dynamics_params dynamax_observation_params.
(** line 160: jnp.arange(len(observations) + 1) *)
Definition dynamax_inputs (n_observations : nat) : list nat := List.seq 0 n_observations.+1.
End Dynamax.
