(** Model of the loss minimised in the M-step of docs/examples/parameter_estimation_em.md (the tangled script
    examples_scripts/parameter_estimation_em.py). Line numbers refer to the markdown file. *)
From Coq Require Import Reals.
From mathcomp Require Import all_ssreflect all_algebra.
From Verif Require Import RStruct KalmanModel QuadModel.
Set Implicit Arguments.
Unset Strict Implicit.
Unset Printing Implicit Defensive.
Local Open Scope ring_scope.
Import GRing.Theory.

(** jax.scipy.stats.norm.logpdf *)
Definition norm_logpdf (x loc scale : R) : R :=
  - ((ln (2%:R * PI * scale ^+ 2) + (x - loc) ^+ 2 / scale ^+ 2) / 2%:R).
(** the stacked smoother state, indexed by time; [gain] and [chol_cov_given_next] are stored (lines 175-177) *)
Record smooth_dist := MkSmooth { sd_mean : nat -> 'cV[R]_1; sd_chol_cov : nat -> 'M[R]_1;
  sd_gain : nat -> 'M[R]_1; sd_chol_cov_given_next : nat -> 'M[R]_1 }.
(** jnp.dot(sigma_points.wm, f(sigma_points.points)) *)
Definition dot_wm N n (s : SigmaPoints N n) (f : 'I_N -> R) : R := \sum_i sp_wm s i ord0 * f i.
Definition i0 : 'I_(1 + 1) := lshift 1 ord0.
Definition i1 : 'I_(1 + 1) := rshift 1 ord0.

Section Loss.
Variable hermegauss : nat -> seq R * seq R.
Variable order : nat.
(** log Bin(y | 50, logit_inv x) as a function of y and x (binom.logpmf and logit_inv) *)
Variable observation_logpmf : R -> R -> R.
(** lines 213-215 *)
Definition quadrature_1d := gauss_hermite_weights hermegauss 1 order.
Definition quadrature_2d := gauss_hermite_weights hermegauss (1 + 1) order.
(** the constrained parameters (lines 113-117) *)
Variables rho sigma : R.
(** lines 221-232 *)
Definition loss_initial (m : 'cV[R]_1) (chol_cov : 'M[R]_1) : R :=
  let sigma_points := get_sigma_points quadrature_1d m chol_cov in
  dot_wm sigma_points (fun i => norm_logpdf (sp_points sigma_points i ord0) 0 sigma).
(** lines 234-245 *)
Definition loss_dynamics (m_joint : 'cV[R]_(1 + 1)) (chol_cov_joint : 'M[R]_(1 + 1)) : R :=
  let sigma_points := get_sigma_points quadrature_2d m_joint chol_cov_joint in
  dot_wm sigma_points (fun i => norm_logpdf (sp_points sigma_points i i0) (sp_points sigma_points i i1 * rho) sigma).
(** lines 247-253 *)
Definition loss_observation (m : 'cV[R]_1) (chol_cov : 'M[R]_1) (y : R) : R :=
  let sigma_points := get_sigma_points quadrature_1d m chol_cov in
  dot_wm sigma_points (fun i => observation_logpmf y (sp_points sigma_points i ord0)).
(** line 255, row [t] *)
Definition joint_means (s : smooth_dist) (t : nat) : 'cV[R]_(1 + 1) := col_mx (sd_mean s t) (sd_mean s t.+1).
(** lines 257-263 *)
Definition construct_joint_chol_cov (chol_cov_t_plus_1 gain_t chol_cov_t_given_t_plus_1 : 'M[R]_1) : 'M[R]_(1 + 1) :=
  block_mx chol_cov_t_plus_1 0 (gain_t *m chol_cov_t_plus_1) chol_cov_t_given_t_plus_1.
(** lines 265-269 *)
Definition joint_chol_covs (s : smooth_dist) (t : nat) : 'M[R]_(1 + 1) :=
  construct_joint_chol_cov (sd_chol_cov s t.+1) (sd_gain s t) (sd_chol_cov_given_next s t).
(** lines 218-278, for [T] + 1 times; the order of the joint means is a parameter, so that the repaired loss is the
    same function *)
Definition loss_with (means : smooth_dist -> nat -> 'cV[R]_(1 + 1)) (T : nat) (ys : nat -> R) (s : smooth_dist) : R :=
  let total_loss := loss_initial (sd_mean s 0) (sd_chol_cov s 0)
    + \sum_(t < T) loss_dynamics (means s t) (joint_chol_covs s t)
    + \sum_(t < T) loss_observation (sd_mean s t.+1) (sd_chol_cov s t.+1) (ys t.+1) in
  - total_loss.
Definition loss_fn := loss_with joint_means.
End Loss.
(** the joint means in the order of [joint_chol_covs] and of [loss_dynamics]; NOT the documented code *)
Definition joint_means_next_first (s : smooth_dist) (t : nat) : 'cV[R]_(1 + 1) := col_mx (sd_mean s t.+1) (sd_mean s t).
