(** Model of cuthbertlib/kalman/generate.py: random linear-Gaussian models and data simulated from them.
    An array of shape (n,) is a column; [normal key m n] and [uniform key m n] are random.normal and
    random.uniform with a shape of m rows and n columns (n = 1 for shape (m,)). *)
From Coq Require Import Reals List.
From mathcomp Require Import all_ssreflect all_algebra.
From Verif Require Import RStruct.
Set Implicit Arguments.
Unset Strict Implicit.
Unset Printing Implicit Defensive.
Local Open Scope ring_scope.
Import GRing.Theory.

(** jax.lax.scan: the final carry and the stacked outputs *)
Fixpoint lax_scan (S X Y : Type) (body : S -> X -> S * Y) (carry : S) (xs : list X) : S * list Y :=
  match xs with
  | nil => (carry, nil)
  | x :: xs' =>
      let: (carry', y) := body carry x in
      let: (final, ys) := lax_scan body carry' xs' in
      (final, y :: ys)
  end.

(** generate.py:35: one slice of the stacked outputs *)
Record GenStep nx ny := MkGenStep {
  gF : 'M[R]_nx; gc : 'cV[R]_nx; gQ : 'M[R]_nx;
  gH : 'M[R]_(ny, nx); gd : 'cV[R]_ny; gR : 'M[R]_ny; gy : 'cV[R]_ny }.

Section Generate.
Variables (Seed Key : Type).
Variable prng_key : Seed -> Key.
Variable split : Key -> nat -> list Key.
Variables normal uniform : Key -> forall m n : nat, 'M[R]_(m, n).

(** keys[i], also for the unpacking of the array returned by random.split *)
Definition key_at (key : Key) (n i : nat) : Key := List.nth i (split key n) key.

(** generate.py:40-44; triu_indices(dim, 1) are the positions with row + 1 <= column *)
Definition generate_cholesky_factor (key : Key) (dim : nat) : 'M[R]_dim :=
  let chol_A := uniform key dim dim in
  \matrix_(i, j) (if (i + 1 <= j)%N then 0 else chol_A i j).
(** generate.py:47-52 *)
Definition generate_init_model (key : Key) (x_dim : nat) : 'cV[R]_x_dim * 'M[R]_x_dim :=
  let m0 := normal (key_at key 2 0) x_dim 1 in
  let chol_P0 := generate_cholesky_factor (key_at key 2 1) x_dim in
  (m0, chol_P0).
(** generate.py:55-62 *)
Definition exp_eig_max : R := 75%:R / 100%:R.
Definition generate_trans_model (key : Key) (x_dim : nat) : 'M[R]_x_dim * 'cV[R]_x_dim * 'M[R]_x_dim :=
  let F := \matrix_(i, j) (exp_eig_max * normal (key_at key 3 0) x_dim x_dim i j / sqrt x_dim%:R) in
  let c := (10%:R)^-1 *: normal (key_at key 3 1) x_dim 1 in
  let chol_Q := generate_cholesky_factor (key_at key 3 2) x_dim in
  (F, c, chol_Q).
(** generate.py:65-73 *)
Definition generate_obs_model (key : Key) (x_dim y_dim : nat) : 'M[R]_(y_dim, x_dim) * 'cV[R]_y_dim * 'M[R]_y_dim :=
  let H := normal (key_at key 3 0) y_dim x_dim in
  let d := normal (key_at key 3 1) y_dim 1 in
  let chol_R := generate_cholesky_factor (key_at key 3 2) y_dim in
  (H, d, chol_R).
(** generate.py:22-32 *)
Definition gen_body (x_dim y_dim : nat) (_x : 'cV[R]_x_dim) (_key : Key) : 'cV[R]_x_dim * GenStep x_dim y_dim :=
  let trans_model_key := key_at _key 4 0 in
  let trans_key := key_at _key 4 1 in
  let obs_model_key := key_at _key 4 2 in
  let obs_key := key_at _key 4 3 in
  let: (F, c, chol_Q) := generate_trans_model trans_model_key x_dim in
  let state_noise := chol_Q *m normal trans_key x_dim 1 in
  let x := F *m _x + c + state_noise in
  let: (H, d, chol_R) := generate_obs_model obs_model_key x_dim y_dim in
  let obs_noise := chol_R *m normal obs_key y_dim 1 in
  let y := H *m x + d + obs_noise in
  (x, MkGenStep F c chol_Q H d chol_R y).
(** generate.py:12-37; the keys obs_model_key and obs_key of line 17 are not used by the code *)
Definition generate_lgssm (seed : Seed) (x_dim y_dim num_time_steps : nat)
  : 'cV[R]_x_dim * 'M[R]_x_dim * list (GenStep x_dim y_dim) :=
  let key0 := prng_key seed in
  let key := key_at key0 5 0 in
  let init_key := key_at key0 5 1 in
  let sample_key := key_at key0 5 2 in
  let: (m0, chol_P0) := generate_init_model init_key x_dim in
  let x0 := m0 + chol_P0 *m normal sample_key x_dim 1 in
  let scan_keys := split key num_time_steps in
  let: (_, steps) := lax_scan (@gen_body x_dim y_dim) x0 scan_keys in
  (m0, chol_P0, steps).
End Generate.
