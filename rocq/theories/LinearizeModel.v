(** Model of cuthbertlib/linearize: log_density.py, moments.py, taylor.py. Numbers that may be NaN are
    [option R] (None = NaN). The auxiliary value ([has_aux=True]) is passed through unchanged and left
    out. Derivatives come from external routines [grad] and [jacobian]. *)
From Coq Require Import Reals.
From mathcomp Require Import all_ssreflect all_algebra.
From Verif Require Import RStruct KalmanModel LinalgModel.
Set Implicit Arguments.
Unset Strict Implicit.
Unset Printing Implicit Defensive.
Local Open Scope ring_scope.
Import GRing.Theory.

(** NaN-propagating array arithmetic: jnp +, -, unary minus and @ *)
Definition nanop (f : R -> R -> R) (a b : option R) : option R :=
  if (a, b) is (Some x, Some y) then Some (f x y) else None.
Definition nan_add m n (A B : 'M[option R]_(m, n)) : 'M[option R]_(m, n) :=
  \matrix_(i, j) nanop (fun x y => x + y) (A i j) (B i j).
Definition nan_sub m n (A B : 'M[option R]_(m, n)) : 'M[option R]_(m, n) :=
  \matrix_(i, j) nanop (fun x y => x - y) (A i j) (B i j).
Definition nan_opp m n (A : 'M[option R]_(m, n)) : 'M[option R]_(m, n) := map_mx (omap (fun x : R => - x)) A.
Definition nan_mul m n p (A : 'M[option R]_(m, n)) (B : 'M[option R]_(n, p)) : 'M[option R]_(m, p) :=
  \matrix_(i, j) (if [exists k, isnan (A i k) || isnan (B k j)] then None
                  else Some (\sum_k value (A i k) * value (B k j))).

Section Oracles.
Variable tria : forall m k : nat, 'M[R]_(m, k) -> 'M[R]_m.
Variable svd : forall n, 'M[R]_n -> 'M[R]_n * 'rV[R]_n.
(** jax.grad of a scalar function and jax.jacobian / jax.jacfwd of a vector function *)
Variable grad : forall n, ('cV[option R]_n -> option R) -> 'cV[option R]_n -> 'cV[option R]_n.
Variable jacobian : forall n p, ('cV[option R]_n -> 'cV[option R]_p) -> 'cV[option R]_n -> 'M[option R]_(p, n).

(** jax.hessian is the Jacobian of the gradient *)
Definition hessian n (f : 'cV[option R]_n -> option R) (x : 'cV[option R]_n) : 'M[option R]_n :=
  jacobian (grad f) x.

Section LogDensity.
Variables nx ny : nat.
Variable log_density : 'cV[option R]_nx -> 'cV[option R]_ny -> option R.

(** log_density.py:119-175, [has_aux=False] *)
Definition linearize_log_density_given_chol_cov (x : 'cV[option R]_nx) (y : 'cV[option R]_ny)
    (chol_cov : 'M[option R]_ny) (ignore_nan_dims : bool) : 'M[option R]_(ny, nx) * 'cV[option R]_ny :=
  let cov := if ignore_nan_dims then chol_cov_with_nans_to_cov chol_cov
             else nan_mul chol_cov chol_cov^T in
  let jac := jacobian (fun x => grad (log_density x) y) x in
  let g := grad (log_density x) y in
  let mat := nan_mul cov jac in
  let shift := nan_add (nan_sub y (nan_mul mat x)) (nan_mul cov g) in
  (mat, shift).

(** log_density.py:38-96, [has_aux=False]; [rtol] is a number (the default depends on the float type) *)
Definition linearize_log_density (x : 'cV[option R]_nx) (y : 'cV[option R]_ny) (rtol : R)
    (ignore_nan_dims : bool) : 'M[option R]_(ny, nx) * 'cV[option R]_ny * 'M[option R]_ny :=
  let prec := nan_opp (hessian (log_density x) y) in
  let prec := if ignore_nan_dims then
                let nan_mask i := isnan (y i ord0) || isnan (prec i i) in
                \matrix_(i, j) (if (i == j) && nan_mask i then None else prec i j)
              else prec in
  let chol_cov := symmetric_inv_sqrt tria svd rtol ignore_nan_dims prec in
  let: (mat, shift) := linearize_log_density_given_chol_cov x y chol_cov ignore_nan_dims in
  (mat, shift, chol_cov).
End LogDensity.

(** moments.py:28-94, [has_aux=False] *)
Definition linearize_moments nx ny (mean_and_chol_cov : 'cV[option R]_nx -> 'cV[option R]_ny * 'M[option R]_ny)
    (x : 'cV[option R]_nx) : 'M[option R]_(ny, nx) * 'cV[option R]_ny * 'M[option R]_ny :=
  let F := jacobian (fun x => (mean_and_chol_cov x).1) x in
  let: (m, chol_cov) := mean_and_chol_cov x in
  let b := nan_sub m (nan_mul F x) in
  (F, b, chol_cov).

(** taylor.py:31-83, [has_aux=False] *)
Definition linearize_taylor n (log_potential : 'cV[option R]_n -> option R) (x : 'cV[option R]_n) (rtol : R)
    (ignore_nan_dims : bool) : 'cV[option R]_n * 'M[option R]_n :=
  let g := grad log_potential x in
  let prec := nan_opp (hessian log_potential x) in
  let L := symmetric_inv_sqrt tria svd rtol ignore_nan_dims prec in
  let nan_mask i := isnan (L i i) && ignore_nan_dims in
  let L_temp : 'M[option R]_n := \matrix_(i, j) (if nan_mask i || nan_mask j then Some 0 else L i j) in
  let m := nan_add x (nan_mul (nan_mul L_temp L_temp^T) g) in
  (m, L).
End Oracles.
