(** Model of cuthbertlib/quadrature (sigma points, linearisation, Cholesky updates). Points are rows, as
    in the code; vectors are columns. *)
From Coq Require Import Reals.
From mathcomp Require Import all_ssreflect all_algebra.
From Verif Require Import RStruct KalmanModel.
Set Implicit Arguments.
Unset Strict Implicit.
Unset Printing Implicit Defensive.
Local Open Scope ring_scope.
Import GRing.Theory Num.Theory.

(** ** quadrature/common.py *)
(** common.py:13-36: [N] points in dimension [n] *)
Record SigmaPoints N n := MkSP { sp_points : 'M[R]_(N, n); sp_wm : 'cV[R]_N; sp_wc : 'cV[R]_N }.
(** common.py:38-45 *)
Definition sp_mean N n (s : SigmaPoints N n) : 'cV[R]_n := (sp_points s)^T *m sp_wm s.
(** common.py:93-102 *)
Definition sp_cov N n p (wc : 'cV[R]_N) (x_pts : 'M[R]_(N, n)) (x_mean : 'cV[R]_n)
           (y_points : 'M[R]_(N, p)) (y_mean : 'cV[R]_p) : 'M[R]_(n, p) :=
  let one := \matrix_(a, i) ((x_pts i a - x_mean a ord0) * wc i ord0) in
  let two := \matrix_(i, b) (y_points i b - y_mean b ord0) in
  one *m two.
(** common.py:48-62, with and without [other] *)
Definition sp_covariance_with N n p (s : SigmaPoints N n) (other : SigmaPoints N p) : 'M[R]_(n, p) :=
  sp_cov (sp_wc s) (sp_points s) (sp_mean s) (sp_points other) (sp_mean other).
Definition sp_covariance N n (s : SigmaPoints N n) : 'M[R]_n :=
  sp_cov (sp_wc s) (sp_points s) (sp_mean s) (sp_points s) (sp_mean s).

(** common.py:76-90: a rule, with the number of its points *)
Record Quadrature n := MkQuad { q_size : nat; get_sigma_points : 'cV[R]_n -> 'M[R]_n -> SigmaPoints q_size n }.

(** ** quadrature/cubature.py *)
(** cubature.py:40-51 *)
Definition cubature_get_sigma_points N n (m : 'cV[R]_n) (chol : 'M[R]_n) (xi : 'M[R]_(N, n)) (wm wc : 'cV[R]_N)
  : SigmaPoints N n :=
  let sigma_points := \matrix_(i, a) (m a ord0 + (chol *m xi^T)^T i a) in
  MkSP sigma_points wm wc.
(** cubature.py:54-73 *)
Definition cubature_weights (n : nat) : Quadrature n :=
  let wm := const_mx (1 / (2 * n)%:R) : 'cV[R]_(n + n) in
  let wc := wm in
  let xi := \matrix_(i, a) ((col_mx 1%:M (- 1%:M) : 'M[R]_(n + n, n)) i a * sqrt n%:R) in
  MkQuad (fun m chol => cubature_get_sigma_points m chol xi wm wc).

(** ** quadrature/unscented.py *)
(** unscented.py:26-46 *)
Definition unscented_get_sigma_points n (wm wc : 'cV[R]_(1 + (n + n))) (lamda : R) (m : 'cV[R]_n) (chol : 'M[R]_n)
  : SigmaPoints (1 + (n + n)) n :=
  let scaled_chol := sqrt (n%:R + lamda) *: chol in
  let offsets := col_mx (0 : 'M[R]_(1, n)) (col_mx scaled_chol^T (- scaled_chol^T)) in
  MkSP (\matrix_(i, a) (m a ord0 + offsets i a)) wm wc.
(** unscented.py:71-79 *)
Definition unscented_lamda (n : nat) (alpha kappa : R) : R := alpha ^+ 2 * (n%:R + kappa) - n%:R.
Definition unscented_wm (n : nat) (lamda : R) : 'cV[R]_(1 + (n + n)) :=
  \col_i (if (i == 0 :> nat)%N then lamda / (n%:R + lamda) else 1 / (2%:R * (n%:R + lamda))).
Definition unscented_wc (n : nat) (alpha beta lamda : R) : 'cV[R]_(1 + (n + n)) :=
  \col_i (if (i == 0 :> nat)%N then lamda / (n%:R + lamda) + (1 - alpha ^+ 2 + beta)
          else unscented_wm n lamda i ord0).
(** unscented.py:49-79 with the defaults of lines 50 and 71-72 made explicit *)
Definition unscented_weights (n : nat) (alpha beta : R) (kappa : option R) : Quadrature n :=
  let kappa := if kappa is Some k then k else 3%:R + n%:R in
  let lamda := unscented_lamda n alpha kappa in
  MkQuad (unscented_get_sigma_points (unscented_wm n lamda) (unscented_wc n alpha beta lamda) lamda).
Definition unscented_default (n : nat) : Quadrature n := unscented_weights n (1 / 2%:R) 2%:R None.

(** ** quadrature/gauss_hermite.py *)
(** itertools.product of [n] copies of a list, in lexicographic order *)
Fixpoint product {T : Type} (x : seq T) (n : nat) : seq (seq T) :=
  if n is n'.+1 then [seq a :: r | a <- x, r <- product x n'] else [:: [::]].
(** gauss_hermite.py:42-62; [hermegauss] returns nodes and weights of the one-dimensional rule *)
Section GaussHermite.
Variable hermegauss : nat -> seq R * seq R.
Definition gauss_hermite_weights (n order : nat) : Quadrature n :=
  let: (x, w) := hermegauss order in
  let xn := product x n in
  let wn := [seq (\prod_(a <- r) a) / sqrt (2%:R * PI) ^+ n | r <- product w n] in
  let N := size xn in
  let xi := \matrix_(i < N, a < n) nth 0 (nth [::] xn i) a in
  let wm := \col_(i < N) nth 0 wn i in
  MkQuad (fun m chol => cubature_get_sigma_points m chol xi wm wm).
End GaussHermite.

(** ** quadrature/utils.py *)
(** Arithmetic in which [None] stands for any non-finite number (inf or NaN). Non-finite numbers never
    become finite again in the expressions below. *)
Definition oadd (a b : option R) : option R := if (a, b) is (Some x, Some y) then Some (x + y) else None.
Definition osub (a b : option R) : option R := if (a, b) is (Some x, Some y) then Some (x - y) else None.
Definition omul (a b : option R) : option R := if (a, b) is (Some x, Some y) then Some (x * y) else None.
Definition odiv (a b : option R) : option R :=
  if (a, b) is (Some x, Some y) then if y == 0 then None else Some (x / y) else None.
Definition osqrt (a : option R) : option R :=
  if a is Some x then if Rltb x 0 then None else Some (sqrt x) else None.

Section Update.
Variables (n : nat) (chol : 'M[R]_n) (multiplier : R).
(** utils.py:68-94: one column; the carry is (omega, b), the output the new diagonal entry and column *)
Definition update_body (omega : 'I_n -> option R) (b : option R) (index : 'I_n)
  : option R * ('I_n -> option R) * ('I_n -> option R) * option R :=
  let diagonal_member := Some (chol index index) in
  let col i := Some (chol i index) in
  let sq x := omul x x in
  let omega_at_index := omega index in
  let new_diagonal_member :=
    osqrt (oadd (sq diagonal_member) (omul (odiv (Some multiplier) b) (sq omega_at_index))) in
  let scaling_factor := oadd (omul (sq diagonal_member) b) (omul (Some multiplier) (sq omega_at_index)) in
  let omega := fun i => osub (omega i) (omul (odiv omega_at_index diagonal_member) (col i)) in
  let new_col := fun i => omul new_diagonal_member
    (oadd (odiv (col i) diagonal_member)
          (omul (odiv (omul (Some multiplier) omega_at_index) scaling_factor) (omega i))) in
  let b := oadd b (omul (Some multiplier) (sq (odiv omega_at_index diagonal_member))) in
  (new_diagonal_member, new_col, omega, b).
Fixpoint update_scan (js : seq 'I_n) (omega : 'I_n -> option R) (b : option R)
  : seq (option R * ('I_n -> option R)) :=
  if js is j :: js' then
    let: (d, col, omega, b) := update_body omega b j in (d, col) :: update_scan js' omega b
  else [::].
(** utils.py:54-109 *)
Definition cholesky_update (update_vector : 'cV[R]_n) : 'M[R]_n :=
  let out := update_scan (enum 'I_n) (fun i => Some (update_vector i ord0)) (Some 1) in
  \matrix_(i, j)
    (let: (d, col) := nth (None, fun=> None) out j in
     let entry := if i == j then d else if (i < j)%N then Some 0 else col i in
     odflt 0 entry).
End Update.
(** utils.py:11-39 *)
Definition cholesky_update_many n K (chol_init : 'M[R]_n) (update_vectors : 'M[R]_(K, n)) (multiplier : R) : 'M[R]_n :=
  foldl (fun chol i => cholesky_update chol multiplier (row i update_vectors)^T) chol_init (enum 'I_K).

(** ** quadrature/linearize.py *)
Section Linearize.
Variable tria : forall m k : nat, 'M[R]_(m, k) -> 'M[R]_m.
(** jnp.linalg.cholesky *)
Variable cholesky : forall n, 'M[R]_n -> 'M[R]_n.
Variables nx ny : nat.
Variables (mean_fn : 'cV[R]_nx -> 'cV[R]_ny) (cov_fn : 'cV[R]_nx -> 'M[R]_ny).
Variables (m : 'cV[R]_nx) (cov : 'M[R]_nx) (quadrature : Quadrature nx).
(** a function mapped over the points *)
Definition vmap_points N p (f : 'cV[R]_nx -> 'cV[R]_p) (pts : 'M[R]_(N, nx)) : 'M[R]_(N, p) :=
  \matrix_(i, a) f (row i pts)^T a ord0.
(** linearize.py:46-52 *)
Definition linear_part (chol : 'M[R]_nx) : 'M[R]_(ny, nx) * 'cV[R]_ny :=
  let x_pts := get_sigma_points quadrature m chol in
  let f_pts := MkSP (vmap_points mean_fn (sp_points x_pts)) (sp_wm x_pts) (sp_wc x_pts) in
  let Psi_x := sp_covariance_with x_pts f_pts in
  let A := (cho_solve chol Psi_x)^T in
  (A, sp_mean f_pts - A *m m).
(** linearize.py:42-52 and 66-72, mode "covariance" *)
Definition conditional_moments : 'M[R]_(ny, nx) * 'cV[R]_ny * 'M[R]_ny :=
  let chol := cholesky cov in
  let x_pts := get_sigma_points quadrature m chol in
  let f_pts := MkSP (vmap_points mean_fn (sp_points x_pts)) (sp_wm x_pts) (sp_wc x_pts) in
  let: (A, b) := linear_part chol in
  let v_f := \sum_i sp_wc x_pts i ord0 *: cov_fn (row i (sp_points x_pts))^T in
  let Phi := sp_covariance f_pts in
  let Q := Phi + v_f - A *m cov *m A^T in
  (A, b, 2%:R^-1 *: (Q + Q^T)).
(** common.py:64-73. In the code the factor has min(N, p) columns; here [p] zero columns are appended before
    the triangularisation so that the factor is always square, which does not change its Gram matrix. *)
Definition sp_sqrt N p (s : SigmaPoints N p) : 'M[R]_p :=
  tria (row_mx (\matrix_(a, i) (sqrt (sp_wc s i ord0) * (sp_points s i a - sp_mean s a ord0))) (0 : 'M[R]_p)).
(** linearize.py:58-61: the scaled factors side by side *)
Definition scaled_factors N (wc : 'cV[R]_N) (pts : 'M[R]_(N, nx)) : 'M[R]_(ny, \sum_(i < N) ny) :=
  \mxrow_i (sqrt (wc i ord0) *: cov_fn (row i pts)^T).
(** linearize.py:42-64, the other mode: [cov] and [cov_fn] are factors. A negative weight has square root
    NaN, which makes [chol_Q] NaN everywhere; the non-finite entries are then set to zero in the update
    (utils.py:108) as soon as there is a column to subtract (nx > 0). *)
Definition conditional_moments_sqrt : 'M[R]_(ny, nx) * 'cV[R]_ny * 'M[R]_ny :=
  let chol := cov in
  let x_pts := get_sigma_points quadrature m chol in
  let f_pts := MkSP (vmap_points mean_fn (sp_points x_pts)) (sp_wm x_pts) (sp_wc x_pts) in
  let: (A, b) := linear_part chol in
  let sqrt_Phi := sp_sqrt f_pts in
  let temp := scaled_factors (sp_wc x_pts) (sp_points x_pts) in
  let chol_Q := tria (row_mx sqrt_Phi temp) in
  let chol_Q := if [forall i, 0 <= sp_wc x_pts i ord0] then cholesky_update_many chol_Q (A *m chol)^T (-1)
                else 0 in
  (A, b, chol_Q).
End Linearize.
(** linearize.py:75-143 *)
Definition functional cholesky nx ny (fn : 'cV[R]_nx -> 'cV[R]_ny) (S : 'M[R]_ny) (m : 'cV[R]_nx) (cov : 'M[R]_nx)
           (quadrature : Quadrature nx) :=
  conditional_moments cholesky fn (fun=> S) m cov quadrature.
Definition functional_sqrt tria nx ny (fn : 'cV[R]_nx -> 'cV[R]_ny) (S : 'M[R]_ny) (m : 'cV[R]_nx) (cov : 'M[R]_nx)
           (quadrature : Quadrature nx) :=
  conditional_moments_sqrt tria fn (fun=> S) m cov quadrature.
