(** Model of cuthbertlib/stats/multivariate_normal.py, cuthbertlib/linalg (tria,
    collect_nans_chol), cuthbertlib/kalman (filtering, smoothing, sampling) and
    cuthbert/gaussian/kalman.py over exact real arithmetic.

    - Vectors are column matrices; observations that may be missing have entries of type [option R]
      ([None] is NaN); all other arrays are NaN-free.
    - [tria] (QR decomposition, an external routine) is a parameter; theorems assume only what its
      docstring promises, [tria_ok] in GaussSpec.v.
    - [invmx] of a singular matrix is not meaningful (the code would produce inf/NaN); theorems carry
      hypotheses under which every inverse that is taken is one of an invertible matrix. *)
From Coq Require Import Reals.
From mathcomp Require Import all_ssreflect all_algebra.
From Verif Require Import RStruct.
From Verif Require ScanModel.
Set Implicit Arguments.
Unset Strict Implicit.
Unset Printing Implicit Defensive.
Local Open Scope ring_scope.
Import GRing.Theory.

(** the lower triangle (triangular solvers never read the other entries) *)
Definition ltri n (A : 'M[R]_n) : 'M[R]_n := \matrix_(i, j) (if (j <= i)%N then A i j else 0).
(** jax.scipy.linalg.solve_triangular(A, B, lower=True), and lax triangular_solve(lower=True,
    transpose_a=True) with the unknown on the left *)
Definition solve_lower n p (A : 'M[R]_n) (B : 'M[R]_(n, p)) : 'M[R]_(n, p) := invmx (ltri A) *m B.
(** jax.scipy.linalg.cho_solve((A, True), B) *)
Definition cho_solve n p (A : 'M[R]_n) (B : 'M[R]_(n, p)) : 'M[R]_(n, p) :=
  invmx (ltri A)^T *m (invmx (ltri A) *m B).
(** dot product of two vectors *)
Definition dot n (u v : 'cV[R]_n) : R := (u^T *m v) ord0 ord0.

(** stats/multivariate_normal.py:66-77, [nan_support=False], matrix [chol_cov] of the right shape *)
Definition logpdf_mx n (x mean : 'cV[R]_n) (chol_cov : 'M[R]_n) : R :=
  let y := solve_lower chol_cov (x - mean) in
  - 2%:R^-1 * dot y y - n%:R / 2%:R * ln (2%:R * PI) - \sum_i ln `|chol_cov i i|.
(** multivariate_normal.py:59-65: vector [chol_cov] (standard deviations) *)
Definition logpdf_diag n (x mean chol_cov : 'cV[R]_n) : R :=
  let y := \col_i ((x i ord0 - mean i ord0) / chol_cov i ord0) in
  - 2%:R^-1 * dot y y - n%:R / 2%:R * ln (2%:R * PI) - \sum_i ln `|chol_cov i ord0|.
(** multivariate_normal.py:54-58: scalar [chol_cov], vector [x] *)
Definition logpdf_iso n (x mean : 'cV[R]_n) (chol_cov : R) : R :=
  let y := x - mean in
  - 2%:R^-1 * dot y y / chol_cov ^+ 2 - n%:R / 2%:R * (ln (2%:R * PI) + 2%:R * ln chol_cov).
(** multivariate_normal.py:47-51: scalars *)
Definition logpdf_scalar (x mean chol_cov : R) : R :=
  - 2%:R^-1 * (x - mean) ^+ 2 / chol_cov ^+ 2 - 2%:R^-1 * (ln (2%:R * PI) + 2%:R * ln chol_cov).

(** ** NaN handling *)
Definition isnan (y : option R) : bool := ~~ isSome y.
Definition value (y : option R) : R := odflt 0 y.
(** jnp.argsort(flag, stable=True): unflagged indices in order, then flagged ones in order *)
Definition argsort_seq n (flag : 'I_n -> bool) : seq 'I_n :=
  [seq j <- enum 'I_n | ~~ flag j] ++ [seq j <- enum 'I_n | flag j].
Definition argsort n (flag : 'I_n -> bool) (i : 'I_n) : 'I_n := nth i (argsort_seq flag) i.
(** the reordered flag, collect_nans_chol.py:78 *)
Definition sorted_flag n (flag : 'I_n -> bool) (i : 'I_n) : bool := flag (argsort flag i).
(** collect_nans_chol.py:86-88: reorder the other arguments and zero the flagged rows *)
Definition collect_rest n p (flag : 'I_n -> bool) (A : 'M[R]_(n, p)) : 'M[R]_(n, p) :=
  \matrix_(i, j) (if sorted_flag flag i then 0 else A (argsort flag i) j).

Section WithTria.
Variable tria : forall m k : nat, 'M[R]_(m, k) -> 'M[R]_m.

(** collect_nans_chol.py:72-84, two-dimensional [chol] *)
Definition collect_nans_chol n (flag : 'I_n -> bool) (chol : 'M[R]_n) : 'M[R]_n :=
  let chol := \matrix_(i, j) (if flag i then 0 else chol i j) in
  let chol := \matrix_(i, j) chol (argsort flag i) j in
  let chol := tria chol in
  \matrix_(i, j) (if (i == j) && sorted_flag flag i then (sqrt (2%:R * PI))^-1 else chol i j).
(** collect_nans_chol.py:67-70, one-dimensional [chol] *)
Definition collect_nans_diag n (flag : 'I_n -> bool) (chol : 'cV[R]_n) : 'cV[R]_n :=
  \col_i (if sorted_flag flag i then (sqrt (2%:R * PI))^-1 else chol (argsort flag i) ord0).

(** multivariate_normal.py:40-45 and 66-77: [nan_support=True], matrix [chol_cov] *)
Definition logpdf_nan_mx n (x : 'cV[option R]_n) (mean : 'cV[R]_n) (chol_cov : 'M[R]_n) : R :=
  let flag i := isnan (x i ord0) in
  logpdf_mx (collect_rest flag (map_mx value x)) (collect_rest flag mean)
            (collect_nans_chol flag chol_cov).
(** multivariate_normal.py:40-45 and 59-65: [nan_support=True], vector [chol_cov] *)
Definition logpdf_nan_diag n (x : 'cV[option R]_n) (mean chol_cov : 'cV[R]_n) : R :=
  let flag i := isnan (x i ord0) in
  logpdf_diag (collect_rest flag (map_mx value x)) (collect_rest flag mean)
              (collect_nans_diag flag chol_cov).

(** ** kalman/filtering.py *)
Section Dims.
Variables nx ny : nat.

(** filtering.py:25-53 *)
Definition predict (m : 'cV[R]_nx) (chol_P F : 'M[R]_nx) (c : 'cV[R]_nx) (chol_Q : 'M[R]_nx)
  : 'cV[R]_nx * 'M[R]_nx :=
  (F *m m + c, tria (row_mx (F *m chol_P) chol_Q)).

(** filtering.py:57-113 *)
Definition update (m : 'cV[R]_nx) (chol_P : 'M[R]_nx) (H : 'M[R]_(ny, nx)) (d : 'cV[R]_ny)
           (chol_R : 'M[R]_ny) (y : 'cV[option R]_ny) (log_normalizing_constant : R)
  : 'cV[R]_nx * 'M[R]_nx * R :=
  let flag i := isnan (y i ord0) in
  let chol_R := collect_nans_chol flag chol_R in
  let H := collect_rest flag H in
  let d := collect_rest flag d in
  let y := collect_rest flag (map_mx value y) in
  let y_hat := H *m m + d in
  let y_diff := y - y_hat in
  let M := block_mx (H *m chol_P) chol_R chol_P (0 : 'M[R]_(nx, ny)) in
  let chol_S := tria M in
  let chol_Py := drsubmx chol_S in
  let Gmat := dlsubmx chol_S in
  let Imat := ulsubmx chol_S in
  let my := m + Gmat *m solve_lower Imat y_diff in
  let ell := logpdf_mx y y_hat Imat in
  (my, chol_Py, ell + log_normalizing_constant).

(** filtering.py:14-22 *)
Record FilterScanElement := MkFSE {
  fA : 'M[R]_nx; fb : 'cV[R]_nx; fU : 'M[R]_nx; feta : 'cV[R]_nx; fZ : 'M[R]_nx; fell : R }.

(** filtering.py:163-166: bring [Z] (nx by ny) to a square matrix *)
Definition square_Z (Z : 'M[R]_(nx, ny)) : 'M[R]_nx :=
  if (ny < nx)%N then \matrix_(i, j) (if insub (j : nat) is Some k then Z i k else 0)
  else tria Z.

(** filtering.py:116-173 *)
Definition associative_params_single (F : 'M[R]_nx) (c : 'cV[R]_nx) (chol_Q : 'M[R]_nx)
           (H : 'M[R]_(ny, nx)) (d : 'cV[R]_ny) (chol_R : 'M[R]_ny) (y : 'cV[option R]_ny)
  : FilterScanElement :=
  let flag i := isnan (y i ord0) in
  let chol_R := collect_nans_chol flag chol_R in
  let H := collect_rest flag H in
  let d := collect_rest flag d in
  let y := collect_rest flag (map_mx value y) in
  let Psi_ := block_mx (H *m chol_Q) chol_R chol_Q (0 : 'M[R]_(nx, ny)) in
  let Tria_Psi_ := tria Psi_ in
  let Psi11 := ulsubmx Tria_Psi_ in
  let Psi21 := dlsubmx Tria_Psi_ in
  let U := drsubmx Tria_Psi_ in
  let Psi11_inv := solve_lower Psi11 1%:M in
  let K := Psi21 *m Psi11_inv in
  let HF := H *m F in
  let A := F - K *m HF in
  let b := c + K *m (y - H *m c - d) in
  let Z := HF^T *m Psi11_inv^T in
  let eta := Psi11_inv *m (y - H *m c - d) in
  let eta := Z *m eta in
  let Z := square_Z Z in
  let ell := logpdf_mx y (H *m c + d) Psi11 in
  MkFSE A b U eta Z ell.

(** filtering.py:176-213; slogdet(.)[1] is the log of the absolute determinant *)
Definition filtering_operator (elem_i elem_j : FilterScanElement) : FilterScanElement :=
  let: MkFSE A1 b1 U1 eta1 Z1 ell1 := elem_i in
  let: MkFSE A2 b2 U2 eta2 Z2 ell2 := elem_j in
  let Xi := block_mx (U1^T *m Z2) 1%:M Z2 0 in
  let tria_xi := tria Xi in
  let Xi11 := ulsubmx tria_xi in
  let Xi21 := dlsubmx tria_xi in
  let Xi22 := drsubmx tria_xi in
  let tmp_1 := (solve_lower Xi11 U1^T)^T in
  let D_inv := 1%:M - tmp_1 *m Xi21^T in
  let tmp_2 := D_inv *m (b1 + U1 *m (U1^T *m eta2)) in
  let A := A2 *m D_inv *m A1 in
  let b := A2 *m tmp_2 + b2 in
  let U := tria (row_mx (A2 *m tmp_1) U2) in
  let eta := A1^T *m (D_inv^T *m (eta2 - Z2 *m (Z2^T *m b1))) + eta1 in
  let Z := tria (row_mx (A1^T *m Xi22) Z1) in
  let mu := cho_solve U1 b1 in
  let t1 := dot b1 mu - dot (eta2 + mu) tmp_2 in
  let ell := ell1 + ell2 - 2%:R^-1 * t1 + 2%:R^-1 * ln `|\det D_inv| in
  MkFSE A b U eta Z ell.

(** ** kalman/smoothing.py *)
(** smoothing.py:22-66 *)
Definition smoother_update (filter_m : 'cV[R]_nx) (filter_chol_P : 'M[R]_nx) (smoother_m : 'cV[R]_nx)
           (smoother_chol_P F : 'M[R]_nx) (c : 'cV[R]_nx) (chol_Q : 'M[R]_nx)
  : 'cV[R]_nx * 'M[R]_nx * 'M[R]_nx :=
  let Phi := block_mx (F *m filter_chol_P) chol_Q filter_chol_P 0 in
  let tria_Phi := tria Phi in
  let Phi11 := ulsubmx tria_Phi in
  let Phi21 := dlsubmx tria_Phi in
  let Phi22 := drsubmx tria_Phi in
  let gain := (invmx (ltri Phi11)^T *m Phi21^T)^T in
  let mean_diff := smoother_m - (c + F *m filter_m) in
  let mean := filter_m + gain *m mean_diff in
  let chol := tria (row_mx Phi22 (gain *m smoother_chol_P)) in
  (mean, chol, gain).

(** smoothing.py:13-18 *)
Record SmootherScanElement := MkSSE { sg : 'cV[R]_nx; sE : 'M[R]_nx; sD : 'M[R]_nx }.

(** smoothing.py:69-99; the upper-triangular solve reads the upper triangle of [Phi11.T] *)
Definition smoother_params (m : 'cV[R]_nx) (chol_P F : 'M[R]_nx) (c : 'cV[R]_nx) (chol_Q : 'M[R]_nx)
  : SmootherScanElement :=
  let Phi := block_mx (F *m chol_P) chol_Q chol_P 0 in
  let Tria_Phi := tria Phi in
  let Phi11 := ulsubmx Tria_Phi in
  let Phi21 := dlsubmx Tria_Phi in
  let D := drsubmx Tria_Phi in
  let E := (invmx (ltri Phi11)^T *m Phi21^T)^T in
  let g := m - E *m (F *m m + c) in
  MkSSE g E D.

(** smoothing.py:102-121 *)
Definition smoothing_operator (elem_i elem_j : SmootherScanElement) : SmootherScanElement :=
  let: MkSSE g_i E_i D_i := elem_i in
  let: MkSSE g_j E_j D_j := elem_j in
  MkSSE (E_j *m g_i + g_j) (E_j *m E_i) (tria (row_mx (E_j *m D_i) D_j)).

(** ** kalman/sampling.py; one sample, as a column ([shape] only adds independent copies) *)
(** sampling.py:16-20 *)
Record SamplerScanElement := MkSam { sa_gain : 'M[R]_nx; sa_sample : 'cV[R]_nx }.
(** sampling.py:44-49; [eps @ L.T] for a row is [L eps] for a column *)
Definition sampler_params_interm (m : 'cV[R]_nx) (chol_P F : 'M[R]_nx) (c : 'cV[R]_nx)
           (chol_Q : 'M[R]_nx) (eps : 'cV[R]_nx) : SamplerScanElement :=
  let: MkSSE inc_m gain L := smoother_params m chol_P F c chol_Q in
  MkSam gain (inc_m + L *m eps).
(** sampling.py:52-57 *)
Definition sampler_params_final (m : 'cV[R]_nx) (chol_P : 'M[R]_nx) (eps : 'cV[R]_nx)
  : SamplerScanElement := MkSam 0 (m + chol_P *m eps).
(** sampling.py:23-41: intermediate elements for all but the last time, then the final one *)
Definition sqrt_associative_params
           (steps : seq ('cV[R]_nx * 'M[R]_nx * 'M[R]_nx * 'cV[R]_nx * 'M[R]_nx * 'cV[R]_nx))
           (m_T : 'cV[R]_nx) (chol_P_T : 'M[R]_nx) (eps_T : 'cV[R]_nx) : seq SamplerScanElement :=
  [seq (let: (m, chol_P, F, c, chol_Q, eps) := s in
        sampler_params_interm m chol_P F c chol_Q eps) | s <- steps]
  ++ [:: sampler_params_final m_T chol_P_T eps_T].
(** sampling.py:60-68 *)
Definition sampling_operator (elem_i elem_j : SamplerScanElement) : SamplerScanElement :=
  let: MkSam G_i e_i := elem_i in
  let: MkSam G_j e_j := elem_j in
  MkSam (G_j *m G_i) (G_j *m e_i + e_j).

(** ** cuthbert/gaussian/kalman.py *)
Section Callbacks.
Context {Inp Key : Type}.
Variable get_init_params : Inp -> 'cV[R]_nx * 'M[R]_nx.
Variable get_dynamics_params : Inp -> 'M[R]_nx * 'cV[R]_nx * 'M[R]_nx.
Variable get_observation_params : Inp -> 'M[R]_(ny, nx) * 'cV[R]_ny * 'M[R]_ny * 'cV[option R]_ny.
Variable dummy_like : Inp -> Inp.
(** dummy_tree_like of a matrix: same shape, content meaningless *)
Variable dummy_mx : 'M[R]_nx.

(** kalman.py:21-40 *)
Record KalmanFilterState := MkKFS { kf_elem : FilterScanElement; kf_inputs : Inp }.
Definition kf_mean s := fb (kf_elem s).
Definition kf_chol_cov s := fU (kf_elem s).
Definition kf_log_normalizing_constant s := fell (kf_elem s).
(** kalman.py:43-61 *)
Record KalmanSmootherState := MkKSS {
  ks_elem : SmootherScanElement;
  ks_gain : option 'M[R]_nx;
  ks_chol_cov_given_next : option 'M[R]_nx;
  ks_inputs : Inp }.
Definition ks_mean s := sg (ks_elem s).
Definition ks_chol_cov s := sD (ks_elem s).

(** kalman.py:134-160 *)
Definition kalman_init_prepare (model_inputs : Inp) (key : option Key) : KalmanFilterState :=
  let: (m0, chol_P0) := get_init_params model_inputs in
  MkKFS (MkFSE 0 m0 chol_P0 0 0 0) model_inputs.
(** kalman.py:163-184 *)
Definition kalman_filter_prepare (model_inputs : Inp) (key : option Key) : KalmanFilterState :=
  let: (F, c, chol_Q) := get_dynamics_params model_inputs in
  let: (H, d, chol_R, y) := get_observation_params model_inputs in
  MkKFS (associative_params_single F c chol_Q H d chol_R y) model_inputs.
(** kalman.py:187-209 *)
Definition kalman_filter_combine (state_1 state_2 : KalmanFilterState) : KalmanFilterState :=
  MkKFS (filtering_operator (kf_elem state_1) (kf_elem state_2)) (kf_inputs state_2).
(** kalman.py:64-96 *)
Definition kalman_build_filter : ScanModel.Filter Inp Key KalmanFilterState :=
  ScanModel.MkFilter kalman_init_prepare kalman_filter_prepare kalman_filter_combine.

Section Store.
Variables store_gain store_chol_cov_given_next : bool.
(** kalman.py:212-251 *)
Definition kalman_smoother_prepare (filter_state : KalmanFilterState) (model_inputs : Inp)
           (key : option Key) : KalmanSmootherState :=
  let: (F, c, chol_Q) := get_dynamics_params model_inputs in
  let state := smoother_params (kf_mean filter_state) (kf_chol_cov filter_state) F c chol_Q in
  MkKSS state
        (if store_gain then Some (sE state) else None)
        (if store_chol_cov_given_next then Some (sD state) else None)
        model_inputs.
(** kalman.py:254-283 *)
Definition kalman_smoother_combine (state_1 state_2 : KalmanSmootherState) : KalmanSmootherState :=
  MkKSS (smoothing_operator (ks_elem state_2) (ks_elem state_1))
        (ks_gain state_1) (ks_chol_cov_given_next state_1) (ks_inputs state_1).
(** kalman.py:286-331; the driver always passes model_inputs *)
Definition kalman_convert (filter_state : KalmanFilterState) (model_inputs : Inp) (key : option Key)
  : KalmanSmootherState :=
  MkKSS (MkSSE (kf_mean filter_state) 0 (kf_chol_cov filter_state))
        (if store_gain then Some dummy_mx else None)
        (if store_chol_cov_given_next then Some dummy_mx else None)
        (dummy_like model_inputs).
(** kalman.py:99-131 *)
Definition kalman_build_smoother
  : ScanModel.Smoother Inp Key KalmanFilterState KalmanSmootherState :=
  ScanModel.MkSmoother kalman_convert kalman_smoother_prepare kalman_smoother_combine.
End Store.
End Callbacks.
End Dims.
End WithTria.
