(** Model of the linearised Kalman filters and smoothers: cuthbert/gaussian/{types,utils}.py,
    cuthbert/gaussian/moments/*.py and cuthbert/gaussian/taylor/*.py.

    The parameters produced by the linearisations may contain NaN. The square-root routines return NaN
    means when a NaN reaches them, and a NaN mean stays NaN in every later step, so such a state is
    represented by [None]; rows of observation parameters at missing observations are discarded by
    collect_nans_chol and may be NaN. *)
From Coq Require Import Reals.
From mathcomp Require Import all_ssreflect all_algebra.
From Verif Require Import RStruct KalmanModel LinearizeModel.
From Verif Require ScanModel.
Set Implicit Arguments.
Unset Strict Implicit.
Unset Printing Implicit Defensive.
Local Open Scope ring_scope.
Import GRing.Theory.

(** an array without NaN; and without NaN outside the rows of missing observations *)
Definition nan_free m n (A : 'M[option R]_(m, n)) : option 'M[R]_(m, n) :=
  if [forall i, forall j, isSome (A i j)] then Some (map_mx value A) else None.
Definition nan_free_rows m n (y : 'cV[option R]_m) (A : 'M[option R]_(m, n)) : option 'M[R]_(m, n) :=
  if [forall i, forall j, isnan (y i ord0) || isSome (A i j)] then Some (map_mx value A) else None.
Definition real_params n (p : 'M[option R]_n * 'cV[option R]_n * 'M[option R]_n)
  : option ('M[R]_n * 'cV[R]_n * 'M[R]_n) :=
  let: (F, c, L) := p in
  if (nan_free F, nan_free c, nan_free L) is (Some F, Some c, Some L) then Some (F, c, L) else None.
Definition real_obs_params n m (y : 'cV[option R]_m) (p : 'M[option R]_(m, n) * 'cV[option R]_m * 'M[option R]_m)
  : option ('M[R]_(m, n) * 'cV[R]_m * 'M[R]_m) :=
  let: (H, d, L) := p in
  if (nan_free_rows y H, nan_free_rows y d, nan_free_rows y L) is (Some H, Some d, Some L)
  then Some (H, d, L) else None.

Section Dims.
Variable nx : nat.
Context {Inp Key : Type}.

(** types.py:37-57 *)
Record LinState := MkLin { lin_elem : FilterScanElement nx; lin_inputs : Inp; lin_mean_prev : 'cV[R]_nx }.
Definition lin_mean s := fb (lin_elem s).
Definition lin_chol_cov s := fU (lin_elem s).
Definition lin_ell s := fell (lin_elem s).

(** dummy_tree_like of a vector and of a matrix *)
Variables (dummy_mean : 'cV[R]_nx) (dummy_mx : 'M[R]_nx).
(** utils.py:9-44 *)
Definition lin_state_dummy_elem (mean : 'cV[R]_nx) (chol_cov : 'M[R]_nx) (ell : R) (inputs : Inp)
    (mean_prev : 'cV[R]_nx) : LinState :=
  MkLin (MkFSE dummy_mx mean chol_cov dummy_mean dummy_mx ell) inputs mean_prev.
(** the states built in init_prepare of the associative filters: moments/associative_filter.py:35-46,
    moments/non_associative_filter.py:35-46, taylor/associative_filter.py:59-70 *)
Definition lin_init_state (m0 : 'cV[R]_nx) (chol_P0 : 'M[R]_nx) (inputs : Inp) : LinState :=
  MkLin (MkFSE 0 m0 chol_P0 0 0 0) inputs dummy_mean.
(** moments/associative_filter.py:82-97, taylor/associative_filter.py:114-129 *)
Definition lin_dummy_state (inputs : Inp) : LinState :=
  MkLin (MkFSE dummy_mx dummy_mean dummy_mx dummy_mean dummy_mx 0) inputs dummy_mean.

Variable tria : forall m k : nat, 'M[R]_(m, k) -> 'M[R]_m.
(** moments/associative_filter.py:122-151 and taylor/associative_filter.py:167-196 *)
Definition lin_assoc_combine (state_1 state_2 : option LinState) : option LinState :=
  if (state_1, state_2) is (Some s1, Some s2)
  then Some (MkLin (filtering_operator tria (lin_elem s1) (lin_elem s2)) (lin_inputs s2) (lin_mean s1))
  else None.
(** filter_prepare of the non-associative filters: moments/non_associative_filter.py:51-80,
    taylor/non_associative_filter.py:107-136 *)
Definition lin_pass_prepare (inputs : Inp) (key : option Key) : option LinState :=
  Some (lin_state_dummy_elem dummy_mean dummy_mx 0 inputs dummy_mean).

Variable jacobian : forall n p, ('cV[option R]_n -> 'cV[option R]_p) -> 'cV[option R]_n -> 'M[option R]_(p, n).

(** a filter state is turned into a smoother state by the functions of kalman.py, which read its
    mean and factor only *)
Definition as_kalman (s : LinState) : KalmanFilterState nx (Inp := Inp) := MkKFS (lin_elem s) (lin_inputs s).
Variable dummy_like : Inp -> Inp.
Section Store.
Variables store_gain store_chol_cov_given_next : bool.
(** moments/smoother.py:110-118 and taylor/smoother.py:150-158: the end of smoother_prepare *)
Definition lin_smoother_elem (filter_state : LinState) (params : option ('M[R]_nx * 'cV[R]_nx * 'M[R]_nx))
    (inputs : Inp) : option (KalmanSmootherState nx (Inp := Inp)) :=
  if params is Some (F, c, chol_Q) then
    let state := smoother_params tria (lin_mean filter_state) (lin_chol_cov filter_state) F c chol_Q in
    Some (MkKSS state (if store_gain then Some (sE state) else None)
                (if store_chol_cov_given_next then Some (sD state) else None) inputs)
  else None.
Definition lin_smoother_combine (s1 s2 : option (KalmanSmootherState nx (Inp := Inp))) :=
  if (s1, s2) is (Some a, Some b) then Some (kalman_smoother_combine tria a b) else None.
Definition lin_convert (filter_state : option LinState) (inputs : Inp) (key : option Key) :=
  if filter_state is Some s
  then Some (kalman_convert (Key := Key) dummy_like dummy_mx store_gain store_chol_cov_given_next (as_kalman s) inputs key)
  else None.
End Store.

(** ** gaussian/moments *)
Section Moments.
(** conditional mean and factor of the covariance *)
Definition moments_fn n m := 'cV[option R]_n -> 'cV[option R]_m * 'M[option R]_m.
Variable ny : nat.
Variable get_init_params : Inp -> 'cV[R]_nx * 'M[R]_nx.
Variable get_dynamics_params : LinState -> Inp -> moments_fn nx nx * 'cV[option R]_nx.
Variable get_observation_params : LinState -> Inp -> moments_fn nx ny * 'cV[option R]_nx * 'cV[option R]_ny.

(** moments/associative_filter.py:15-48, moments/non_associative_filter.py:15-48 *)
Definition moments_init_prepare (inputs : Inp) (key : option Key) : option LinState :=
  let: (m0, chol_P0) := get_init_params inputs in Some (lin_init_state m0 chol_P0 inputs).
(** moments/associative_filter.py:51-119 *)
Definition moments_assoc_prepare (inputs : Inp) (key : option Key) : option LinState :=
  let dummy_state := lin_dummy_state inputs in
  let: (dyn, dyn_point) := get_dynamics_params dummy_state inputs in
  let dyn_params := real_params (linearize_moments jacobian dyn dyn_point) in
  let: (obs, obs_point, y) := get_observation_params dummy_state inputs in
  let obs_params := real_obs_params y (linearize_moments jacobian obs obs_point) in
  if (dyn_params, obs_params) is (Some (F, c, chol_Q), Some (H, d, chol_R))
  then Some (MkLin (associative_params_single tria F c chol_Q H d chol_R y) inputs dummy_mean)
  else None.
(** moments/non_associative_filter.py:83-145 *)
Definition moments_combine (state_1 state_2 : option LinState) : option LinState :=
  if (state_1, state_2) is (Some s1, Some s2) then
    let: (dyn, dyn_point) := get_dynamics_params s1 (lin_inputs s2) in
    if real_params (linearize_moments jacobian dyn dyn_point) is Some (F, c, chol_Q) then
      let: (predict_mean, predict_chol_cov) := predict tria (lin_mean s1) (lin_chol_cov s1) F c chol_Q in
      let predict_state :=
        lin_state_dummy_elem predict_mean predict_chol_cov (lin_ell s1) (lin_inputs s2) (lin_mean s1) in
      let: (obs, obs_point, y) := get_observation_params predict_state (lin_inputs s2) in
      if real_obs_params y (linearize_moments jacobian obs obs_point) is Some (H, d, chol_R) then
        let: (m, L, ell) := update tria predict_mean predict_chol_cov H d chol_R y 0 in
        Some (lin_state_dummy_elem m L (lin_ell s1 + ell) (lin_inputs s2) (lin_mean s1))
      else None
    else None
  else None.
(** moments/filter.py:27-90 *)
Definition moments_build_filter (associative : bool) : ScanModel.Filter Inp Key (option LinState) :=
  if associative then ScanModel.MkFilter moments_init_prepare moments_assoc_prepare lin_assoc_combine
  else ScanModel.MkFilter moments_init_prepare lin_pass_prepare moments_combine.
Section Store.
Variables store_gain store_chol_cov_given_next : bool.
(** moments/smoother.py:71-118 *)
Definition moments_smoother_prepare (filter_state : option LinState) (inputs : Inp) (key : option Key) :=
  if filter_state is Some s then
    let: (dyn, dyn_point) := get_dynamics_params s inputs in
    lin_smoother_elem store_gain store_chol_cov_given_next s (real_params (linearize_moments jacobian dyn dyn_point)) inputs
  else None.
(** moments/smoother.py:37-68 *)
Definition moments_build_smoother :=
  ScanModel.MkSmoother (lin_convert store_gain store_chol_cov_given_next) moments_smoother_prepare lin_smoother_combine.
End Store.
End Moments.

(** ** gaussian/taylor *)
Section Taylor.
Variable svd : forall n, 'M[R]_n -> 'M[R]_n * 'rV[R]_n.
Variable grad : forall n, ('cV[option R]_n -> option R) -> 'cV[option R]_n -> 'cV[option R]_n.
Variables (rtol : R) (ignore_nan_dims : bool).
Definition log_cond n m := 'cV[option R]_n -> 'cV[option R]_m -> option R.
Definition log_pot n := 'cV[option R]_n -> option R.

(** taylor/types.py, the two forms of an observation function *)
Inductive ObservationOutput : Type :=
| CondDensity ny of log_cond nx ny & 'cV[option R]_nx & 'cV[option R]_ny
| Potential of log_pot nx & 'cV[option R]_nx.
Record ObservationParams : Type := MkObs {
  op_ny : nat;
  op_H : 'M[option R]_(op_ny, nx); op_d : 'cV[option R]_op_ny; op_chol_R : 'M[option R]_op_ny;
  op_y : 'cV[option R]_op_ny }.
(** taylor/non_associative_filter.py:21-54 *)
Definition process_observation (o : ObservationOutput) : ObservationParams :=
  match o with
  | CondDensity ny f point y =>
      let: (H, d, chol_R) := linearize_log_density tria svd grad jacobian f point y rtol ignore_nan_dims in
      MkObs H d chol_R y
  | Potential f point =>
      let: (d, chol_R) := linearize_taylor tria svd grad jacobian f point rtol ignore_nan_dims in
      MkObs (map_mx Some (- 1%:M)) d chol_R
            (\col_i (if isnan (chol_R i i) && ignore_nan_dims then None else Some 0))
  end.

Variable get_init_log_density : Inp -> log_pot nx * 'cV[option R]_nx.
Variable get_dynamics_log_density : LinState -> Inp -> log_cond nx nx * 'cV[option R]_nx * 'cV[option R]_nx.
Variable get_observation_func : LinState -> Inp -> ObservationOutput.

(** taylor/non_associative_filter.py:86-95, taylor/associative_filter.py:48-57 *)
Definition taylor_init (inputs : Inp) : option ('cV[R]_nx * 'M[R]_nx) :=
  let: (init, point) := get_init_log_density inputs in
  let: (_, m0, chol_P0) :=
    linearize_log_density tria svd grad jacobian (fun _ : 'cV[option R]_nx => init) point point rtol ignore_nan_dims in
  if (nan_free m0, nan_free chol_P0) is (Some m0, Some chol_P0) then Some (m0, chol_P0) else None.
(** taylor/non_associative_filter.py:57-104 *)
Definition taylor_init_prepare (inputs : Inp) (key : option Key) : option LinState :=
  if taylor_init inputs is Some (m0, chol_P0)
  then Some (lin_state_dummy_elem m0 chol_P0 0 inputs dummy_mean) else None.
(** taylor/associative_filter.py:19-71 *)
Definition taylor_assoc_init_prepare (inputs : Inp) (key : option Key) : option LinState :=
  if taylor_init inputs is Some (m0, chol_P0) then Some (lin_init_state m0 chol_P0 inputs) else None.
(** taylor/non_associative_filter.py:176-195, taylor/associative_filter.py:131-149: the dynamics, with
    the predict step skipped when both linearisation points are NaN everywhere *)
Definition taylor_dynamics (state : LinState) (inputs : Inp) : option ('M[R]_nx * 'cV[R]_nx * 'M[R]_nx) :=
  let: (f, prev, curr) := get_dynamics_log_density state inputs in
  let: (F, c, chol_Q) := linearize_log_density tria svd grad jacobian f prev curr rtol ignore_nan_dims in
  let skip := [forall i, isnan (curr i ord0)] && [forall i, isnan (prev i ord0)] in
  let F := if skip then map_mx Some 1%:M else F in
  let c := if skip then map_mx Some 0 else c in
  let chol_Q := if skip then map_mx Some 0 else chol_Q in
  real_params (F, c, chol_Q).
(** taylor/associative_filter.py:74-164 *)
Definition taylor_assoc_prepare (inputs : Inp) (key : option Key) : option LinState :=
  let dummy_state := lin_dummy_state inputs in
  let dyn := taylor_dynamics dummy_state inputs in
  let: MkObs ny H d chol_R y := process_observation (get_observation_func dummy_state inputs) in
  if (dyn, real_obs_params y (H, d, chol_R)) is (Some (F, c, chol_Q), Some (H, d, chol_R))
  then Some (MkLin (associative_params_single tria F c chol_Q H d chol_R y) inputs dummy_mean)
  else None.
(** taylor/non_associative_filter.py:139-228 *)
Definition taylor_combine (state_1 state_2 : option LinState) : option LinState :=
  if (state_1, state_2) is (Some s1, Some s2) then
    if taylor_dynamics s1 (lin_inputs s2) is Some (F, c, chol_Q) then
      let: (predict_mean, predict_chol_cov) := predict tria (lin_mean s1) (lin_chol_cov s1) F c chol_Q in
      let predict_state :=
        lin_state_dummy_elem predict_mean predict_chol_cov (lin_ell s1) (lin_inputs s2) (lin_mean s1) in
      let: MkObs ny H d chol_R y := process_observation (get_observation_func predict_state (lin_inputs s2)) in
      if real_obs_params y (H, d, chol_R) is Some (H, d, chol_R) then
        let: (m, L, ell) := update tria predict_mean predict_chol_cov H d chol_R y 0 in
        Some (lin_state_dummy_elem m L (lin_ell s1 + ell) (lin_inputs s2) (lin_mean s1))
      else None
    else None
  else None.
(** taylor/filter.py:41-127 *)
Definition taylor_build_filter (associative : bool) : ScanModel.Filter Inp Key (option LinState) :=
  if associative then ScanModel.MkFilter taylor_assoc_init_prepare taylor_assoc_prepare lin_assoc_combine
  else ScanModel.MkFilter taylor_init_prepare lin_pass_prepare taylor_combine.
Section Store.
Variables store_gain store_chol_cov_given_next : bool.
(** taylor/smoother.py:98-158; no skipping here *)
Definition taylor_smoother_prepare (filter_state : option LinState) (inputs : Inp) (key : option Key) :=
  if filter_state is Some s then
    let: (f, prev, curr) := get_dynamics_log_density s inputs in
    lin_smoother_elem store_gain store_chol_cov_given_next s
      (real_params (linearize_log_density tria svd grad jacobian f prev curr rtol ignore_nan_dims)) inputs
  else None.
(** taylor/smoother.py:51-95 *)
Definition taylor_build_smoother :=
  ScanModel.MkSmoother (lin_convert store_gain store_chol_cov_given_next) taylor_smoother_prepare lin_smoother_combine.
End Store.
End Taylor.
End Dims.
