(** Properties C10-C15 and C21: Kalman filtering. In all statements [tria] is any routine meeting its
    contract [tria_ok]; [some_tria_ok] shows that such routines exist. *)
From Coq Require Import Reals Lra Lia List.
From mathcomp Require Import all_ssreflect all_algebra.
From Verif Require Import RStruct MxBase ZmodTac Ext MvnExt KalmanModel GaussSpec KalmanSpec MvnProofs MvnProofs2
  KalmanProofs BayesProofs TriaExist FilterOp ScanStep KalmanRuns Trajectory GaussExt GaussExtProofs.
From Verif Require ScanModel DriverSpec.
Set Implicit Arguments.
Unset Strict Implicit.
Unset Printing Implicit Defensive.
Local Open Scope ring_scope.
Import GRing.Theory Num.Theory Order.Theory.

(** a key splitting function, for the examples *)
Definition kal_split (k : nat) (n : nat) : list nat := List.seq k n.
Lemma kal_split_ok : DriverSpec.split_ok kal_split.
Proof. by move=> k n; rewrite /kal_split List.seq_length. Qed.
Lemma two_unit n : (1%:M + 1%:M : 'M[R]_n) \in unitmx.
Proof. by apply: pd_unit; apply: pdD; [exact: pd1|apply: pd_psd; exact: pd1]. Qed.
Lemma cov1 n : cov (1%:M : 'M[R]_n) = 1%:M. Proof. by rewrite /cov trmx1 mulmx1. Qed.

Lemma innov_unit nx ny (L : 'M[R]_nx) (H : 'M[R]_(ny, nx)) (X : 'M[R]_ny) :
  X \in unitmx -> innovation_cov (cov L) H (cov X) \in unitmx.
Proof. by move=> u; apply: pd_unit; apply: pdDr; [apply: psd_conj; exact: gram_psd|exact: unit_pd]. Qed.

(** C10 *)
Theorem C10_predict tria (nx : nat) (m : 'cV[R]_nx) (chol_P F : 'M[R]_nx) (c : 'cV[R]_nx) (chol_Q : 'M[R]_nx) :
  tria_ok tria ->
  let: (m', L') := predict tria m chol_P F c chol_Q in
  [/\ m' = F *m m + c, is_trig_mx L' & L' *m L'^T = F *m (chol_P *m chol_P^T) *m F^T + chol_Q *m chol_Q^T].
Proof. by move=> ok; case E: (predict _ _ _ _ _ _) => [m' L']; exact: (predict_spec ok E). Qed.
Print Assumptions C10_predict.
Example C10_hypotheses_met : tria_ok some_tria.
Proof. exact: some_tria_ok. Qed.

(** C11 *)
Theorem C11_update_is_bayes tria (nx ny : nat) (m : 'cV[R]_nx) (chol_P : 'M[R]_nx) (H : 'M[R]_(ny, nx))
    (d : 'cV[R]_ny) (chol_R : 'M[R]_ny) (y : 'cV[R]_ny) (ell : R) (x : 'cV[R]_nx) m' L' ell' :
  tria_ok tria -> chol_P \in unitmx -> chol_R \in unitmx ->
  update tria m chol_P H d chol_R (map_mx Some y) ell = (m', L', ell') ->
  gauss x m (cov chol_P) + gauss y (H *m x + d) (cov chol_R) = (ell' - ell) + gauss x m' (cov L').
Proof. by move=> ok uP uR E; exact: (update_bayes ok E (innov_unit chol_P H uR)). Qed.
Print Assumptions C11_update_is_bayes.
(** the prior covariance may be singular *)
Theorem C11_update_moments tria (nx ny : nat) (m : 'cV[R]_nx) (chol_P : 'M[R]_nx) (H : 'M[R]_(ny, nx))
    (d : 'cV[R]_ny) (chol_R : 'M[R]_ny) (y : 'cV[R]_ny) (ell : R) m' L' ell' :
  tria_ok tria ->
  let S := H *m cov chol_P *m H^T + cov chol_R in
  S \in unitmx ->
  update tria m chol_P H d chol_R (map_mx Some y) ell = (m', L', ell') ->
  [/\ m' = m + cov chol_P *m H^T *m invmx S *m (y - (H *m m + d)), is_trig_mx L',
      cov L' = cov chol_P - cov chol_P *m H^T *m invmx S *m H *m cov chol_P &
      ell' = gauss y (H *m m + d) S + ell].
Proof. by move=> ok S uS E; exact: (update_full ok E uS). Qed.
Print Assumptions C11_update_moments.
(** Bayes' rule for a singular prior, through the standard normal noise that generates it *)
Theorem C11_update_singular_prior tria (nx ny : nat) (m : 'cV[R]_nx) (chol_P : 'M[R]_nx) (H : 'M[R]_(ny, nx))
    (d : 'cV[R]_ny) (chol_R : 'M[R]_ny) (y : 'cV[R]_ny) (ell : R) m' L' ell' :
  tria_ok tria -> chol_R \in unitmx ->
  update tria m chol_P H d chol_R (map_mx Some y) ell = (m', L', ell') ->
  exists (mz : 'cV[R]_nx) (Cz : 'M[R]_nx),
  [/\ m' = m + chol_P *m mz, cov L' = chol_P *m Cz *m chol_P^T &
   forall z, gauss z 0 1%:M + gauss y (H *m (m + chol_P *m z) + d) (cov chol_R) = (ell' - ell) + gauss z mz Cz].
Proof. by move=> ok uR E; exact: (update_bayes_noise ok E (innov_unit chol_P H uR)). Qed.
Print Assumptions C11_update_singular_prior.
Example C11_hypotheses_met (n : nat) : (1%:M : 'M[R]_n) \in unitmx /\
  (1%:M *m cov (1%:M : 'M[R]_n) *m 1%:M^T + cov (1%:M : 'M[R]_n)) \in unitmx /\
  (1%:M *m cov (0 : 'M[R]_n) *m 1%:M^T + cov (1%:M : 'M[R]_n)) \in unitmx.
Proof.
rewrite cov1 trmx1 !mulmx1 !mul1mx unitmx1 two_unit /cov mul0mx add0r; by rewrite unitmx1.
Qed.

(** C12: NaN entries of y are marginalised out *)
Theorem C12_missing_marginalised tria (nx ny : nat) (m : 'cV[R]_nx) (chol_P : 'M[R]_nx) (H : 'M[R]_(ny, nx))
    (d : 'cV[R]_ny) (chol_R : 'M[R]_ny) (y : 'cV[option R]_ny) (ell : R) m' L' ell' :
  tria_ok tria ->
  let P := cov chol_P in
  let Ho := obs_rows y H in let d_o := obs_rows y d in let Ro := obs_block y (cov chol_R) in
  let S := Ho *m P *m Ho^T + Ro in
  S \in unitmx ->
  update tria m chol_P H d chol_R y ell = (m', L', ell') ->
  [/\ m' = m + P *m Ho^T *m invmx S *m (obs_values y - (Ho *m m + d_o)), is_trig_mx L',
      cov L' = P - P *m Ho^T *m invmx S *m Ho *m P &
      ell' = gauss (obs_values y) (Ho *m m + d_o) S + ell].
Proof. by move=> ok P Ho d_o Ro S uS E; exact: (update_nan ok uS E). Qed.
Print Assumptions C12_missing_marginalised.
(** ... which is what running the update on the remaining coordinates returns, for every factor of the
    remaining block of the noise covariance *)
Theorem C12_same_as_deleting tria (nx ny : nat) (m : 'cV[R]_nx) (chol_P : 'M[R]_nx) (H : 'M[R]_(ny, nx))
    (d : 'cV[R]_ny) (chol_R : 'M[R]_ny) (y : 'cV[option R]_ny) (ell : R)
    (chol_o : 'M[R]_(size (observed y))) m1 L1 l1 m2 L2 l2 :
  tria_ok tria -> cov chol_o = obs_block y (cov chol_R) ->
  obs_rows y H *m cov chol_P *m (obs_rows y H)^T + obs_block y (cov chol_R) \in unitmx ->
  update tria m chol_P H d chol_R y ell = (m1, L1, l1) ->
  update tria m chol_P (obs_rows y H) (obs_rows y d) chol_o (map_mx Some (obs_values y)) ell = (m2, L2, l2) ->
  [/\ m1 = m2, cov L1 = cov L2 & l1 = l2].
Proof.
move=> ok eo uS E1 E2; have [-> _ -> ->] := update_nan ok uS E1.
have uS2 : innovation_cov (cov chol_P) (obs_rows y H) (cov chol_o) \in unitmx by rewrite eo.
by have [-> _ -> ->] := update_full ok E2 uS2; rewrite eo.
Qed.
Print Assumptions C12_same_as_deleting.
(** parameters at missing coordinates are never used *)
Theorem C12_missing_parameters_ignored tria (nx ny : nat) (m : 'cV[R]_nx) (chol_P : 'M[R]_nx)
    (H1 H2 : 'M[R]_(ny, nx)) (d1 d2 : 'cV[R]_ny) (chol_R1 chol_R2 : 'M[R]_ny) (y : 'cV[option R]_ny) (ell : R) :
  (forall i, y i ord0 <> None -> row i H1 = row i H2 /\ row i d1 = row i d2 /\ row i chol_R1 = row i chol_R2) ->
  update tria m chol_P H1 d1 chol_R1 y ell = update tria m chol_P H2 d2 chol_R2 y ell.
Proof.
move=> same; pose flag i := isnan (y i ord0).
have fl i : flag i = false -> y i ord0 <> None by rewrite /flag; case: (y i ord0).
have rest p (A B : 'M[R]_(ny, p)) : (forall i, flag i = false -> row i A = row i B) ->
    collect_rest flag A = collect_rest flag B.
  move=> h; apply/matrixP => i j; rewrite !mxE /sorted_flag; case: ifP => // /h /matrixP /(_ ord0 j).
  by rewrite !mxE.
have eR : collect_nans_chol tria flag chol_R1 = collect_nans_chol tria flag chol_R2.
  have e : \matrix_(i, j) (if flag i then 0 else chol_R1 i j) = \matrix_(i, j) (if flag i then 0 else chol_R2 i j).
    apply/matrixP => i j; rewrite !mxE; case: ifP => // /fl /same [_ [_ /matrixP /(_ ord0 j)]].
    by rewrite !mxE.
  by rewrite /collect_nans_chol e.
rewrite /update -/flag eR (rest _ H1 H2) ?(rest _ d1 d2) // => i /fl /same; tauto.
Qed.
Print Assumptions C12_missing_parameters_ignored.
(** two observations, the first one missing: the remaining innovation covariance is invertible *)
Definition demo_y : 'cV[option R]_2 := \col_i (if i == ord0 then None else Some 1%R).
Example C12_hypotheses_met : (exists i, demo_y i ord0 = None) /\ (exists i, demo_y i ord0 <> None) /\
  obs_rows demo_y 1%:M *m cov (1%:M : 'M[R]_2) *m (obs_rows demo_y 1%:M)^T + obs_block demo_y (cov 1%:M) \in unitmx.
Proof.
split; first by exists ord0; rewrite mxE.
split; first by exists ord_max; rewrite mxE.
apply: pd_unit; apply: pdDr; first by apply: psd_conj; exact: gram_psd.
suff -> : obs_block demo_y (cov 1%:M) = 1%:M by exact: pd1.
apply/matrixP => i j; rewrite cov1 !mxE; congr (_%:R); congr nat_of_bool.
apply/eqP/eqP => [|-> //]; rewrite /sel => /tuple_uniqP h; apply: h.
by rewrite filter_uniq // enum_uniq.
Qed.

(** C13 *)
Theorem C13_all_missing tria (nx ny : nat) (m : 'cV[R]_nx) (chol_P : 'M[R]_nx) (H : 'M[R]_(ny, nx))
    (d : 'cV[R]_ny) (chol_R : 'M[R]_ny) (y : 'cV[option R]_ny) (ell : R) m' L' ell' :
  tria_ok tria -> (forall i, y i ord0 = None) ->
  update tria m chol_P H d chol_R y ell = (m', L', ell') ->
  [/\ m' = m, is_trig_mx L', L' *m L'^T = chol_P *m chol_P^T & ell' = ell].
Proof. by move=> ok h E; exact: (update_all_nan ok h E). Qed.
Print Assumptions C13_all_missing.
Example C13_hypotheses_met : forall i, (const_mx None : 'cV[option R]_3) i ord0 = None.
Proof. by move=> i; rewrite mxE. Qed.

(** C14: one step of the scan against predict and update *)
Theorem C14_scan_step tria (nx ny : nat) (F : 'M[R]_nx) (c : 'cV[R]_nx) (chol_Q : 'M[R]_nx) (H : 'M[R]_(ny, nx))
    (d : 'cV[R]_ny) (chol_R : 'M[R]_ny) (y : 'cV[option R]_ny) (m : 'cV[R]_nx) (chol_P : 'M[R]_nx) (ell : R)
    mp Lp mu Lu lu e :
  tria_ok tria ->
  obs_rows y H *m cov chol_Q *m (obs_rows y H)^T + obs_block y (cov chol_R) \in unitmx ->
  predict tria m chol_P F c chol_Q = (mp, Lp) ->
  update tria mp Lp H d chol_R y ell = (mu, Lu, lu) ->
  filtering_operator tria (MkFSE 0 m chol_P 0 0 ell)
    (associative_params_single tria F c chol_Q H d chol_R y) = e ->
  [/\ fA e = 0, feta e = 0, fZ e = 0, fb e = mu &
  [/\ is_trig_mx (fU e), cov (fU e) = cov Lu &
      is_trig_mx chol_P -> chol_P \in unitmx -> fell e = lu]].
Proof. by move=> ok uS Ep Eu Ee; exact: (scan_step ok uS Ep Eu Ee). Qed.
Print Assumptions C14_scan_step.

(** whole runs, both modes: filtering means, covariances and evidence are those of the Kalman recursion *)
Theorem C14_filter_run_exact tria (nx ny : nat) (Inp Key : Type)
    (get_init_params : Inp -> 'cV[R]_nx * 'M[R]_nx)
    (get_dynamics_params : Inp -> 'M[R]_nx * 'cV[R]_nx * 'M[R]_nx)
    (get_observation_params : Inp -> 'M[R]_(ny, nx) * 'cV[R]_ny * 'M[R]_ny * 'cV[option R]_ny)
    (split : Key -> nat -> list Key) (inputs : list Inp) (parallel : bool) (key : option Key) :
  tria_ok tria -> DriverSpec.split_ok split -> inputs <> nil ->
  nondegenerate get_init_params get_dynamics_params get_observation_params inputs ->
  let flt := kalman_build_filter tria (Key := Key) get_init_params get_dynamics_params get_observation_params in
  exists states, ScanModel.filter split flt inputs parallel key = ScanModel.Ok states /\
    List.length states = List.length inputs /\
    forall t s b, List.nth_error states t = Some s ->
      List.nth_error (exact get_init_params get_dynamics_params get_observation_params inputs) t = Some b ->
      [/\ kf_mean s = bmean b, is_trig_mx (kf_chol_cov s), cov (kf_chol_cov s) = bcov b &
          kf_log_normalizing_constant s = bell b].
Proof.
move=> ok sok ne nd flt; have [st [E [L H]]] := filter_exact ok sok parallel key ne nd.
exists st; split=> //; split=> // t s b Es Eb; have [h1 h2 [h3 _] h4 _] := H _ _ _ Es Eb; by split.
Qed.
Print Assumptions C14_filter_run_exact.

(** C15 *)
Theorem C15_operator_associative tria (nx : nat) (e1 e2 e3 : FilterScanElement nx) :
  tria_ok tria ->
  is_trig_mx (fU e1) -> fU e1 \in unitmx -> is_trig_mx (fU e2) -> fU e2 \in unitmx ->
  let l := filtering_operator tria (filtering_operator tria e1 e2) e3 in
  let r := filtering_operator tria e1 (filtering_operator tria e2 e3) in
  [/\ fA l = fA r, fb l = fb r, cov (fU l) = cov (fU r), feta l = feta r & cov (fZ l) = cov (fZ r)] /\
  fell l = fell r.
Proof.
move=> ok t1 u1 t2 u2 l r.
by have [a1 a2 a3 a4 a5 a6] := op_assoc ok e3 (conj t1 u1 : good e1) (conj t2 u2 : good e2).
Qed.
Print Assumptions C15_operator_associative.
Theorem C15_parallel_is_sequential tria (nx ny : nat) (Inp Key : Type)
    (get_init_params : Inp -> 'cV[R]_nx * 'M[R]_nx)
    (get_dynamics_params : Inp -> 'M[R]_nx * 'cV[R]_nx * 'M[R]_nx)
    (get_observation_params : Inp -> 'M[R]_(ny, nx) * 'cV[R]_ny * 'M[R]_ny * 'cV[option R]_ny)
    (split : Key -> nat -> list Key) (inputs : list Inp) (key : option Key) :
  tria_ok tria -> DriverSpec.split_ok split -> inputs <> nil ->
  nondegenerate get_init_params get_dynamics_params get_observation_params inputs ->
  let flt := kalman_build_filter tria (Key := Key) get_init_params get_dynamics_params get_observation_params in
  exists ps ss, ScanModel.filter split flt inputs true key = ScanModel.Ok ps /\
    ScanModel.filter split flt inputs false key = ScanModel.Ok ss /\
    List.length ps = List.length inputs /\ List.length ss = List.length inputs /\
    forall t p s, List.nth_error ps t = Some p -> List.nth_error ss t = Some s ->
      [/\ kf_mean p = kf_mean s, cov (kf_chol_cov p) = cov (kf_chol_cov s) &
          kf_log_normalizing_constant p = kf_log_normalizing_constant s].
Proof.
move=> ok sok ne nd flt.
have [ps [Ep [Lp Hp]]] := filter_exact ok sok true key ne nd.
have [ss [Es [Ls Hs]]] := filter_exact ok sok false key ne nd.
exists ps, ss; split=> //; split=> //; split=> //; split=> // t p s Et Et'.
have [b Eb] : exists b, List.nth_error (exact get_init_params get_dynamics_params get_observation_params inputs) t = Some b.
  apply: nth_ex; have := nth_lt Et; rewrite Lp; case: (inputs) => //= x xs.
  by rewrite kf_beliefs_length List.map_length.
by have [-> -> _ -> _] := Hp _ _ _ Et Eb; have [-> -> _ -> _] := Hs _ _ _ Et' Eb.
Qed.
Print Assumptions C15_parallel_is_sequential.

(** A two-dimensional model with two observations per step, the first of them missing at every third
    step. *)
Definition demo_init (t : nat) : 'cV[R]_2 * 'M[R]_2 := (0, 1%:M).
Definition demo_dyn (t : nat) : 'M[R]_2 * 'cV[R]_2 * 'M[R]_2 := (const_mx 1, const_mx t%:R, 1%:M).
Definition demo_obs (t : nat) : 'M[R]_2 * 'cV[R]_2 * 'M[R]_2 * 'cV[option R]_2 :=
  (const_mx t%:R, 0, 1%:M, if (t %% 3 == 0)%N then demo_y else const_mx (Some t%:R)).
Lemma obs_block1 n (y : 'cV[option R]_n) : obs_block y (cov 1%:M) = 1%:M.
Proof.
apply/matrixP => i j; rewrite cov1 !mxE; congr (_%:R); congr nat_of_bool.
apply/eqP/eqP => [|-> //]; rewrite /sel => /tuple_uniqP h; apply: h.
by rewrite filter_uniq // enum_uniq.
Qed.
Example C15_hypotheses_met (T : nat) : nondegenerate demo_init demo_dyn demo_obs (iota 0 T.+1).
Proof.
split=> [x _|t x _]; first by split; [exact: scalar_mx_is_trig|exact: unitmx1].
by rewrite /step_of /= /obsR /= obs_block1 cov1 !unitmx1.
Qed.

(** C21: with a singular initial factor the means and covariances of a sequential run are still those of
    the Kalman recursion, and so is the evidence as long as the previous covariances are invertible. *)
Theorem C21_singular_prior_partial tria (nx ny : nat) (Inp Key : Type)
    (get_init_params : Inp -> 'cV[R]_nx * 'M[R]_nx)
    (get_dynamics_params : Inp -> 'M[R]_nx * 'cV[R]_nx * 'M[R]_nx)
    (get_observation_params : Inp -> 'M[R]_(ny, nx) * 'cV[R]_ny * 'M[R]_ny * 'cV[option R]_ny)
    (split : Key -> nat -> list Key) (inputs : list Inp) (key : option Key) :
  tria_ok tria -> DriverSpec.split_ok split -> inputs <> nil ->
  (forall t x, List.nth_error inputs (S t) = Some x -> regular get_dynamics_params get_observation_params x) ->
  let flt := kalman_build_filter tria (Key := Key) get_init_params get_dynamics_params get_observation_params in
  let bs := exact get_init_params get_dynamics_params get_observation_params inputs in
  exists states, ScanModel.filter split flt inputs false key = ScanModel.Ok states /\
    List.length states = List.length inputs /\
    forall t s b, List.nth_error states t = Some s -> List.nth_error bs t = Some b ->
      [/\ kf_mean s = bmean b, cov (kf_chol_cov s) = bcov b &
          (forall x, List.nth_error inputs 0 = Some x -> is_trig_mx (get_init_params x).2) ->
          inv_before bs t -> kf_log_normalizing_constant s = bell b].
Proof.
move=> ok sok ne reg flt bs; have [st [E [L H]]] := filter_seq_exact ok get_init_params sok key ne reg.
exists st; split=> //; split=> // t s b Es Eb; have [h1 h2 _ _ h5] := H _ _ _ Es Eb; by split.
Qed.
Print Assumptions C21_singular_prior_partial.
Definition known_init (t : nat) : 'cV[R]_2 * 'M[R]_2 := (const_mx 1, 0).
Example C21_partial_hypotheses_met (t : nat) :
  regular demo_dyn demo_obs t /\ (known_init t).2 \notin unitmx /\ is_trig_mx (known_init t).2.
Proof.
split; last first.
  by rewrite /= unitmxE det0 unitr0; split=> //; apply/is_trig_mxP => i j _; rewrite mxE.
by apply: nondegenerate_regular; rewrite /step_of /= /obsR /= ?obs_block1 ?cov1 unitmx1.
Qed.

(** The full statement is false: for a scalar state that is known exactly (chol_P0 = 0) the log
    normalizing constant after the first step is NaN, although the evidence is a real number. *)
Theorem C21_known_state_gives_nan tria (ny : nat) (Inp Key : Type) (get_init_params : Inp -> 'cV[R]_1 * 'M[R]_1)
    (get_dynamics_params : Inp -> 'M[R]_1 * 'cV[R]_1 * 'M[R]_1)
    (get_observation_params : Inp -> 'M[R]_(ny, 1) * 'cV[R]_ny * 'M[R]_ny * 'cV[option R]_ny)
    (u0 u1 : Inp) (key : option Key) :
  tria_ok tria -> (get_init_params u0).2 = 0 ->
  let e0 := kf_elem (kalman_init_prepare get_init_params u0 key) in
  let e1 := kf_elem (kalman_filter_prepare tria get_dynamics_params get_observation_params u1 key) in
  operator_ell_ext tria e0 e1 (Fin (fell e0)) (Fin (fell e1)) = NaN.
Proof.
move=> ok z; apply: operator_ell_singular => //; rewrite /kalman_init_prepare.
by move: z; case: (get_init_params u0) => m P /= ->; rewrite /ent mxE.
Qed.
Print Assumptions C21_known_state_gives_nan.
(** ... and NaN stays *)
Theorem C21_nan_stays tria e1 e2 ell2 : operator_ell_ext tria e1 e2 NaN ell2 = NaN.
Proof.
by case: e1 e2 => A1 b1 U1 h1 Z1 m1 [A2 b2 U2 h2 Z2 m2]; rewrite /operator_ell_ext.
Qed.
Print Assumptions C21_nan_stays.
(** one step of x' = x + N(0, 1), y = x' + N(0, 1), y = 0 observed, x_0 = 1 known *)
Definition known_scalar_init (u : unit) : 'cV[R]_1 * 'M[R]_1 := (const_mx 1, 0).
Definition scalar_dyn (u : unit) : 'M[R]_1 * 'cV[R]_1 * 'M[R]_1 := (1%:M, 0, 1%:M).
Definition scalar_obs (u : unit) : 'M[R]_1 * 'cV[R]_1 * 'M[R]_1 * 'cV[option R]_1 := (1%:M, 0, 1%:M, const_mx (Some 0)).
Theorem C21_refuted tria : tria_ok tria ->
  exists (get_init_params : unit -> 'cV[R]_1 * 'M[R]_1) (get_dynamics_params : unit -> 'M[R]_1 * 'cV[R]_1 * 'M[R]_1)
    (get_observation_params : unit -> 'M[R]_1 * 'cV[R]_1 * 'M[R]_1 * 'cV[option R]_1),
  [/\ is_trig_mx (get_init_params tt).2,
      obsR (step_of get_dynamics_params get_observation_params tt) \in unitmx,
      regular get_dynamics_params get_observation_params tt &
      let e0 := kf_elem (kalman_init_prepare get_init_params tt (None : option unit)) in
      let e1 := kf_elem (kalman_filter_prepare tria get_dynamics_params get_observation_params tt (None : option unit)) in
      forall evidence : R, operator_ell_ext tria e0 e1 (Fin (fell e0)) (Fin (fell e1)) <> Fin evidence].
Proof.
move=> ok; exists known_scalar_init, scalar_dyn, scalar_obs; split.
- by apply/is_trig_mxP => i j _; rewrite mxE.
- by rewrite /step_of /= /obsR /= obs_block1 unitmx1.
- by apply: nondegenerate_regular; rewrite /step_of /= /obsR /= ?obs_block1 ?cov1 unitmx1.
move=> e0 e1 ev; rewrite C21_known_state_gives_nan //.
Qed.
Print Assumptions C21_refuted.
(** the special-value model agrees with the real one whenever the state is uncertain *)
Theorem C21_uncertain_scalar_state tria e1 e2 : tria_ok tria -> ent (fU e1) <> R0 ->
  operator_ell_ext tria e1 e2 (Fin (fell e1)) (Fin (fell e2)) = Fin (fell (filtering_operator tria e1 e2)).
Proof. by move=> ok; exact: operator_ell_fin. Qed.
Print Assumptions C21_uncertain_scalar_state.
