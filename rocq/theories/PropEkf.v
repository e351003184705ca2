(** Property C80: with nonlinear callbacks the moments filter is the extended Kalman filter. *)
From Coq Require Import Reals Lra Lia List.
From mathcomp Require Import all_ssreflect all_algebra.
From Verif Require Import RStruct MxBase ZmodTac KalmanModel LinearizeModel LinKalmanModel GaussSpec KalmanSpec LinearizeSpec LinSpec
  EkfSpec MvnProofs MvnProofs2 KalmanProofs LinearizeProofs LinearizeProofs2 LinearizeProofs3 TriaExist KalmanRuns LinRuns LinObs LinSmooth PropMvn PropLinearize PropLinObs PropLinKalman.
From Verif Require ScanModel DriverSpec DriverProofs.
Set Implicit Arguments.
Unset Strict Implicit.
Unset Printing Implicit Defensive.
Local Open Scope ring_scope.
Import GRing.Theory Num.Theory Order.Theory.

Lemma obs_rowsD n p (y : 'cV[option R]_n) (A B : 'M[R]_(n, p)) : obs_rows y (A + B) = obs_rows y A + obs_rows y B.
Proof. by apply/matrixP => i j; rewrite !mxE. Qed.
Lemma obs_rowsM n p q (y : 'cV[option R]_n) (A : 'M[R]_(n, p)) (B : 'M[R]_(p, q)) : obs_rows y (A *m B) = obs_rows y A *m B.
Proof. by apply/matrixP => i j; rewrite !mxE; apply: eq_bigr => k _; rewrite mxE. Qed.

(** the derivative of a function on real points, seen by the differentiation routine *)
Lemma jacobian_at jacobian n m (fn : moments_fn n m) (f : 'cV[R]_n -> 'cV[R]_m) p J :
  jacobian_ok jacobian -> (forall z, (fn (map_mx Some z)).1 = map_mx Some (f z)) -> derivative_at f p J ->
  jacobian _ _ (fun z => (fn z).1) (map_mx Some p) = map_mx Some J.
Proof.
move=> jok fE dJ; apply: jok => i; exists (f p i ord0); split; first by rewrite fE mxE.
move=> eps /dJ [d [d0 hd]]; exists d; split=> // h /hd le; exists (f (p + h) i ord0); split.
  by rewrite moved_some fE mxE.
apply: le_trans le; apply: le_trans (le_maxnorm _ i); rewrite le_eqVlt; apply/orP; left; apply/eqP.
have e : (f (p + h) - f p - J *m h) i ord0 = f (p + h) i ord0 - f p i ord0 - (J *m h) i ord0.
  by rewrite mxE [(f (p + h) - f p) i ord0]mxE [(- (J *m h)) i ord0]mxE [(- f p) i ord0]mxE.
by rewrite e; congr `|_ - _|; rewrite mxE; apply: eq_bigr => j _; rewrite !mxE.
Qed.

(** what a state says *)
Definition view_of nx Inp (s : @LinState nx Inp) : view nx Inp :=
  View (lin_mean s) (cov (lin_chol_cov s)) (lin_ell s) (lin_inputs s) (lin_mean_prev s).
(** sequential runs whose steps are extended Kalman steps *)
Lemma ekf_runs nx Inp Key (split : Key -> nat -> list Key) (split_spec : DriverSpec.split_ok split)
    (obj : ScanModel.Filter Inp Key (option (@LinState nx Inp))) first trans meas x0 xs key :
  (forall k, exists s, ScanModel.init_prepare obj x0 k = Some s /\ view_of s = first x0) ->
  (forall t x s k, List.nth_error xs t = Some x ->
     exists s', ScanModel.filter_combine obj (Some s) (ScanModel.filter_prepare obj x k) = Some s' /\
       view_of s' = ekf_step trans meas (view_of s) x) ->
  exists states, ScanModel.filter split obj (x0 :: xs) false key = ScanModel.Ok (List.map Some states) /\
    List.map (@view_of nx Inp) states = ekf_run trans meas (first x0) xs.
Proof.
move=> h0 H; have ne : x0 :: xs <> nil by [].
have [st [-> [L [R0 RS]]]] := DriverProofs.filter_sequential _ split_spec obj (x0 :: xs) key ne.
move: (DriverSpec.child_key _ _ _) R0 RS => keys R0 RS.
have R0' := R0 x0 erefl.
have [s0 [e0 v0]] := h0 (keys 0%nat).
rewrite e0 in R0'; rewrite -v0; have RS' : forall t x s, List.nth_error xs t = Some x -> List.nth_error st t = Some s ->
    List.nth_error st t.+1 = Some (ScanModel.filter_combine obj s (ScanModel.filter_prepare obj x (keys t.+1))).
  by move=> t x s Ex Es; apply: RS.
clear R0 RS e0 v0 ne h0; elim: xs s0 st keys L H R0' RS' => [|x xs IH] s0 st keys L H R0 RS.
  case: st L R0 {RS} => [|a [|? ?]] //= _ [->]; by exists (s0 :: nil).
have [s1 [e1 v1]] := H 0%nat x s0 (keys 1%nat) erefl.
have RS1 := RS 0%nat x _ erefl R0; rewrite e1 in RS1.
case: st L R0 RS RS1 => [|a st] //= [L] [->] RS RS1.
have [t|t|ss [[e] v]] := IH s1 st (fun t => keys t.+1) L _ RS1.
- exact: (H t.+1).
- exact: (RS t.+1).
exists (s0 :: ss); split; first by rewrite /= e.
by rewrite /= v v1.
Qed.

Section Main.
Variable tria : forall m k : nat, 'M[R]_(m, k) -> 'M[R]_m.
Variable jacobian : forall n p, ('cV[option R]_n -> 'cV[option R]_p) -> 'cV[option R]_n -> 'M[option R]_(p, n).
Variables nx ny : nat.
Variables Inp Key : Type.
Variable split : Key -> nat -> list Key.
Variables (dummy_mean : 'cV[R]_nx) (dummy_mx : 'M[R]_nx).
Notation St := (@LinState nx Inp).
Variable get_init_params : Inp -> 'cV[R]_nx * 'M[R]_nx.
Variable get_dynamics_params : St -> Inp -> moments_fn nx nx * 'cV[option R]_nx.
Variable get_observation_params : St -> Inp -> moments_fn nx ny * 'cV[option R]_nx * 'cV[option R]_ny.
(** a callback result stands for a nonlinear transition or measurement *)
Definition is_transition (r : moments_fn nx nx * 'cV[option R]_nx) (t : transition nx) : Prop :=
  exists fn L, [/\ r = (fn, map_mx Some (t_point t)), forall z, fn (map_mx Some z) = (map_mx Some (t_fun t z), map_mx Some (L z)),
    cov (L (t_point t)) = t_cov t & derivative_at (t_fun t) (t_point t) (t_jac t)].
Definition is_measurement (r : moments_fn nx ny * 'cV[option R]_nx * 'cV[option R]_ny) (o : measurement nx) : Prop :=
  exists fn h L p (J : 'M[R]_(ny, nx)) y, [/\ r = (fn, map_mx Some p, y),
    forall z, fn (map_mx Some z) = (map_mx Some (h z), map_mx Some (L z)),
    derivative_at h p J & o = Measurement h (cov (L p)) p J y].
Variables (trans : view nx Inp -> Inp -> transition nx) (meas : view nx Inp -> Inp -> measurement nx).
Definition first_view (x : Inp) : view nx Inp :=
  View (get_init_params x).1 (cov (get_init_params x).2) 0 x dummy_mean.
Notation flt := (moments_build_filter (Key := Key) dummy_mean dummy_mx tria jacobian get_init_params get_dynamics_params
  get_observation_params).

Lemma linearize_nonlinear n m (fn : moments_fn n m) f L p J : jacobian_ok jacobian ->
  (forall z, fn (map_mx Some z) = (map_mx Some (f z), map_mx Some (L z))) -> derivative_at f p J ->
  linearize_moments jacobian fn (map_mx Some p) = (map_mx Some J, map_mx Some (f p - J *m p), map_mx Some (L p)).
Proof.
move=> jok fE dJ; rewrite /linearize_moments (jacobian_at (f := f) jok _ dJ); last by move=> z; rewrite fE.
by rewrite fE nan_mulE nan_subE.
Qed.
Lemma first_orderE n m (f : 'cV[R]_n -> 'cV[R]_m) p J x : J *m x + (f p - J *m p) = first_order f p J x.
Proof. by rewrite /first_order mulmxBr addrCA. Qed.

Lemma ekf_step_ok (s : St) x k : tria_ok tria -> jacobian_ok jacobian ->
  is_transition (get_dynamics_params s x) (trans (view_of s) x) ->
  (forall s', is_measurement (get_observation_params s' x) (meas (view_of s') x) /\
     obs_block (o_y (meas (view_of s') x)) (o_cov (meas (view_of s') x)) \in unitmx) ->
  exists s', ScanModel.filter_combine (flt false) (Some s) (ScanModel.filter_prepare (flt false) x k) = Some s' /\
    view_of s' = ekf_step trans meas (view_of s) x.
Proof.
move=> ok jok; move Et: (trans (view_of s) x) => t.
case=> fn [L [E1 fE LQ dJ]] Hm.
rewrite /= /moments_combine /lin_pass_prepare [lin_inputs _]/= E1 (linearize_nonlinear jok fE dJ) /real_params !nan_free_some.
case Ep: (predict tria (lin_mean s) (lin_chol_cov s) _ _ _) => [mp Lp].
have [p1 p2 p3] := predict_spec ok Ep.
set s1 := lin_state_dummy_elem _ _ _ _ _ _ _.
have ev : view_of s1 = ekf_predict (view_of s) x t.
  by rewrite /view_of /ekf_predict /= -first_orderE -LQ -p1 -p3.
have := Hm s1; rewrite ev; rewrite /ekf_step Et; move: (meas _ x) => o [[fo [h [Lo [q [J [y [E2 fo' dH eo]]]]]]] uR]; subst o.
rewrite E2 (linearize_nonlinear jok fo' dH) /real_obs_params !nan_free_rows_some.
case Eu: (update tria mp Lp _ _ _ _ 0) => [[mu Lu] lu].
have [u1 u2 u3 u4] := update_nan ok (noise_regular Lp J uR) Eu.
eexists; split; first by reflexivity.
have e1 : v_mean (ekf_predict (view_of s) x t) = mp by rewrite -ev.
have e2 : v_cov (ekf_predict (view_of s) x t) = cov Lp by rewrite -ev.
have e3 : obs_rows y J *m mp + obs_rows y (h q - J *m q) = obs_rows y (first_order h q J mp).
  by rewrite -obs_rowsM -obs_rowsD first_orderE.
rewrite /view_of /ekf_update e1 e2 [o_fun _]/= [o_point _]/= [o_jac _]/= [o_y _]/= -e3; congr View => //.
by rewrite /= /lin_ell /= u4 addr0.
Qed.

(** ** the moments filter with arbitrary differentiable callbacks is the extended Kalman filter *)
Definition nonlinear_input (x : Inp) : Prop := forall s,
  [/\ is_transition (get_dynamics_params s x) (trans (view_of s) x),
      is_measurement (get_observation_params s x) (meas (view_of s) x) &
      obs_block (o_y (meas (view_of s) x)) (o_cov (meas (view_of s) x)) \in unitmx].
Theorem C80_extended_kalman x0 xs key : tria_ok tria -> jacobian_ok jacobian -> DriverSpec.split_ok split ->
  (forall t x, List.nth_error xs t = Some x -> nonlinear_input x) ->
  exists states, ScanModel.filter split (flt false) (x0 :: xs) false key = ScanModel.Ok (List.map Some states) /\
    List.map (@view_of nx Inp) states = ekf_run trans meas (first_view x0) xs.
Proof.
move=> ok jok sok H; apply: (@ekf_runs nx Inp Key split sok (flt false) first_view trans meas) => [k|t x s k Ex].
  by rewrite /= /moments_init_prepare /first_view; case: (get_init_params x0) => m0 L0; eexists.
have Hx := H t x Ex; apply: ekf_step_ok => //; first by have [] := Hx s.
by move=> s'; have [] := Hx s'.
Qed.

(** linearised at the mean of the state passed to the callback, this is the classic form *)
Lemma classic_stepE v x : (forall w, t_point (trans w x) = v_mean w) -> (forall w, o_point (meas w x) = v_mean w) ->
  ekf_step trans meas v x = classic_step trans meas v x.
Proof.
move=> hp ho; rewrite /ekf_step /classic_step /ekf_predict /ekf_update /first_order hp subrr mulmx0 addr0.
by rewrite ho /= subrr mulmx0 addr0 /gauss subr0.
Qed.
Lemma classic_runE v xs : (forall t x, List.nth_error xs t = Some x ->
    forall w, t_point (trans w x) = v_mean w /\ o_point (meas w x) = v_mean w) ->
  ekf_run trans meas v xs = classic_run trans meas v xs.
Proof.
elim: xs v => //= x xs IH v H; rewrite classic_stepE; last 2 first.
- by move=> w; have [] := H 0%nat x erefl w.
- by move=> w; have [] := H 0%nat x erefl w.
by rewrite IH // => t; exact: (H t.+1).
Qed.
Theorem C80_classic_form x0 xs key : tria_ok tria -> jacobian_ok jacobian -> DriverSpec.split_ok split ->
  (forall t x, List.nth_error xs t = Some x -> nonlinear_input x /\
     forall w, t_point (trans w x) = v_mean w /\ o_point (meas w x) = v_mean w) ->
  exists states, ScanModel.filter split (flt false) (x0 :: xs) false key = ScanModel.Ok (List.map Some states) /\
    List.map (@view_of nx Inp) states = classic_run trans meas (first_view x0) xs.
Proof.
move=> ok jok sok H; have [t x Ex|st [E v]] := @C80_extended_kalman x0 xs key ok jok sok.
  by have [] := H t x Ex.
by exists st; rewrite E v classic_runE // => t x Ex; have [] := H t x Ex.
Qed.

(** ** the associative filter linearises at points chosen before the run, and is then the exact Kalman
    filter of the linearised model in both modes *)
Definition dummy_view (x : Inp) : view nx Inp := View dummy_mean (cov dummy_mx) 0 x dummy_mean.
Definition fixed_step (x : Inp) : anystep nx :=
  let t := trans (dummy_view x) x in let o := meas (dummy_view x) x in
  existT _ (o_dim o) (LgStep (t_jac t) (t_fun t (t_point t) - t_jac t *m t_point t) (t_cov t)
         (o_jac o) (o_fun o (o_point o) - o_jac o *m o_point o) (o_cov o) (o_y o)).
Theorem C80_fixed_points x0 xs (parallel : bool) key : tria_ok tria -> jacobian_ok jacobian -> DriverSpec.split_ok split ->
  is_trig_mx (get_init_params x0).2 -> (get_init_params x0).2 \in unitmx ->
  (forall t x, List.nth_error xs t = Some x -> nonlinear_input x /\ t_cov (trans (dummy_view x) x) \in unitmx) ->
  exists states, ScanModel.filter split (flt true) (x0 :: xs) parallel key = ScanModel.Ok (List.map Some states) /\
    List.Forall2 (fun s b => [/\ lin_mean s = bmean b, cov (lin_chol_cov s) = bcov b & lin_ell s = bell b])
      states (any_beliefs (Belief (get_init_params x0).1 (cov (get_init_params x0).2) 0) (List.map fixed_step xs)).
Proof.
move=> ok jok sok t0 u0 H.
have -> : any_beliefs (Belief (get_init_params x0).1 (cov (get_init_params x0).2) 0) (List.map fixed_step xs)
  = lin_exact (fun x => Belief (get_init_params x).1 (cov (get_init_params x).2) 0) fixed_step (x0 :: xs) by [].
apply: (lin_assoc_exact ok sok) => // [x k [<-]|t x k Ex].
  rewrite /= /moments_init_prepare; case: (get_init_params x0) t0 u0 => m0 L0 /= t0 u0.
  by exists m0, L0, dummy_mean.
have [Hx uQ] := H _ _ Ex.
have [] := Hx (lin_dummy_state dummy_mean dummy_mx x).
rewrite (_ : view_of _ = dummy_view x) // => -[fn [L [E1 fE LQ dJ]]] [fo [h [Lo [q [J [y [E2 foE dH eo]]]]]]] uR.
move: uQ; rewrite -LQ gram_unit => uQ.
exists ny, (t_jac (trans (dummy_view x) x)), (t_fun (trans (dummy_view x) x) (t_point (trans (dummy_view x) x))
  - t_jac (trans (dummy_view x) x) *m t_point (trans (dummy_view x) x)), (L (t_point (trans (dummy_view x) x))), J, (h q - J *m q), (Lo q), y, dummy_mean.
split=> //.
- rewrite /= /moments_assoc_prepare E1 E2 (linearize_nonlinear jok fE dJ) (linearize_nonlinear jok foE dH).
  by rewrite /real_params /real_obs_params !nan_free_some !nan_free_rows_some.
- by move: uR; rewrite eo.
- by move=> b; rewrite /any_kf_step /fixed_step eo LQ.
Qed.

(** ** the moments smoother on any NaN-free filter states is the extended Rauch-Tung-Striebel pass, with the
    transitions linearised at the filter states *)
Definition linear_transition (s : St) (x : Inp) : 'M[R]_nx * 'cV[R]_nx * 'M[R]_nx :=
  let t := trans (view_of s) x in (t_jac t, t_fun t (t_point t) - t_jac t *m t_point t, t_cov t).
Theorem C80_extended_smoother (dummy_like : Inp -> Inp) (inputs_of : option St -> Inp) (store_gain store_cov : bool)
    (fs : list St) (xs : list Inp) (parallel : bool) key :
  tria_ok tria -> jacobian_ok jacobian -> DriverSpec.split_ok split ->
  xs <> nil -> List.length fs = S (List.length xs) ->
  (forall t f x, List.nth_error fs t = Some f -> List.nth_error xs t = Some x ->
     is_transition (get_dynamics_params f x) (trans (view_of f) x) /\
     rts_pred (cov (lin_chol_cov f)) (t_jac (trans (view_of f) x)) (t_cov (trans (view_of f) x)) \in unitmx) ->
  let sm := moments_build_smoother (Key := Key) dummy_mx tria jacobian dummy_like get_dynamics_params store_gain store_cov in
  exists states,
    ScanModel.smoother split dummy_like inputs_of sm (List.map Some fs) (Some xs) parallel key
      = ScanModel.Ok (List.map Some states) /\
    List.Forall2 (fun s p => ks_mean s = p.1 /\ cov (ks_chol_cov s) = p.2) states
      (rts_pass (List.map (fun s => (lin_mean s, cov (lin_chol_cov s))) fs)
                (List.map (fun p => linear_transition p.1 p.2) (List.combine fs xs))) /\
    forall t f x s, List.nth_error fs t = Some f -> List.nth_error xs t = Some x -> List.nth_error states t = Some s ->
      let: (F, c, Q) := linear_transition f x in let P := cov (lin_chol_cov f) in
      (store_gain -> ks_gain s = Some (rts_gain P F Q)) /\
      (store_cov -> exists V, [/\ ks_chol_cov_given_next s = Some V, is_trig_mx V & cov V = rts_cond_cov P F Q]).
Proof.
move=> ok jok sok ne len H sm.
have [|st [E [H1 H2]]] := @lin_smooth_exact tria ok nx Inp Key split sok dummy_like dummy_mx store_gain store_cov inputs_of sm
  erefl erefl linear_transition fs xs ne len _ parallel key; last by exists st.
move=> t f x k Ef Ex; have [[fn [L [E fE LQ dJ]]] u] := H _ _ _ Ef Ex.
exists (L (t_point (trans (view_of f) x))); rewrite /linear_transition; split=> //.
by rewrite /= E (linearize_nonlinear jok fE dJ) /= !nan_free_some.
Qed.
End Main.
Print Assumptions C80_extended_kalman.
Print Assumptions C80_classic_form.
Print Assumptions C80_fixed_points.
Print Assumptions C80_extended_smoother.

(** ** a case: state and observation are squared at every step, every second observation is missing; linearised at
    the current mean *)
Section Demo.
Definition square (z : 'cV[R]_1) : 'cV[R]_1 := const_mx ((z ord0 ord0) ^+ 2).
Lemma square_derivative p : derivative_at square p (const_mx (2%:R * p ord0 ord0)).
Proof.
move=> eps e0; exists eps; split=> // h; rewrite /maxnorm !big_ord_recl !big_ord0 !mxE big_ord1 !mxE; move: (p ord0 ord0) (h ord0 ord0) => v w.
have -> : (v + w) ^+ 2 - v ^+ 2 - 2%:R * v * w = w * w by rewrite !expr2; toR; ring.
have mE (u : R) : Num.max `|u| 0 = `|u| by apply/max_idPl.
by rewrite !mE normrM => le; rewrite ler_wpmul2r.
Qed.
Definition demo_fn : moments_fn 1 1 := fun z => (map_mx Some (square (map_mx (odflt 0) z)), map_mx Some 1%:M).
Definition demo_y (t : nat) : 'cV[option R]_1 := const_mx (if odd t then None else Some 1).
Definition demo_trans (v : view 1 nat) (t : nat) : transition 1 :=
  Transition square 1%:M (v_mean v) (const_mx (2%:R * v_mean v ord0 ord0)).
Definition demo_meas (v : view 1 nat) (t : nat) : measurement 1 :=
  Measurement square 1%:M (v_mean v) (const_mx (2%:R * v_mean v ord0 ord0)) (demo_y t).
Lemma demo_nonlinear t : nonlinear_input (fun s (_ : nat) => (demo_fn, map_mx Some (lin_mean s)))
  (fun s t => (demo_fn, map_mx Some (lin_mean s), demo_y t)) demo_trans demo_meas t.
Proof.
move=> s; split.
- exists demo_fn, (fun=> 1%:M); split=> //=; last exact: square_derivative.
    by move=> z; rewrite /demo_fn odflt_some.
  by rewrite /cov trmx1 mulmx1.
- exists demo_fn, square, (fun=> 1%:M), (lin_mean s), (const_mx (2%:R * lin_mean s ord0 ord0)), (demo_y t).
  split=> //=; last by rewrite /demo_meas /cov trmx1 mulmx1.
    by move=> z; rewrite /demo_fn odflt_some.
  exact: square_derivative.
- by rewrite /= obs_block_scalar unitmx1.
Qed.
Example C80_case (T : nat) : exists states,
  ScanModel.filter tt_split (moments_build_filter (Key := unit) 0 0 some_tria some_jacobian (fun _ : nat => (const_mx 1, 1%:M))
    (fun s _ => (demo_fn, map_mx Some (lin_mean s))) (fun s t => (demo_fn, map_mx Some (lin_mean s), demo_y t)) false)
    (iota 0 T.+1) false None = ScanModel.Ok (List.map Some states) /\
  List.map (@view_of 1 nat) states = classic_run demo_trans demo_meas (View (const_mx 1) 1%:M 0 0%N 0) (iota 1 T).
Proof.
have [t x Ex|st [E v]] := @C80_classic_form some_tria some_jacobian 1 1 nat unit tt_split 0 0 (fun _ => (const_mx 1, 1%:M))
    (fun s _ => (demo_fn, map_mx Some (lin_mean s))) (fun s t => (demo_fn, map_mx Some (lin_mean s), demo_y t)) demo_trans demo_meas 0%N
    (iota 1 T) None (@some_tria_ok) some_jacobian_ok tt_split_ok.
  by split; first exact: demo_nonlinear.
by exists st; split=> //; rewrite v /first_view /= /cov trmx1 mulmx1.
Qed.
End Demo.
