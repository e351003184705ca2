(** Property C81: with arbitrary smooth log densities the Taylor filter is the extended Kalman filter of their
    second-order approximations. *)
From Coq Require Import Reals Lra Lia List.
From mathcomp Require Import all_ssreflect all_algebra.
From Verif Require Import RStruct MxBase ZmodTac KalmanModel LinalgModel LinearizeModel LinKalmanModel GaussSpec KalmanSpec
  LinalgSpec LinearizeSpec LinSpec EkfSpec LaplaceSpec MvnProofs MvnProofs2 KalmanProofs LinearizeProofs LinearizeProofs2
  LinearizeProofs3 TriaExist KalmanRuns LinRuns LinObs LinSmooth PropMvn PropLinearize InvSqrtProofs PropLinObs PropLinKalman PropEkf LaplaceProofs.
From Verif Require ScanModel DriverSpec DriverProofs.
Set Implicit Arguments.
Unset Strict Implicit.
Unset Printing Implicit Defensive.
Local Open Scope ring_scope.
Import GRing.Theory Num.Theory Order.Theory.

Lemma map_mx_some_neq n (q : 'cV[R]_n) : (0 < n)%N -> [forall i, isnan ((map_mx Some q : 'cV[option R]_n) i ord0)] = false.
Proof. by move=> n0; apply/negbTE/forallPn; exists (Ordinal n0); rewrite mxE. Qed.

Section Main.
Variable tria : forall m k : nat, 'M[R]_(m, k) -> 'M[R]_m.
Variable svd : forall n, 'M[R]_n -> 'M[R]_n * 'rV[R]_n.
Variable grad : forall n, ('cV[option R]_n -> option R) -> 'cV[option R]_n -> 'cV[option R]_n.
Variable jacobian : forall n p, ('cV[option R]_n -> 'cV[option R]_p) -> 'cV[option R]_n -> 'M[option R]_(p, n).
Variables (rtol : R) (ignore : bool) (nx : nat).
Variables Inp Key : Type.
Variable split : Key -> nat -> list Key.
Variables (dummy_mean : 'cV[R]_nx) (dummy_mx : 'M[R]_nx).
Notation St := (@LinState nx Inp).
Variable get_init_log_density : Inp -> log_pot nx * 'cV[option R]_nx.
Variable get_dynamics_log_density : St -> Inp -> log_cond nx nx * 'cV[option R]_nx * 'cV[option R]_nx.
Variable get_observation_func : St -> Inp -> ObservationOutput nx.
Notation flt := (taylor_build_filter (Key := Key) dummy_mean dummy_mx tria jacobian svd grad rtol ignore
  get_init_log_density get_dynamics_log_density get_observation_func).

(** the initial density near its linearisation point *)
Definition is_laplace_init (r : log_pot nx * 'cV[option R]_nx) (m0 : 'cV[R]_nx) (P0 : 'M[R]_nx) : Prop :=
  exists f l p g L, [/\ r = (f, map_mx Some p), potential_near f l p, expansion0 l p g L, good_precision svd rtol L &
    m0 = p + invmx L *m g /\ P0 = invmx L].
(** the transition density near its linearisation points; both points all NaN: the state does not move *)
Inductive is_laplace_transition : log_cond nx nx * 'cV[option R]_nx * 'cV[option R]_nx -> transition nx -> Prop :=
| LapMove (f : log_cond nx nx) l p q g L M : density_near f l p q -> expansion l p q g L M -> good_precision svd rtol L ->
    is_laplace_transition (f, map_mx Some p, map_mx Some q) (Transition (newton p q g L M) (invmx L) p (invmx L *m M))
| LapSkip f p : is_laplace_transition (f, const_mx None, const_mx None) (Transition id 0 p 1%:M).
Variables (trans : view nx Inp -> Inp -> transition nx) (meas : view nx Inp -> Inp -> measurement nx).
Variables (init_mean : Inp -> 'cV[R]_nx) (init_cov : Inp -> 'M[R]_nx).
Definition laplace_view (x : Inp) : view nx Inp := View (init_mean x) (init_cov x) 0 x dummy_mean.
Definition laplace_input (x : Inp) : Prop := forall s,
  is_laplace_transition (get_dynamics_log_density s x) (trans (view_of s) x) /\
  is_laplace svd rtol ignore (get_observation_func s x) (meas (view_of s) x).

Hypothesis tria_spec : tria_ok tria.
Hypothesis grad_spec : grad_ok grad.
Hypothesis jac_spec : jacobian_ok jacobian.
Hypothesis split_spec : DriverSpec.split_ok split.
Hypothesis rtol0 : 0 <= rtol.
Hypothesis nx0 : (0 < nx)%N.

Lemma laplace_initE x : is_laplace_init (get_init_log_density x) (init_mean x) (init_cov x) -> exists K,
  [/\ taylor_init tria jacobian svd grad rtol ignore get_init_log_density x = Some (init_mean x, K), is_trig_mx K,
      cov K = init_cov x & K \in unitmx].
Proof.
move=> [f [l [p [g [L [E fE ex gp [-> ->]]]]]]].
have fd : density_near (fun _ : 'cV[option R]_nx => f) (fun _ => l) p p.
  by have [r [r0 fE']] := fE; exists r; split=> // x0 v _ nv; exact: fE'.
have ex' : expansion (fun _ : 'cV[R]_nx => l) p p g L (0 : 'M[R]_nx).
  have [r [G [r0 lG Gg d1 d2]]] := expansion_const nx ex; have [r1 [G1 [r10 lG1 Gg1 d11]]] := ex.
  exists r1, (fun _ => G1); split=> //; first by move=> x0 v _ nv; exact: lG1.
  move=> eps e0; exists 1; split=> [|h _]; first exact: ltr01.
  rewrite subrr mul0mx subrr maxnorm0; apply: mulr_ge0; [exact: ltW|exact: maxnorm_ge0].
have [K [EK t KK]] := laplace_full tria_spec grad_spec jac_spec ignore rtol0 fd ex' gp.
exists K; rewrite /taylor_init E EK !nan_free_some; split=> //.
  by rewrite /newton mul0mx addr0.
by rewrite -gram_unit KK unitmx_inv; case: gp => pL _ _; exact: (@pd_unit R_realFieldType).
Qed.
Lemma laplace_dynamicsE s x t : is_laplace_transition (get_dynamics_log_density s x) t ->
  exists K, taylor_dynamics tria jacobian svd grad rtol ignore get_dynamics_log_density s x
    = Some (t_jac t, t_fun t (t_point t) - t_jac t *m t_point t, K) /\ cov K = t_cov t.
Proof.
move E: (get_dynamics_log_density s x) => r h; case: h E => [f l p q g L M fE ex gp|f p] E /=.
  have [K [EK tK KK]] := laplace_full tria_spec grad_spec jac_spec ignore rtol0 fE ex gp.
  exists K; rewrite /taylor_dynamics E EK (map_mx_some_neq _ nx0) /= !nan_free_some; split=> //.
  by rewrite (newton_affine _ _ _ _ _ p) addrAC subrr add0r.
exists 0; rewrite /taylor_dynamics E.
case: (linearize_log_density _ _ _ _ _ _ _ _ _) => [[F c] L].
have -> : [forall i, isnan ((const_mx None : 'cV[option R]_nx) i ord0)] = true by apply/forallP => i; rewrite mxE.
by rewrite /= !nan_free_some mul1mx subrr /cov mul0mx.
Qed.
Lemma laplace_step_ok (s : St) x k : laplace_input x ->
  exists s', ScanModel.filter_combine (flt false) (Some s) (ScanModel.filter_prepare (flt false) x k) = Some s' /\
    view_of s' = ekf_step trans meas (view_of s) x.
Proof.
move=> H; have [/laplace_dynamicsE [K [EK KQ]] _] := H s; move: EK KQ; rewrite /ekf_step; move: (trans (view_of s) x) => t EK KQ.
rewrite /= /taylor_combine /lin_pass_prepare [lin_inputs _]/= EK.
case Ep: (predict tria (lin_mean s) (lin_chol_cov s) _ _ _) => [mp Lp].
have [p1 p2 p3] := predict_spec tria_spec Ep.
set s1 := lin_state_dummy_elem _ _ _ _ _ _ _.
have ev : view_of s1 = ekf_predict (view_of s) x t.
  by rewrite /view_of /ekf_predict /= -first_orderE -KQ -p1 -p3.
have [_] := H s1; rewrite ev; move: (meas _ x) => o /(laplace_acts tria_spec grad_spec jac_spec rtol0) al.
have := update_acts tria_spec al; clear al.
case: (process_observation _ _ _ _ _ _ _) => ny' H' d' X' y' [Hr [dr [X [E st]]]].
rewrite [op_y _]/= [op_H _]/= [op_d _]/= [op_chol_R _]/= in E; rewrite E; cbv beta iota.
case Eu: (update tria mp Lp Hr dr X y' 0) => [[mu Lu] lu].
have [u1 u2 u3 u4] := st _ _ _ _ _ _ Eu.
eexists; split; first by reflexivity.
have e1 : v_mean (ekf_predict (view_of s) x t) = mp by rewrite -ev.
have e2 : v_cov (ekf_predict (view_of s) x t) = cov Lp by rewrite -ev.
have e3 : obs_rows (o_y o) (o_jac o) *m mp + obs_rows (o_y o) (o_fun o (o_point o) - o_jac o *m o_point o)
    = obs_rows (o_y o) (first_order (o_fun o) (o_point o) (o_jac o) mp).
  by rewrite -obs_rowsM -obs_rowsD first_orderE.
rewrite /view_of /ekf_update e1 e2 -e3; congr View => //.
by rewrite /= /lin_ell /= u4 addr0.
Qed.
Theorem C81_laplace_filter x0 xs key :
  is_laplace_init (get_init_log_density x0) (init_mean x0) (init_cov x0) ->
  (forall t x, List.nth_error xs t = Some x -> laplace_input x) ->
  exists states, ScanModel.filter split (flt false) (x0 :: xs) false key = ScanModel.Ok (List.map Some states) /\
    List.map (@view_of nx Inp) states = ekf_run trans meas (laplace_view x0) xs.
Proof.
move=> ini H; apply: (@ekf_runs nx Inp Key split split_spec (flt false) (laplace_view) trans meas) => [k|t x s k Ex].
  have [K [E t KK u]] := laplace_initE ini.
  by rewrite /= /taylor_init_prepare E; eexists; split; [reflexivity|rewrite /laplace_view -KK].
by apply: laplace_step_ok; exact: H Ex.
Qed.

(** the associative filter: the exact Kalman filter of the approximated model, in both modes *)
Theorem C81_fixed_points x0 xs (parallel : bool) key :
  is_laplace_init (get_init_log_density x0) (init_mean x0) (init_cov x0) ->
  (forall t x, List.nth_error xs t = Some x -> laplace_input x /\ t_cov (trans (dummy_view dummy_mean dummy_mx x) x) \in unitmx) ->
  exists states, ScanModel.filter split (flt true) (x0 :: xs) parallel key = ScanModel.Ok (List.map Some states) /\
    List.Forall2 (fun s b => [/\ lin_mean s = bmean b, cov (lin_chol_cov s) = bcov b & lin_ell s = bell b])
      states (any_beliefs (Belief (init_mean x0) (init_cov x0) 0) (List.map (fixed_step dummy_mean dummy_mx trans meas) xs)).
Proof.
move=> ini H.
have -> : any_beliefs (Belief (init_mean x0) (init_cov x0) 0) (List.map (fixed_step dummy_mean dummy_mx trans meas) xs)
  = lin_exact (fun x => Belief (init_mean x) (init_cov x) 0) (fixed_step dummy_mean dummy_mx trans meas) (x0 :: xs) by [].
apply: (lin_assoc_exact tria_spec split_spec) => // [x k [<-]|t x k Ex].
  have [K [E t KK u]] := laplace_initE ini.
  by rewrite /= /taylor_assoc_init_prepare E; exists (init_mean x0), K, dummy_mean; split=> //; rewrite KK.
have [Hx uQ] := H _ _ Ex; have [] := Hx (lin_dummy_state dummy_mean dummy_mx x).
rewrite (_ : view_of _ = dummy_view dummy_mean dummy_mx x) // => /laplace_dynamicsE [K [EK KQ]].
move=> /(laplace_acts tria_spec grad_spec jac_spec rtol0) al.
move: uQ; rewrite -KQ gram_unit => uK.
move: al; rewrite /= /taylor_assoc_prepare EK.
case: (process_observation _ _ _ _ _ _ _) => ny' H' d' X' y' [Hr [dr [X [/= E u st]]]]; move: E; rewrite /real_obs_params => ->.
do 8 eexists; exists dummy_mean; split; first by reflexivity.
- exact: uK.
- exact: u.
- by move=> b; rewrite KQ st.
Qed.

(** the smoother on any NaN-free filter states *)
Theorem C81_laplace_smoother (dummy_like : Inp -> Inp) (inputs_of : option St -> Inp) (store_gain store_cov : bool)
    (fs : list St) (xs : list Inp) (parallel : bool) key :
  xs <> nil -> List.length fs = S (List.length xs) ->
  (forall t f x, List.nth_error fs t = Some f -> List.nth_error xs t = Some x ->
     is_laplace_transition (get_dynamics_log_density f x) (trans (view_of f) x) /\ t_cov (trans (view_of f) x) \in unitmx) ->
  let sm := taylor_build_smoother (Key := Key) dummy_mx tria jacobian dummy_like svd grad rtol ignore get_dynamics_log_density
              store_gain store_cov in
  exists states,
    ScanModel.smoother split dummy_like inputs_of sm (List.map Some fs) (Some xs) parallel key
      = ScanModel.Ok (List.map Some states) /\
    List.Forall2 (fun s p => ks_mean s = p.1 /\ cov (ks_chol_cov s) = p.2) states
      (rts_pass (List.map (fun s => (lin_mean s, cov (lin_chol_cov s))) fs)
                (List.map (fun p => linear_transition trans p.1 p.2) (List.combine fs xs))) /\
    forall t f x s, List.nth_error fs t = Some f -> List.nth_error xs t = Some x -> List.nth_error states t = Some s ->
      let: (F, c, Q) := linear_transition trans f x in let P := cov (lin_chol_cov f) in
      (store_gain -> ks_gain s = Some (rts_gain P F Q)) /\
      (store_cov -> exists V, [/\ ks_chol_cov_given_next s = Some V, is_trig_mx V & cov V = rts_cond_cov P F Q]).
Proof.
move=> ne len H sm.
have [|st [E [H1 H2]]] := @lin_smooth_exact tria tria_spec nx Inp Key split split_spec dummy_like dummy_mx store_gain store_cov inputs_of sm
  erefl erefl (linear_transition trans) fs xs ne len _ parallel key; last by exists st.
move=> t f x k Ef Ex; have [h u] := H _ _ _ Ef Ex; move: u; rewrite /linear_transition.
move: h; move Er: (get_dynamics_log_density f x) => r h.
have pe : ScanModel.smoother_prepare sm (Some f) x k = let: (f1, prev, curr) := get_dynamics_log_density f x in
    lin_smoother_elem tria store_gain store_cov f
      (real_params (linearize_log_density tria svd grad jacobian f1 prev curr rtol ignore)) x by [].
rewrite pe; case: h Er => [fn l p q g L M fE ex gp|fn p] Er u; last first.
  have := mulVmx u; rewrite mulmx0 => /matrixP /(_ (Ordinal nx0) (Ordinal nx0)); rewrite !mxE eqxx => /eqP.
  by rewrite eq_sym oner_eq0.
have [K [EK tK KK]] := laplace_full tria_spec grad_spec jac_spec ignore rtol0 fE ex gp.
exists K; split=> //.
  rewrite Er EK /real_params !nan_free_some; congr (lin_smoother_elem _ _ _ _ (Some (_, _, _)) _).
  by rewrite [RHS]/= (newton_affine _ _ _ _ _ p) addrAC subrr add0r.
apply: (@pd_unit R_realFieldType); apply: pdDr; first by apply: psd_conj; exact: gram_psd.
by case: gp => pL _ _; exact: pd_inv.
Qed.
End Main.
Print Assumptions C81_laplace_filter.
Print Assumptions C81_fixed_points.
Print Assumptions C81_laplace_smoother.

(** ** a case: a quartic initial density and quartic observation potentials, a quadratic transition mean, linearised
    at the current mean; every third predict step is skipped *)
Section Demo.
Lemma maxnorm1 (h : 'cV[R]_1) : maxnorm h = `|h ord0 ord0|.
Proof. by rewrite /maxnorm big_ord_recl big_ord0; apply/max_idPl. Qed.
Lemma second_order_small (F : R -> R) (a D C : R) : 0 <= C ->
  (forall h, `|h| <= 1 -> `|F (a + h) - F a - D * h| <= C * (`|h| * `|h|)) ->
  forall eps, 0 < eps -> exists delta, 0 < delta /\ forall h, `|h| <= delta -> `|F (a + h) - F a - D * h| <= eps * `|h|.
Proof.
move=> C0 H eps e0; have C1 : 0 < C + 1 by rewrite ltr_paddl ?ltr01.
exists (Num.min 1 (eps / (C + 1))); split; first by rewrite lt_minr ltr01 divr_gt0.
move=> h; rewrite le_minr => /andP [h1 h2]; apply: le_trans (H h h1) _; rewrite mulrA; apply: ler_wpmul2r => //.
apply: le_trans (_ : (C + 1) * `|h| <= _); first by apply: ler_wpmul2r; rewrite ?normr_ge0 // ler_addl ler01.
by rewrite mulrC -ler_pdivl_mulr.
Qed.
Lemma scalar_gradient (F : R -> R) (v : 'cV[R]_1) (D C : R) : 0 <= C ->
  (forall h, `|h| <= 1 -> `|F (v ord0 ord0 + h) - F (v ord0 ord0) - D * h| <= C * (`|h| * `|h|)) ->
  gradient_at (fun w => F (w ord0 ord0)) v (const_mx D).
Proof.
move=> C0 H eps e0; have [d [d0 hd]] := second_order_small C0 H e0; exists d; split=> // h; rewrite maxnorm1 => /hd.
by rewrite !mxE big_ord1 !mxE.
Qed.
Lemma scalar_derivative (F : R -> R) (v : 'cV[R]_1) (D C : R) : 0 <= C ->
  (forall h, `|h| <= 1 -> `|F (v ord0 ord0 + h) - F (v ord0 ord0) - D * h| <= C * (`|h| * `|h|)) ->
  derivative_at (fun w : 'cV[R]_1 => const_mx (F (w ord0 ord0)) : 'cV[R]_1) v (const_mx D).
Proof.
move=> C0 H eps e0; have [d [d0 hd]] := second_order_small C0 H e0; exists d; split=> // h; rewrite !maxnorm1 => /hd.
by rewrite !mxE big_ord1 !mxE.
Qed.
Lemma sq_ge0 (a : R) : 0 <= a * a.
Proof. by rewrite -expr2 sqr_ge0. Qed.
Definition quartic (a : R) : R := - (2%:R^-1 * (a * a)) - 4%:R^-1 * (a * a * (a * a)).
Definition cubic (a : R) : R := - (a + a * a * a).
Lemma quartic_remainder (a h : R) : `|h| <= 1 ->
  `|quartic (a + h) - quartic a - cubic a * h| <= (2%:R^-1 + (2%:R * (a * a) + `|a| + 1)) * (`|h| * `|h|).
Proof.
move=> h1.
have -> : quartic (a + h) - quartic a - cubic a * h = - (2%:R^-1 + (3%:R / 2%:R * (a * a) + a * h + 4%:R^-1 * (h * h))) * (h * h).
  by rewrite /quartic /cubic !RinvE ?pnatr_eq0 // !RnatE /=; toR; field.
rewrite normrM normrN normrM; apply: ler_wpmul2r; first by rewrite mulr_ge0.
apply: le_trans (ler_norm_add _ _) _; apply: ler_add; first by rewrite ger0_norm // invr_ge0 ler0n.
apply: le_trans (ler_norm_add _ _) _; apply: ler_add.
  apply: le_trans (ler_norm_add _ _) _; apply: ler_add.
    rewrite ger0_norm; last by rewrite mulr_ge0 ?divr_ge0 ?ler0n // -expr2 sqr_ge0.
    by apply: ler_wpmul2r; [rewrite -expr2 sqr_ge0|rewrite ler_pdivr_mulr ?ltr0n // -natrM ler_nat].
  by rewrite normrM ler_pimulr.
rewrite !normrM; apply: mulr_ile1 => //; rewrite ?mulr_ge0 //.
  by rewrite ger0_norm ?invr_ge0 ?ler0n // invf_le1 ?ltr0n // ler1n.
by apply: mulr_ile1.
Qed.
Lemma cubic_remainder (a h : R) : `|h| <= 1 ->
  `|cubic (a + h) - cubic a - - (1 + 3%:R * (a * a)) * h| <= (3%:R * `|a| + 1) * (`|h| * `|h|).
Proof.
move=> h1.
have -> : cubic (a + h) - cubic a - - (1 + 3%:R * (a * a)) * h = - (3%:R * a + h) * (h * h).
  by rewrite /cubic !RnatE /=; toR; ring.
rewrite normrM normrN normrM; apply: ler_wpmul2r; first by rewrite mulr_ge0.
by apply: le_trans (ler_norm_add _ _) _; rewrite ler_add // normrM ger0_norm // ler0n.
Qed.
Definition qpot (x : 'cV[option R]_1) : option R := omap quartic (x ord0 ord0).
Definition qprec (a : R) : 'M[R]_1 := (1 + 3%:R * (a * a))%:M.
Lemma qpot_near p : potential_near qpot (fun x => quartic (x ord0 ord0)) p.
Proof. by exists 1; split=> [|x _]; [exact: ltr01|rewrite /qpot mxE]. Qed.
Lemma const_scalar (a : R) : const_mx a = a%:M :> 'M[R]_1.
Proof. by apply/matrixP => i j; rewrite !mxE !ord1 eqxx. Qed.
Lemma qpot_expansion p : expansion0 (fun x : 'cV[R]_1 => quartic (x ord0 ord0)) p (const_mx (cubic (p ord0 ord0))) (qprec (p ord0 ord0)).
Proof.
exists 1, (fun v : 'cV[R]_1 => const_mx (cubic (v ord0 ord0))); split=> //; first exact: ltr01.
  move=> v _; apply: (scalar_gradient (C := 2%:R^-1 + (2%:R * (v ord0 ord0 * v ord0 ord0) + `|v ord0 ord0| + 1))).
    have h2 := sq_ge0 (v ord0 ord0); by rewrite !addr_ge0 ?invr_ge0 ?ler0n ?ler01 // mulr_ge0 ?ler0n.
  by move=> h; exact: quartic_remainder.
have -> : - qprec (p ord0 ord0) = const_mx (- (1 + 3%:R * (p ord0 ord0 * p ord0 ord0))).
  by rewrite const_scalar raddfN.
apply: (scalar_derivative (C := 3%:R * `|p ord0 ord0| + 1)); last by move=> h; exact: cubic_remainder.
by rewrite addr_ge0 ?mulr_ge0 ?ler0n ?ler01.
Qed.
Lemma scalar_good (c : R) : 0 < c -> good_precision (@diag_svd) (2%:R^-1) (c%:M : 'M[R]_1).
Proof.
move=> c0; have [r0 r1] := half_bounds.
have [pL _ _] := recoverable_scalar 1 c0 r0 r1.
have ci : 0 < c^-1 by rewrite invr_gt0.
have [_ wc dc] := recoverable_scalar 1 ci r0 r1.
by move: wc dc; rewrite invmx_scalar invrK.
Qed.
Lemma qprec_good a : good_precision (@diag_svd) (2%:R^-1) (qprec a).
Proof. by apply: scalar_good; rewrite ltr_paddr ?ltr01 // mulr_ge0 ?ler0n // -expr2 sqr_ge0. Qed.
Definition tfun (x v : R) : R := - (2%:R^-1 * ((v - x * x) * (v - x * x))).
Definition tden (x v : 'cV[option R]_1) : option R :=
  if (x ord0 ord0, v ord0 ord0) is (Some a, Some b) then Some (tfun a b) else None.
Lemma tden_near p q : density_near tden (fun x v => tfun (x ord0 ord0) (v ord0 ord0)) p q.
Proof. by exists 1; split=> [|x v _ _]; [exact: ltr01|rewrite /tden !mxE]. Qed.
Lemma tden_expansion (p q : 'cV[R]_1) : expansion (fun x v : 'cV[R]_1 => tfun (x ord0 ord0) (v ord0 ord0)) p q
  (const_mx (p ord0 ord0 * p ord0 ord0 - q ord0 ord0)) 1%:M (const_mx (2%:R * p ord0 ord0)).
Proof.
exists 1, (fun x v : 'cV[R]_1 => const_mx (x ord0 ord0 * x ord0 ord0 - v ord0 ord0)); split=> //; first exact: ltr01.
- move=> x v _ _; apply: (@scalar_gradient (tfun (x ord0 ord0)) v _ (2%:R^-1)); first by rewrite invr_ge0 ler0n.
  move=> h _; rewrite -normrM; have -> : tfun (x ord0 ord0) (v ord0 ord0 + h) - tfun (x ord0 ord0) (v ord0 ord0)
      - (x ord0 ord0 * x ord0 ord0 - v ord0 ord0) * h = - 2%:R^-1 * (h * h).
    by rewrite /tfun !RinvE ?pnatr_eq0 // !RnatE /=; move: (x ord0 ord0) (v ord0 ord0) => a b; toR; field.
  by rewrite mulNr normrN (normrM 2%:R^-1 (h * h)) (@ger0_norm _ 2%:R^-1) // invr_ge0 ler0n.
- have -> : - 1%:M = const_mx (- 1) :> 'M[R]_1 by rewrite const_scalar raddfN.
  apply: (@scalar_derivative (fun b => p ord0 ord0 * p ord0 ord0 - b) q _ 0); first exact: lexx.
  move=> h _; rewrite mul0r (_ : _ - _ - _ = 0) ?normr0 //; by move: (_ * _) (q ord0 ord0) => a b; rewrite mulNr mul1r; zmod.
- apply: (@scalar_derivative (fun a => a * a - q ord0 ord0) p _ 1); first exact: ler01.
  move=> h _; rewrite mul1r -normrM (_ : _ - _ - _ = h * h) //.
  by move: (p ord0 ord0) (q ord0 ord0) => a b; rewrite !RnatE /=; toR; ring.
Qed.
(** callbacks and what they stand for *)
Definition qinit (t : nat) : log_pot 1 * 'cV[option R]_1 := (qpot, map_mx Some (const_mx 1)).
Definition qdyn (s : @LinState 1 nat) (t : nat) : log_cond 1 1 * 'cV[option R]_1 * 'cV[option R]_1 :=
  if (t %% 3 == 2)%N then (tden, const_mx None, const_mx None) else (tden, map_mx Some (lin_mean s), map_mx Some (lin_mean s)).
Definition qobs (s : @LinState 1 nat) (t : nat) : ObservationOutput 1 := Potential qpot (map_mx Some (lin_mean s)).
Definition qtrans (v : view 1 nat) (t : nat) : transition 1 :=
  let m := v_mean v in let a := m ord0 ord0 in
  if (t %% 3 == 2)%N then Transition id 0 m 1%:M
  else Transition (newton m m (const_mx (a * a - a)) 1%:M (const_mx (2%:R * a))) (invmx 1%:M) m (invmx 1%:M *m const_mx (2%:R * a)).
Definition qmeas (v : view 1 nat) (t : nat) : measurement 1 :=
  let m := v_mean v in let a := m ord0 ord0 in
  Measurement id (invmx (qprec a)) m 1%:M (map_mx Some (m + invmx (qprec a) *m const_mx (cubic a))).
Lemma qinput t : laplace_input (@diag_svd) (2%:R^-1) true qdyn qobs qtrans qmeas t.
Proof.
move=> s; split; last by apply: LapPotential (qpot_near _) (qpot_expansion _) (qprec_good _).
rewrite /qdyn /qtrans; case: ifP => _; first exact: LapSkip.
by apply: LapMove (tden_near _ _) (tden_expansion _ _) (scalar_good _); exact: ltr01.
Qed.
Example C81_case (T : nat) : exists states,
  ScanModel.filter tt_split (taylor_build_filter (Key := unit) 0 0 some_tria some_jacobian (@diag_svd) some_grad (2%:R^-1) true
    qinit qdyn qobs false) (iota 0 T.+1) false None = ScanModel.Ok (List.map Some states) /\
  List.map (@view_of 1 nat) states
    = ekf_run qtrans qmeas (View (const_mx 1 + invmx (qprec 1) *m const_mx (cubic 1)) (invmx (qprec 1)) 0 0%N 0) (iota 1 T).
Proof.
have [r0 r1] := half_bounds.
apply: (@C81_laplace_filter some_tria (@diag_svd) some_grad some_jacobian (2%:R^-1) true 1 nat unit tt_split 0 0 qinit qdyn qobs qtrans qmeas
  (fun=> const_mx 1 + invmx (qprec 1) *m const_mx (cubic 1)) (fun=> invmx (qprec 1)) (@some_tria_ok) some_grad_ok some_jacobian_ok
  tt_split_ok r0 isT 0%N (iota 1 T) None); last by move=> t x _; exact: qinput.
exists qpot, (fun x => quartic (x ord0 ord0)), (const_mx 1), (const_mx (cubic 1)), (qprec 1); split=> //.
- exact: qpot_near.
- by have := qpot_expansion (const_mx 1); rewrite mxE.
- exact: qprec_good.
Qed.
End Demo.
