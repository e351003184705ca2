(** C86-C87: online prediction as filtering with a missing observation; the documented stochastic
    volatility model. *)
From Coq Require Import Reals List Arith ZArith Bool Lia Lra.
From Coquelicot Require Import Coquelicot.
From Verif Require Import Ext ScanModel ScanProofs DriverSpec DriverProofs DiscreteSpec Sums
  ResamplingModel ResamplingSpec ResamplingProofs ConditionalProofs KillingProofs SystematicProofs
  ConditionalLaw SmcModel SmcSpec SmcProofs SmcResamplers SmcRuns StochVolModel PropSmc.
Import ListNotations.
Open Scope R_scope.

(** ** Specification *)
(** density at [y] of a normal distribution with mean [m] and variance [v] *)
Definition normal_density (m v y : R) : R := / sqrt (2 * PI * v) * exp (- ((y - m) ^ 2 / (2 * v))).

(** the predictive density at [y] of a cloud of log volatilities [xs] with log weights [lw] *)
Definition predictive_density (lw : list ext) (xs : list R) (y : R) : R :=
  lsum (fun i => wt lw i * normal_density 0 (exp (nth i xs 0)) y) (seq 0 (length lw)).

Lemma exp_incr_le a b : a <= b -> exp a <= exp b.
Proof. intros [H| ->]; [left; now apply exp_increasing | right; reflexivity]. Qed.
Lemma normal_density_pos m v y : 0 < v -> 0 < normal_density m v y.
Proof.
  intros Hv. unfold normal_density. apply Rmult_lt_0_compat; [|apply exp_pos].
  apply Rinv_0_lt_compat, sqrt_lt_R0. pose proof PI_RGT_0. nra.
Qed.

Lemma log_potential_density mem x y x0 : log_return mem = Some y ->
  sv_log_potential x0 x mem = Fin (ln (normal_density 0 (exp x) y)).
Proof.
  intros E. unfold sv_log_potential, norm_logpdf. rewrite E. cbn [of_opt e_isnan emul eexp].
  pose proof PI_RGT_0 as Hpi. pose proof (exp_pos x) as Hx.
  assert (Hsq : exp (1 / 2 * x) * exp (1 / 2 * x) = exp x) by (rewrite <- exp_plus; f_equal; lra).
  rewrite Hsq. unfold esub. cbn [eopp eadd emul].
  unfold elog. destruct (Rlt_dec 0 (2 * PI * exp x)) as [_|n]; [|exfalso; apply n; nra].
  unfold ediv at 2. destruct (Req_EM_T (exp x) 0) as [e|_]; [lra|]. cbn [eadd eopp].
  unfold ediv. destruct (Req_EM_T 2 0) as [e|_]; [lra|]. f_equal.
  unfold normal_density. assert (Hq : 0 < 2 * PI * exp x) by nra.
  assert (Hs : 0 < sqrt (2 * PI * exp x)) by now apply sqrt_lt_R0.
  rewrite (ln_mult (/ sqrt (2 * PI * exp x))); [|now apply Rinv_0_lt_compat | apply exp_pos].
  rewrite ln_exp, ln_Rinv by assumption.
  assert (Hln : ln (2 * PI * exp x) = 2 * ln (sqrt (2 * PI * exp x))).
  { rewrite <- (sqrt_sqrt (2 * PI * exp x)) at 1 by lra. rewrite ln_mult by assumption. lra. }
  rewrite Hln. field. lra.
Qed.

Lemma log_potential_missing mem x x0 : log_return mem = None -> sv_log_potential x0 x mem = Fin 0.
Proof. intros E. unfold sv_log_potential. now rewrite E. Qed.

Lemma log_potential_finite x0 x mem : exists r, sv_log_potential x0 x mem = Fin r.
Proof.
  destruct (log_return mem) as [y|] eqn:E; [rewrite (log_potential_density mem x y x0 E)|rewrite (log_potential_missing _ _ _ E)]; eauto.
Qed.

(** ** C86 *)
Section Predict.
  Context {Key : Type}.
  Variable normal : Key -> R.
  Variables mu theta sigma init_mean init_std : R.
  Variable split : Key -> nat -> list Key.
  Hypothesis Hsplit : split_ok split.
  Variable resampling_fn : Resampling Key R.
  Hypothesis Hres : resampler_ok 0 resampling_fn.
  Hypothesis Htot : resampler_total resampling_fn.
  Variable N : nat.
  Hypothesis HN : (0 < N)%nat.
  Variable dummy : R.
  Let predict := sv_predict normal mu theta sigma init_mean init_std split resampling_fn N dummy.
  Let update := sv_update normal mu theta sigma init_mean init_std split resampling_fn N dummy.

  Theorem C86_prediction_sec (s : PFState Key R ObservationData) (new : ObservationData) (y : R) (kp kf : Key) :
    length (pf_particles s) = N -> length (pf_log_weights s) = N -> valid_logits (pf_log_weights s) ->
    log_return new = Some y ->
    exists p u, predict s new kp = Ok p /\ update s new kf = Ok u /\
      (* a missing observation changes neither the evidence nor the resampled weights *)
      pf_log_normalizing_constant p = pf_log_normalizing_constant s /\
      (exists k0 ks idx anc, split (pf_key s) (N + 1) = k0 :: ks /\
         resampling_fn k0 (pf_log_weights s) (pf_particles s) N = Ok (idx, pf_log_weights p, anc) /\
         pf_ancestor_indices p = idx /\
         pf_particles p = map2 (fun k x => sv_propagate_sample normal mu theta sigma k x new) ks anc) /\
      length (pf_particles p) = N /\ length (pf_log_weights p) = N /\ valid_logits (pf_log_weights p) /\
      (* the update sees the predicted particles and reweights them by Bayes' rule *)
      pf_particles u = pf_particles p /\ pf_ancestor_indices u = pf_ancestor_indices p /\
      (let pred := predictive_density (pf_log_weights p) (pf_particles p) y in
       0 < pred /\
       (forall i, (i < N)%nat ->
          wt (pf_log_weights u) i =
          wt (pf_log_weights p) i * normal_density 0 (exp (nth i (pf_particles p) 0)) y / pred) /\
       pf_log_normalizing_constant u = eadd (Fin (ln pred)) (pf_log_normalizing_constant s)) /\
      pf_key p = kp /\ pf_key u = kf.
  Proof using Hsplit Hres Htot HN.
    intros W1 W2 Hv Hy.
    set (pp := {| pf_key := kp; pf_particles := repeat dummy N; pf_log_weights := zeros N;
                  pf_ancestor_indices := seq 0 N;
                  pf_model_inputs := {| time := time new; time_prev := time_prev new; log_return := None |};
                  pf_log_normalizing_constant := Fin 0 |}).
    set (pu := {| pf_key := kf; pf_particles := repeat dummy N; pf_log_weights := zeros N;
                  pf_ancestor_indices := seq 0 N; pf_model_inputs := new;
                  pf_log_normalizing_constant := Fin 0 |}).
    set (prop := sv_propagate_sample normal mu theta sigma).
    assert (Wf : wf N s) by (split; assumption).
    destruct (comb_succeeds 0 split Hsplit prop sv_log_potential
                log_potential_finite resampling_fn Hres Htot N HN s pp Wf Hv) as (p & Ep & Wp & Vp).
    destruct (comb_succeeds 0 split Hsplit prop sv_log_potential
                log_potential_finite resampling_fn Hres Htot N HN s pu Wf Hv) as (u & Eu & Wu & Vu).
    exists p, u. split; [exact Ep|]. split; [exact Eu|].
    destruct (comb_facts 0 split Hsplit _ _ _ Hres N HN _ _ _ Wf Hv Ep) as
      (k0 & ks & idx & lw & anc & E1 & E2 & _ & La & Ll & Li & Hlw & Hk & Hin & Hai & Hp' & Hnth & Hnl & Hanc & Hzz).
    destruct (comb_facts 0 split Hsplit _ _ _ Hres N HN _ _ _ Wf Hv Eu) as
      (k0' & ks' & idx' & lw' & anc' & E1' & E2' & _ & La' & Ll' & Li' & Hlw' & Hk' & Hin' & Hai' & Hp'' & Hnth' & Hnl' & Hanc' & Hzz').
    rewrite E1 in E1'. injection E1' as <- <-. rewrite E2 in E2'. injection E2' as <- <- <-.
    assert (Epart : pf_particles u = pf_particles p) by (rewrite Hp', Hp''; reflexivity).
    assert (Elw : pf_log_weights p = lw).
    { apply nth_ext with NInf NInf; [destruct Wp; congruence|]. intros i Hi.
      destruct Wp as [_ Wp2]. rewrite Wp2 in Hi.
      rewrite (Hnth i NInf Hi), log_potential_missing by reflexivity.
      destruct (nth i lw NInf); simpl; auto. f_equal. lra. }
    assert (Hpos : 0 < lsum uw lw) by now apply valid_sum_pos.
    split.
    { rewrite Hzz, Elw, logsumexp_valid by assumption. unfold esub. cbn [eopp eadd].
      replace (ln (lsum uw lw) + - ln (lsum uw lw)) with 0 by lra.
      destruct (pf_log_normalizing_constant s); simpl; auto. f_equal. lra. }
    split.
    { exists k0, ks, idx, anc. rewrite Elw. repeat split; auto. }
    split; [apply Wp|]. split; [apply Wp|]. split; [exact Vp|]. split; [exact Epart|]. split; [congruence|].
    split.
    { cbv zeta. set (pred := predictive_density _ _ _).
      assert (Huw : forall i, (i < N)%nat -> uw (nth i (pf_log_weights u) NInf) =
                uw (nth i lw NInf) * normal_density 0 (exp (nth i (pf_particles p) 0)) y).
      { intros i Hi. rewrite (Hnth' i NInf Hi), Epart, (log_potential_density _ _ y) by assumption.
        pose proof (normal_density_pos 0 (exp (nth i (pf_particles p) 0)) y (exp_pos _)) as Hd.
        destruct (nth i lw NInf); simpl; try lra. rewrite exp_plus, exp_ln by assumption. lra. }
      assert (Htu : lsum uw (pf_log_weights u) = pred * lsum uw lw).
      { unfold pred, predictive_density. rewrite Elw, Ll.
        rewrite (lsum_nth_seq _ _ NInf). destruct Wu as [_ Wu2]. rewrite Wu2.
        rewrite Rmult_comm, <- lsum_scal. apply lsum_seq_ext. intros i Hi. rewrite Huw by lia.
        unfold wt. field. lra. }
      assert (Hpu : 0 < lsum uw (pf_log_weights u)) by now apply valid_sum_pos.
      assert (Hpred : 0 < pred) by (rewrite Htu in Hpu; nra).
      split; [exact Hpred|]. split.
      - intros i Hi. unfold wt at 1. rewrite Huw by exact Hi. rewrite Htu, Elw. unfold wt. field. lra.
      - rewrite Hzz', !logsumexp_valid, Htu by assumption. f_equal. unfold esub. simpl. f_equal.
        rewrite ln_mult by assumption. lra. }
    split; [exact Hk|exact Hk'].
  Qed.
End Predict.

(** Prediction and update from any valid state. *)
Theorem C86_prediction {Key} (normal : Key -> R) (mu theta sigma init_mean init_std : R)
        (split : Key -> nat -> list Key) (resampling_fn : Resampling Key R) (N : nat) (dummy : R)
        (s : PFState Key R ObservationData) (new : ObservationData) (y : R) (kp kf : Key) :
  split_ok split -> resampler_ok 0 resampling_fn -> resampler_total resampling_fn -> (0 < N)%nat ->
  length (pf_particles s) = N -> length (pf_log_weights s) = N -> valid_logits (pf_log_weights s) ->
  log_return new = Some y ->
  exists p u,
    sv_predict normal mu theta sigma init_mean init_std split resampling_fn N dummy s new kp = Ok p /\
    sv_update normal mu theta sigma init_mean init_std split resampling_fn N dummy s new kf = Ok u /\
    (* a missing observation changes neither the evidence nor the resampled weights *)
    pf_log_normalizing_constant p = pf_log_normalizing_constant s /\
    (exists k0 ks idx anc, split (pf_key s) (N + 1)%nat = k0 :: ks /\
       resampling_fn k0 (pf_log_weights s) (pf_particles s) N = Ok (idx, pf_log_weights p, anc) /\
       pf_ancestor_indices p = idx /\
       pf_particles p = map2 (fun k x => sv_propagate_sample normal mu theta sigma k x new) ks anc) /\
    length (pf_particles p) = N /\ length (pf_log_weights p) = N /\ valid_logits (pf_log_weights p) /\
    (* the update sees exactly the predicted particles and reweights them by Bayes' rule *)
    pf_particles u = pf_particles p /\ pf_ancestor_indices u = pf_ancestor_indices p /\
    (let pred := predictive_density (pf_log_weights p) (pf_particles p) y in
     0 < pred /\
     (forall i, (i < N)%nat ->
        wt (pf_log_weights u) i =
        wt (pf_log_weights p) i * normal_density 0 (exp (nth i (pf_particles p) 0)) y / pred) /\
     pf_log_normalizing_constant u = eadd (Fin (ln pred)) (pf_log_normalizing_constant s)) /\
    pf_key p = kp /\ pf_key u = kf.
Proof. intros. now apply C86_prediction_sec. Qed.
Print Assumptions C86_prediction.

(** Whole runs: they never fail; the evidence starts at one, does not change at missing steps, and at
    an observed step is multiplied by the predictive density of the prediction made from the previous
    state, whatever key that prediction is given. *)
Theorem C86_evidence {Key} (normal : Key -> R) (mu theta sigma init_mean init_std : R)
        (split : Key -> nat -> list Key) (resampling_fn : Resampling Key R) (N : nat) (dummy : R)
        (data : list ObservationData) (key : Key) :
  split_ok split -> resampler_ok 0 resampling_fn -> resampler_total resampling_fn -> (0 < N)%nat ->
  data <> [] ->
  let pf := sv_pf normal mu theta sigma init_mean init_std split resampling_fn N dummy in
  exists states, filter split pf data false (Some key) = Ok (map Ok states) /\
    length states = length data /\
    (forall s, nth_error states 0 = Some s -> pf_log_normalizing_constant s = Fin 0) /\
    (forall t s s' x, nth_error states t = Some s -> nth_error states (S t) = Some s' ->
       nth_error data (S t) = Some x ->
       match log_return x with
       | None => pf_log_normalizing_constant s' = pf_log_normalizing_constant s
       | Some y => forall kp, exists p,
           sv_predict normal mu theta sigma init_mean init_std split resampling_fn N dummy s x kp = Ok p /\
           pf_particles s' = pf_particles p /\
           pf_log_normalizing_constant s' =
             eadd (Fin (ln (predictive_density (pf_log_weights p) (pf_particles p) y)))
                  (pf_log_normalizing_constant s)
       end) /\
    (forall t s, nth_error states t = Some s -> exists z, pf_log_normalizing_constant s = Fin z).
Proof.
  intros Hs Hr Ht HN Hne pf.
  destruct (pf_run_exists 0 split Hs (sv_init_sample normal init_mean init_std)
              (sv_propagate_sample normal mu theta sigma) sv_log_potential log_potential_finite
              resampling_fn Hr Ht N HN dummy data key Hne) as (states & Hrun & Hl & Hval).
  exists states. split; [exact Hrun|]. split; [exact Hl|].
  destruct (run_steps split Hs _ _ _ _ _ _ Hrun) as (_ & H0 & HS).
  assert (Hinit : forall s, nth_error states 0 = Some s -> pf_log_normalizing_constant s = Fin 0).
  { intros s Hs0. destruct (nth_error data 0) as [x|] eqn:Ex.
    - destruct (H0 x eq_refl) as (k & s0 & _ & Hi & Hs'). rewrite Hs0 in Hs'. injection Hs' as ->.
      apply (init_facts split Hs _ N HN _ _ _ Hi).
    - apply nth_error_None in Ex. assert (0 < length states)%nat by (apply nth_error_Some; congruence). lia. }
  assert (Hstep : forall t s s' x, nth_error states t = Some s -> nth_error states (S t) = Some s' ->
       nth_error data (S t) = Some x ->
       match log_return x with
       | None => pf_log_normalizing_constant s' = pf_log_normalizing_constant s
       | Some y => forall kp, exists p,
           sv_predict normal mu theta sigma init_mean init_std split resampling_fn N dummy s x kp = Ok p /\
           pf_particles s' = pf_particles p /\
           pf_log_normalizing_constant s' =
             eadd (Fin (ln (predictive_density (pf_log_weights p) (pf_particles p) y)))
                  (pf_log_normalizing_constant s)
       end).
  { intros t s s' x Hst Hst' Hx.
    destruct (HS t x s Hx Hst) as (k & p & s2 & _ & Hp & Hc & Hs2). rewrite Hst' in Hs2. injection Hs2 as <-.
    destruct (Hval t s Hst) as ([W1 W2] & V).
    destruct (log_return x) as [y|] eqn:Ey.
    - intros kp.
      destruct (C86_prediction normal mu theta sigma init_mean init_std split resampling_fn N dummy
                  s x y kp k Hs Hr Ht HN W1 W2 V Ey) as (q & u & Eq & Eu & _ & _ & _ & _ & _ & Hpart & _ & (_ & _ & Hz) & _).
      exists q. split; [exact Eq|].
      unfold sv_update, sv_pf, pf_build_filter, bind, filter_combine, filter_prepare in Eu.
      rewrite Hp in Eu. rewrite Hc in Eu. injection Eu as <-. auto.
    - set (x' := {| time := time x; time_prev := time_prev x; log_return := Some 0 |}).
      destruct (C86_prediction normal mu theta sigma init_mean init_std split resampling_fn N dummy
                  s x' 0 k k Hs Hr Ht HN W1 W2 V eq_refl) as (q & u & Eq & _ & Hz & _).
      unfold sv_predict, sv_pf, pf_build_filter, bind, filter_combine, filter_prepare in Eq. cbn [time time_prev x'] in Eq.
      replace {| time := time x; time_prev := time_prev x; log_return := None |} with x in Eq
        by (destruct x; simpl in *; congruence).
      rewrite Hp in Eq. rewrite Hc in Eq. injection Eq as <-. exact Hz. }
  split; [exact Hinit|]. split; [exact Hstep|].
  induction t as [|t IH]; intros s Hst; [exists 0; now apply Hinit|].
  assert (S t < length states)%nat by (apply nth_error_Some; congruence).
  destruct (nth_error states t) as [s0|] eqn:E0; [|apply nth_error_None in E0; lia].
  destruct (nth_error data (S t)) as [x|] eqn:Ex; [|apply nth_error_None in Ex; lia].
  destruct (IH _ eq_refl) as (z & Hz). specialize (Hstep t s0 s x E0 Hst Ex).
  destruct (log_return x) as [y|].
  - destruct (Hstep key) as (p & _ & _ & ->). rewrite Hz. simpl. eauto.
  - rewrite Hstep. eauto.
Qed.
Print Assumptions C86_evidence.

(** Systematic resampling as in the documentation: three observations, one of them missing. *)
Example C86_hypotheses_met :
  let pf := sv_pf (fun k : list nat => INR (length k)) doc_mu doc_theta doc_sigma doc_init_mean doc_init_std
              demo_split (systematic_fn 0 true (fun _ => 1 / 2)) 2 0 in
  exists states, filter demo_split pf
      [ {| time := 0; time_prev := 0; log_return := None |};
        {| time := 1; time_prev := 0; log_return := Some (1 / 100) |};
        {| time := 4; time_prev := 1; log_return := None |} ] false (Some [7%nat]) = Ok (map Ok states) /\
    length states = 3%nat.
Proof.
  destruct (C86_evidence (fun k : list nat => INR (length k)) doc_mu doc_theta doc_sigma doc_init_mean doc_init_std
              demo_split (systematic_fn 0 true (fun _ => 1 / 2)) 2 0
              [ {| time := 0; time_prev := 0; log_return := None |};
                {| time := 1; time_prev := 0; log_return := Some (1 / 100) |};
                {| time := 4; time_prev := 1; log_return := None |} ] [7%nat]) as (states & H & Hl & _).
  - apply demo_split_ok.
  - apply systematic_resampler_ok.
  - apply systematic_total.
  - lia.
  - discriminate.
  - exists states. auto.
Qed.

(** ** C87: the documented model *)
Section OU.
  Variables mu theta sigma : R.
  Hypothesis Htheta : theta <> 0.
  Let m := sv_mean mu theta.
  Let v := sv_var theta sigma.

  Lemma ou_mean_derive x t : is_derive (fun t => m x t) t (- theta * (m x t - mu)).
  Proof. unfold m, sv_mean. auto_derive; [trivial|]. ring. Qed.
  Lemma ou_var_derive t : is_derive v t (sigma ^ 2 - 2 * theta * v t).
  Proof using Htheta. unfold v, sv_var. auto_derive; [trivial|]. field. exact Htheta. Qed.

  (** linear equations have one solution *)
  Lemma linear_unique (f : R -> R) a : (forall t, is_derive f t (a * f t)) -> f 0 = 0 -> forall t, f t = 0.
  Proof.
    intros Hf H0 t.
    assert (Hd : forall s, is_derive (fun s => f s * exp (- a * s)) s 0).
    { intros s. specialize (Hf s). auto_derive.
      - exists (a * f s). exact Hf.
      - replace (Derive (fun x => f x) s) with (a * f s) by (symmetry; now apply is_derive_unique). ring. }
    assert (Hc : f t * exp (- a * t) = f 0 * exp (- a * 0)).
    { destruct (Rtotal_order 0 t) as [Ht|[<-|Ht]]; [|reflexivity|].
      - symmetry. apply (eq_is_derive (fun s => f s * exp (- a * s))); [|exact Ht]. intros s _. apply Hd.
      - apply (eq_is_derive (fun s => f s * exp (- a * s))); [|exact Ht]. intros s _. apply Hd. }
    rewrite H0 in Hc. pose proof (exp_pos (- a * t)). nra.
  Qed.
End OU.

(** The coded transition is the exact solution of the documented equation dx = -theta (x - mu) dt +
    sigma dW: its mean and variance are the only solutions of the moment equations that start at the
    state; splitting a time interval makes no difference; the stationary law is preserved. *)
Theorem C87_transition (mu theta sigma : R) : theta <> 0 ->
  let m := sv_mean mu theta in
  let v := sv_var theta sigma in
  (forall x (f : R -> R), f 0 = x -> (forall t, is_derive f t (- theta * (f t - mu))) -> forall t, f t = m x t) /\
  (forall f : R -> R, f 0 = 0 -> (forall t, is_derive f t (sigma ^ 2 - 2 * theta * f t)) -> forall t, f t = v t) /\
  (forall x, m x 0 = x /\ forall t, is_derive (m x) t (- theta * (m x t - mu))) /\
  (v 0 = 0 /\ forall t, is_derive v t (sigma ^ 2 - 2 * theta * v t)) /\
  (* intervals can be split *)
  (forall x d1 d2, m (m x d1) d2 = m x (d1 + d2)) /\
  (forall d1 d2, v (d1 + d2) = exp (- theta * d2) ^ 2 * v d1 + v d2) /\
  (* the variance is a variance, and the standard deviation used is its root *)
  (forall d, 0 <= d -> 0 <= v d) /\
  (forall Key (normal : Key -> R) k x inp, time_prev inp <= time inp ->
     exists std, 0 <= std /\ std * std = v (time inp - time_prev inp) /\
       sv_propagate_sample normal mu theta sigma k x inp = m x (time inp - time_prev inp) + std * normal k) /\
  (* stationarity *)
  (forall d, m mu d = mu /\ exp (- theta * d) ^ 2 * (sigma ^ 2 / (2 * theta)) + v d = sigma ^ 2 / (2 * theta)).
Proof.
  intros Ht m v.
  assert (Hm0 : forall x, m x 0 = x) by (intros x; unfold m, sv_mean; rewrite Rmult_0_r, exp_0; ring).
  assert (Hv0 : v 0 = 0) by (unfold v, sv_var; rewrite Rmult_0_r, exp_0; field; exact Ht).
  assert (He2 : forall d, exp (- 2 * theta * d) = exp (- theta * d) ^ 2).
  { intros d. simpl. rewrite Rmult_1_r, <- exp_plus. f_equal. ring. }
  assert (Hv : forall d, 0 <= d -> 0 <= v d).
  { intros d Hd. unfold v, sv_var.
    assert (Hsq : 0 <= sigma ^ 2) by nra.
    replace (sigma ^ 2 * (1 - exp (-2 * theta * d)) / (2 * theta))
      with (sigma ^ 2 * ((1 - exp (-2 * theta * d)) / (2 * theta))) by (field; exact Ht).
    apply Rmult_le_pos; [exact Hsq|].
    destruct (Rlt_or_le theta 0) as [Hn|Hp].
    - assert (1 <= exp (-2 * theta * d)) by (rewrite <- exp_0; apply exp_incr_le; nra).
      replace ((1 - exp (-2 * theta * d)) / (2 * theta)) with ((exp (-2 * theta * d) - 1) * / (2 * - theta)) by (field; exact Ht).
      apply Rmult_le_pos; [lra|]. left. apply Rinv_0_lt_compat. lra.
    - assert (exp (-2 * theta * d) <= 1) by (rewrite <- exp_0; apply exp_incr_le; nra).
      apply Rmult_le_pos; [lra|]. left. apply Rinv_0_lt_compat. lra. }
  repeat match goal with |- _ /\ _ => split end; auto.
  - intros x f H0 Hf t.
    assert (E : f t - m x t = 0); [|lra].
    apply (linear_unique (fun t => f t - m x t) (- theta)); [|rewrite H0, Hm0; lra].
    intros s. replace (- theta * (f s - m x s)) with (- theta * (f s - mu) - - theta * (m x s - mu)) by ring.
    apply (is_derive_minus f (m x)); [apply Hf|apply ou_mean_derive].
  - intros f H0 Hf t.
    assert (E : f t - v t = 0); [|lra].
    apply (linear_unique (fun t => f t - v t) (- 2 * theta)); [|rewrite H0, Hv0; lra].
    intros s. replace (- 2 * theta * (f s - v s)) with ((sigma ^ 2 - 2 * theta * f s) - (sigma ^ 2 - 2 * theta * v s)) by ring.
    apply (is_derive_minus f v); [apply Hf|now apply ou_var_derive].
  - intros x. split; [apply Hm0|]. intros t. apply ou_mean_derive.
  - intros t. now apply ou_var_derive.
  - intros x d1 d2. unfold m, sv_mean. replace (- theta * (d1 + d2)) with (- theta * d1 + - theta * d2) by ring.
    rewrite exp_plus. ring.
  - intros d1 d2. unfold v, sv_var. rewrite !He2.
    replace (- theta * (d1 + d2)) with (- theta * d1 + - theta * d2) by ring. rewrite exp_plus. field. exact Ht.
  - intros Key normal k x inp Hle. exists (sqrt (v (time inp - time_prev inp))).
    split; [apply sqrt_pos|]. split; [apply sqrt_sqrt, Hv; lra|]. reflexivity.
  - intros d. split; [unfold m, sv_mean; ring|]. unfold v, sv_var. rewrite He2. field. exact Ht.
Qed.
Print Assumptions C87_transition.

(** The coded potential is the documented observation density N(y | 0, exp(x)). *)
Theorem C87_observation (x0 x : R) (inp : ObservationData) :
  sv_log_potential x0 x inp =
  Fin (match log_return inp with None => 0 | Some y => ln (normal_density 0 (exp x) y) end).
Proof.
  destruct (log_return inp) as [y|] eqn:E; [now apply log_potential_density|now apply log_potential_missing].
Qed.
Print Assumptions C87_observation.

(** The documented initial law N(mu, sigma^2) is not the coded one: with the documented parameters the
    coded initial sample is the standard normal draw itself, which has variance 1, not 0.09. *)
Theorem C87_initial_refuted :
  (forall Key (normal : Key -> R) k inp,
     sv_init_sample normal doc_init_mean doc_init_std k inp = normal k) /\
  exists (Key : Type) (normal : Key -> R) (k : Key) (inp : ObservationData),
    sv_init_sample normal doc_init_mean doc_init_std k inp <> doc_mu + doc_sigma * normal k.
Proof.
  split.
  - intros. unfold sv_init_sample, doc_init_mean, doc_init_std. ring.
  - exists unit, (fun _ => 1), tt, {| time := 0; time_prev := 0; log_return := None |}.
    unfold sv_init_sample, doc_init_mean, doc_init_std, doc_mu, doc_sigma. lra.
Qed.
Print Assumptions C87_initial_refuted.

Example C87_hypotheses_met : doc_theta <> 0 /\ 0 < doc_theta.
Proof.
  assert (ln (95 / 100) < 0) by (rewrite <- ln_1; apply ln_increasing; lra).
  unfold doc_theta. split; lra.
Qed.
