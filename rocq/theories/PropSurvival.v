(** Property C69: particle filters when potentials may vanish. *)
From Coq Require Import Reals List Arith ZArith Bool Lia Lra Permutation FunctionalExtensionality.
From Coquelicot Require Import Coquelicot.
From Verif Require Import Ext ScanModel ScanProofs DriverSpec DriverProofs DiscreteSpec Sums
  ResamplingModel ResamplingSpec ResamplingProofs KillingProofs SystematicProofs SmcModel SmcSpec SmcProofs SmcResamplers
  SmcRuns KeyProofs UnbiasedSpec IterSpec SeedSpec Seeds SmcUnbiased SurvivalSpec SmcDead PropSmc PropUnbiased PropUnbiasedBuiltin.
Import ListNotations.
Open Scope R_scope.

(** [e] is the estimate of the integral of [phi] reported by the last state of a run with T steps; a
    log normalising constant of -inf reports zero, one that is NaN reports nothing *)
Definition pf_estimates {Key X Inp} (phi : X -> R) (T : nat)
           (run : result (list (result (PFState Key X Inp)))) (e : R) : Prop :=
  exists states s, run = Ok (map Ok states) /\ nth_error states T = Some s /\
    estimate (pf_log_normalizing_constant s) (pf_log_weights s) (map phi (pf_particles s)) e.

Lemma map_Ok_inj {A} (l m : list A) : map (@Ok A) l = map Ok m -> l = m.
Proof. revert m. induction l as [|a l IH]; intros [|b m] E; try discriminate; auto. simpl in E. injection E as -> E. f_equal. auto. Qed.
Lemma pf_estimates_unique {Key X Inp} (phi : X -> R) T (run : result (list (result (PFState Key X Inp)))) e e' :
  pf_estimates phi T run e -> pf_estimates phi T run e' -> e = e'.
Proof.
  intros (st & s & -> & H1 & H2) (st' & s' & E & H1' & H2').
  injection E as E. apply map_Ok_inj in E. subst st'. rewrite H1 in H1'. injection H1' as <-.
  destruct H2 as [(A & ->)|(r & A & _ & ->)], H2' as [(B & ->)|(r' & B & _ & ->)]; rewrite A in B; try discriminate; auto.
  injection B as <-. reflexivity.
Qed.

(** Full statement: for potentials in [0, infinity), every resampler that meets the contract gives
    runs whose last state carries an estimate, and the estimate is unbiased. *)
Definition C69_statement : Prop :=
  forall (Key U X Inp : Type) (keq : forall a b : Key, {a = b} + {a <> b}) (mean : (U -> R) -> R)
         (good : (U -> R) -> Prop) (dX : X) (split : Key -> nat -> list Key)
         (initial : U -> Inp -> X) (propagate : U -> X -> Inp -> X) (log_potential : X -> X -> Inp -> ext)
         (res : U -> list ext -> list X -> nat -> result (list nat * list ext * list X))
         (N : nat) (dummy : X) (phi : X -> R) (x0 : Inp) (inputs : list Inp) (key : Key) (w0 : Key -> U),
  expectation_ok mean good -> split_ok split -> NoDup (consumed split key N (length inputs)) -> (0 < N)%nat ->
  (forall a b x, is_logit (log_potential a b x)) ->
  resampler_ok dX res -> resampler_total res -> resampler_unbiased mean good N res ->
  fk_good mean good initial propagate log_potential x0 inputs phi ->
  exists est, (forall w, pf_estimates phi (length inputs)
     (filter split (pf_build_filter split (fun k => initial (w k)) (fun k => propagate (w k)) log_potential
                                    (fun k => res (w k)) N dummy) (x0 :: inputs) false (Some key)) (est w)) /\
  expectation keq mean (consumed split key N (length inputs)) est w0
  = feynman_kac mean initial propagate log_potential x0 inputs phi.

(** It holds for resamplers that return usable weights even when every particle has died.  Missing:
    resamplers, such as the adaptive ones, that do not (see below). *)
Theorem C69_unbiased_partial {Key U X Inp} (keq : forall a b : Key, {a = b} + {a <> b}) (mean : (U -> R) -> R)
         (good : (U -> R) -> Prop) (dX : X) (split : Key -> nat -> list Key)
         (initial : U -> Inp -> X) (propagate : U -> X -> Inp -> X) (log_potential : X -> X -> Inp -> ext)
         (res : U -> list ext -> list X -> nat -> result (list nat * list ext * list X))
         (N : nat) (dummy : X) (phi : X -> R) (x0 : Inp) (inputs : list Inp) (key : Key) (w0 : Key -> U) :
  expectation_ok mean good -> split_ok split -> NoDup (consumed split key N (length inputs)) -> (0 < N)%nat ->
  (forall a b x, is_logit (log_potential a b x)) ->
  resampler_ok dX res -> resampler_total res -> resampler_unbiased mean good N res -> resampler_revives res ->
  fk_good mean good initial propagate log_potential x0 inputs phi ->
  let run w := filter split (pf_build_filter split (fun k => initial (w k)) (fun k => propagate (w k)) log_potential
                                    (fun k => res (w k)) N dummy) (x0 :: inputs) false (Some key) in
  (exists est, forall w, pf_estimates phi (length inputs) (run w) (est w)) /\
  (forall est, (forall w, pf_estimates phi (length inputs) (run w) (est w)) ->
     expectation keq mean (consumed split key N (length inputs)) est w0
     = feynman_kac mean initial propagate log_potential x0 inputs phi).
Proof.
  intros Hm Hs Hnd HN Hf Hr Ht Hu Hv Hg run.
  destruct (pf_unbiased_dead keq mean good Hm dX split Hs initial propagate log_potential Hf res Hr Ht (or_intror Hv) N Hu HN dummy phi
              x0 inputs key w0 Hnd Hg) as (est & H1 & H2).
  split; [exists est; exact H1|]. intros est' H'. rewrite <- H2. f_equal.
  apply functional_extensionality. intros w. eapply pf_estimates_unique; [apply H'|exact (H1 w)].
Qed.
Print Assumptions C69_unbiased_partial.

(** ** Built-in resamplers that revive *)
Lemma numba_loop_length su ws : forall j s, length (numba_loop su ws j s) = length su.
Proof. induction su as [|u su IH]; intros j s; simpl; auto. destruct advance. simpl. now rewrite IH. Qed.
Lemma inverse_cdf_length cpu su l : length (inverse_cdf cpu su l) = length su.
Proof.
  unfold inverse_cdf. destruct cpu.
  - unfold inverse_cdf_cpu, inverse_cdf_numba. now rewrite map_length, numba_loop_length.
  - unfold inverse_cdf_default. now rewrite map_length.
Qed.
Lemma systematic_revives {Key X} (dX : X) cpu (u : Key -> R) : resampler_revives (systematic_fn dX cpu u).
Proof.
  intros k xs n Hn L. unfold systematic_fn, systematic_resampling. do 3 eexists. split; [reflexivity|].
  unfold apply_resampling_indices, gather. rewrite map_length, inverse_cdf_length, systematic_uniforms_length.
  unfold zeros. rewrite repeat_length. repeat split; auto; now apply zeros_valid.
Qed.
Lemma multinomial_revives {Key X} (dX : X) cpu (us : Key -> nat -> list R) perm : perm_ok perm ->
  resampler_revives (multinomial_fn dX cpu us perm).
Proof.
  intros Hp k xs n Hn L. unfold multinomial_fn, multinomial_resampling. do 3 eexists. split; [reflexivity|].
  unfold apply_resampling_indices, gather. rewrite !map_length, (Permutation_length (Hp k n)), seq_length.
  unfold zeros. rewrite repeat_length. repeat split; auto; now apply zeros_valid.
Qed.
Lemma killing_revives {Key X} (dX : X) cpu (vs us : Key -> nat -> list R) perm : uniforms_ok vs 0 -> perm_ok perm ->
  resampler_revives (killing_fn dX cpu vs us perm).
Proof.
  intros Hv Hp k xs n Hn L. unfold killing_fn, killing_resampling. rewrite repeat_length, Nat.eqb_refl. simpl negb. cbv iota.
  unfold multinomial_resampling. do 3 eexists. split; [reflexivity|].
  unfold apply_resampling_indices, gather.
  rewrite !map_length, !map2_len, !combine_length, !map_length, (Permutation_length (Hp k n)), !seq_length, (proj1 (Hv k n)).
  unfold zeros. rewrite repeat_length. repeat split; auto; try lia; now apply zeros_valid.
Qed.

(** Multinomial and killing resampling, whatever the model, the platform and the number of particles. *)
Theorem C69_builtin {Key S X Inp} (keq : forall a b : Key, {a = b} + {a <> b}) (meanS : (S -> R) -> R) (goodS : (S -> R) -> Prop)
         (dX : X) (split : Key -> nat -> list Key)
         (initial : S -> Inp -> X) (propagate : S -> X -> Inp -> X) (log_potential : X -> X -> Inp -> ext)
         (cpu : bool) (c : scheme) (N : nat) (dummy : X) (phi : X -> R)
         (x0 : Inp) (inputs : list Inp) (key : Key) (w0 : Key -> list nat * list R * S) :
  expectation_ok meanS goodS -> split_ok split -> split_injective split -> (0 < N)%nat ->
  (forall a b x, is_logit (log_potential a b x)) ->
  fk_good meanS goodS initial propagate log_potential x0 inputs phi ->
  let m := uniforms_needed c N in
  let run w := filter split (pf_build_filter split (fun k => initial (snd (w k))) (fun k => propagate (snd (w k))) log_potential
                               (fun k => seeded dX cpu c (w k)) N dummy) (x0 :: inputs) false (Some key) in
  (exists est, forall w, pf_estimates phi (length inputs) (run w) (est w)) /\
  (forall est, (forall w, pf_estimates phi (length inputs) (run w) (est w)) ->
     expectation keq (seed_mean meanS N m) (consumed split key N (length inputs)) est w0
     = feynman_kac meanS initial propagate log_potential x0 inputs phi).
Proof.
  intros HS Hs Hi HN Hf Hg m run.
  pose proof (C38_no_reuse_partial split key N (length inputs) Hi) as Hnd.
  destruct (seeded_contracts meanS goodS dX cpu c None N HS) as (R1 & R2 & R3).
  destruct (C69_unbiased_partial keq (seed_mean meanS N m) (seed_good meanS goodS N m) dX split (fun u => initial (snd u)) (fun u => propagate (snd u))
    log_potential (seeded dX cpu c) N dummy phi x0 inputs key w0
    (seed_expectation_ok meanS goodS HS N m) Hs Hnd HN Hf R1 R2 R3) as (P & Q).
  { destruct c; [apply multinomial_revives, perm_at_ok|apply killing_revives; [apply draws0_ok|apply perm_at_ok]]. }
  { now apply seed_fk_good. }
  split; [exact P|]. intros est He. rewrite (Q est He). apply seed_fk; exact HS.
Qed.
Print Assumptions C69_builtin.
(** Systematic resampling with offsets uniform on [0,1]. *)
Theorem C69_systematic {Key X Inp} (keq : forall a b : Key, {a = b} + {a <> b})
         (dX : X) (split : Key -> nat -> list Key)
         (initial : R -> Inp -> X) (propagate : R -> X -> Inp -> X) (log_potential : X -> X -> Inp -> ext)
         (cpu : bool) (N : nat) (dummy : X) (phi : X -> R)
         (x0 : Inp) (inputs : list Inp) (key : Key) (w0 : Key -> R) :
  split_ok split -> split_injective split -> (0 < N)%nat ->
  (forall a b x, is_logit (log_potential a b x)) ->
  fk_good uniform_mean uniform_good initial propagate log_potential x0 inputs phi ->
  let run w := filter split (pf_build_filter split (fun k => initial (w k)) (fun k => propagate (w k)) log_potential
                               (fun k => systematic_fn dX cpu (fun u => u) (w k)) N dummy) (x0 :: inputs) false (Some key) in
  (exists est, forall w, pf_estimates phi (length inputs) (run w) (est w)) /\
  (forall est, (forall w, pf_estimates phi (length inputs) (run w) (est w)) ->
     expectation keq uniform_mean (consumed split key N (length inputs)) est w0
     = feynman_kac uniform_mean initial propagate log_potential x0 inputs phi).
Proof.
  intros Hs Hi HN Hf Hg run.
  pose proof (C38_no_reuse_partial split key N (length inputs) Hi) as Hnd.
  apply (C69_unbiased_partial keq uniform_mean uniform_good dX split initial propagate log_potential (systematic_fn dX cpu (fun u => u)));
    auto using uniform_expectation_ok, systematic_resampler_ok, systematic_total, systematic_contract, systematic_revives.
Qed.
Print Assumptions C69_systematic.

(** ** Once every particle has died, adaptive resampling and the marginal filter report NaN *)
Lemma eadd_NaN a : eadd a NaN = NaN.
Proof. now destruct a. Qed.
Lemma map2_dead pots n : List.Forall is_logit pots -> length pots = n -> map2 eadd pots (repeat NInf n) = repeat NInf n.
Proof.
  intros H. revert n. induction H as [|a pots Ha H IH]; intros [|n] L; try discriminate; auto.
  simpl in *. rewrite IH by lia. destruct Ha as [->|(r & ->)]; reflexivity.
Qed.
Lemma log_ess_dead n : log_ess (repeat NInf n) = NaN.
Proof.
  unfold log_ess. assert (E : map (emul (Fin 2)) (repeat NInf n) = repeat NInf n).
  { induction n as [|n IH]; [reflexivity|]. simpl. rewrite IH. unfold inf_times. destruct Rlt_dec; [reflexivity|lra]. }
  rewrite E, logsumexp_dead. simpl. unfold inf_times. destruct Rlt_dec; [reflexivity|lra].
Qed.
Lemma adaptive_dead {Key X} (f : Resampling Key X) t k xs n : adaptive_fn f t k (repeat NInf n) xs n = Ok (seq 0 n, repeat NInf n, xs).
Proof.
  unfold adaptive_fn, ess_decorator. rewrite repeat_length, Nat.eqb_refl, log_ess_dead.
  assert (E : forall e, eltb NaN e = false) by (now intros []). now rewrite E.
Qed.
Lemma all_dead_repeat (l : list ext) : (forall e, In e l -> e = NInf) -> l = repeat NInf (length l).
Proof. induction l as [|a l IH]; intros H; [reflexivity|]. simpl. rewrite (H a) by now left. f_equal. apply IH. intros e He. apply H. now right. Qed.

Section Nan.
  Context {Key X Inp : Type}.
  Variable split : Key -> nat -> list Key.
  Hypothesis Hsplit : split_ok split.
  Variable init_sample : Key -> Inp -> X.
  Variable propagate_sample : Key -> X -> Inp -> X.
  Variable log_potential : X -> X -> Inp -> ext.
  Variables (f : Resampling Key X) (N : nat) (dummy : X).

  Lemma adaptive_step_nan t s p s' : (forall a b x, is_logit (log_potential a b x)) ->
    (forall e, In e (pf_log_weights s) -> e = NInf) ->
    pf_filter_combine split propagate_sample log_potential (adaptive_fn f t) s p = Ok s' ->
    pf_log_normalizing_constant s' = NaN.
  Proof.
    intros Hl Hd H. apply all_dead_repeat in Hd. unfold pf_filter_combine in H.
    destruct (split (pf_key s) (length (pf_log_weights s) + 1)) as [|k0 ks]; [discriminate|].
    rewrite Hd, repeat_length, adaptive_dead in H. cbn [bind] in H.
    destruct ((length ks =? length (pf_particles s))%nat && (length (repeat NInf (length (pf_log_weights s))) =? length (pf_particles s))%nat) eqn:E; [|discriminate].
    apply andb_true_iff in E. destruct E as (E1 & E2). apply Nat.eqb_eq in E1, E2. rewrite repeat_length in E2.
    injection H as <-. cbn [pf_log_normalizing_constant]. rewrite map2_dead.
    - rewrite logsumexp_dead. reflexivity.
    - generalize (map2 (fun k x => propagate_sample k x (pf_model_inputs p)) ks (pf_particles s)). intros ys.
      generalize (pf_particles s). intros xs. revert ys. induction xs as [|a xs IH]; intros [|y ys]; simpl; constructor; auto.
    - rewrite !map2_len. lia.
  Qed.

  Lemma pf_nan_stays res s p s' : pf_log_normalizing_constant s = NaN ->
    pf_filter_combine split propagate_sample log_potential res s p = Ok s' -> pf_log_normalizing_constant s' = NaN.
  Proof.
    intros E H. unfold pf_filter_combine in H.
    destruct (split (pf_key s) (length (pf_log_weights s) + 1)) as [|k0 ks]; [discriminate|].
    apply bind_ok in H. destruct H as ([[a b] c] & _ & H). destruct andb; [|discriminate]. injection H as <-.
    cbn [pf_log_normalizing_constant]. rewrite E. apply eadd_NaN.
  Qed.
  Lemma mpf_nan_stays res s p s' : mpf_log_normalizing_constant s = NaN ->
    mpf_filter_combine split propagate_sample log_potential res s p = Ok s' -> mpf_log_normalizing_constant s' = NaN.
  Proof.
    intros E H. unfold mpf_filter_combine in H.
    destruct (split (mpf_key s) (length (mpf_log_weights s) + 1)) as [|k0 ks]; [discriminate|].
    apply bind_ok in H. destruct H as ([[a b] c] & _ & H). destruct Nat.eqb; [|discriminate]. injection H as <-.
    cbn [mpf_log_normalizing_constant]. rewrite E. apply eadd_NaN.
  Qed.

  Definition mwf (s : MPFState Key X Inp) := length (mpf_particles s) = N /\ length (mpf_log_weights s) = N.
  Lemma mwf_step res s p s' : mwf s ->
    mpf_filter_combine split propagate_sample log_potential res s p = Ok s' -> mwf s'.
  Proof using Hsplit.
    intros (W1 & W2) H. unfold mpf_filter_combine in H. pose proof (Hsplit (mpf_key s) (length (mpf_log_weights s) + 1)%nat) as L.
    destruct (split (mpf_key s) (length (mpf_log_weights s) + 1)) as [|k0 ks]; [discriminate|]. simpl in L.
    apply bind_ok in H. destruct H as ([[a b] c] & _ & H). destruct (Nat.eqb_spec (length ks) (length c)) as [E|]; [|discriminate].
    injection H as <-. unfold mwf. cbn [mpf_particles mpf_log_weights]. rewrite map_length, map2_len. lia.
  Qed.
  Lemma logsumexp_nan l : In NaN l -> logsumexp l = NaN.
  Proof.
    intros H. unfold logsumexp. assert (E : esuml (map eexp l) = NaN).
    { induction l as [|a l IH]; [easy|]. simpl. destruct H as [->|H]; [reflexivity|]. rewrite IH by exact H. apply eadd_NaN. }
    now rewrite E.
  Qed.
  Lemma marginal_step_nan res s p s' : (0 < N)%nat -> mwf s -> (forall e, In e (mpf_log_weights s) -> e = NInf) ->
    mpf_filter_combine split propagate_sample log_potential res s p = Ok s' ->
    mpf_log_normalizing_constant s' = NaN.
  Proof using Hsplit.
    intros HN W Hd H. pose proof (mwf_step _ _ _ _ W H) as W'. destruct W as (W1 & W2). apply all_dead_repeat in Hd. rewrite W2 in Hd.
    unfold mpf_filter_combine in H.
    destruct (split (mpf_key s) (length (mpf_log_weights s) + 1)) as [|k0 ks]; [discriminate|].
    apply bind_ok in H. destruct H as ([[a b] c] & _ & H). destruct (Nat.eqb_spec (length ks) (length c)) as [E|]; [|discriminate].
    injection H as H. rewrite <- H in W' |- *. destruct W' as (L & _). cbn [mpf_particles] in L. cbn [mpf_log_normalizing_constant].
    rewrite (logsumexp_nan (map _ _)); [reflexivity|].
    destruct (map2 (fun k x => propagate_sample k x (mpf_model_inputs p)) ks c) as [|y ys]; [simpl in L; lia|].
    left. apply logsumexp_nan. rewrite Hd, logsumexp_dead.
    destruct (mpf_particles s) as [|x xs]; [simpl in W1; lia|]. destruct N; [lia|]. simpl. left. apply eadd_NaN.
  Qed.
End Nan.

(** once every particle has died, a filter with adaptive resampling reports NaN at every later time,
    whatever the model, the wrapped resampler and the threshold *)
Theorem C69_adaptive_nan {Key X Inp} (split : Key -> nat -> list Key) (init_sample : Key -> Inp -> X)
    (propagate_sample : Key -> X -> Inp -> X) (log_potential : X -> X -> Inp -> ext) (f : Resampling Key X)
    (threshold : R) (N : nat) (dummy : X) inputs key states t t' s s' :
  split_ok split -> (forall a b x, is_logit (log_potential a b x)) ->
  filter split (pf_build_filter split init_sample propagate_sample log_potential (adaptive_fn f threshold) N dummy)
    inputs false (Some key) = Ok (map Ok states) ->
  nth_error states t = Some s -> (forall e, In e (pf_log_weights s) -> e = NInf) ->
  (t < t')%nat -> nth_error states t' = Some s' -> pf_log_normalizing_constant s' = NaN.
Proof.
  intros Hs Hl Hrun Ht Hd Htt Ht'.
  destruct (run_steps split Hs _ _ _ inputs key states Hrun) as (L & _ & HS).
  revert s' Ht'. induction Htt as [|t' Htt IH]; intros s' Ht'.
  - destruct (nth_error inputs (S t)) as [x|] eqn:Ex.
    2:{ apply nth_error_None in Ex. assert (nth_error states (S t) <> None) by congruence. apply nth_error_Some in H. lia. }
    destruct (HS t x s Ex Ht) as (k & p & s1 & _ & _ & Hc & H1). rewrite H1 in Ht'. injection Ht' as <-. eapply adaptive_step_nan; eauto.
  - destruct (nth_error inputs (S t')) as [x|] eqn:Ex.
    2:{ apply nth_error_None in Ex. assert (nth_error states (S t') <> None) by congruence. apply nth_error_Some in H. lia. }
    destruct (nth_error states t') as [s0|] eqn:E0.
    2:{ apply nth_error_None in E0. assert (nth_error states (S t') <> None) by congruence. apply nth_error_Some in H. lia. }
    destruct (HS t' x s0 Ex E0) as (k & p & s1 & _ & _ & Hc & H1). rewrite H1 in Ht'. injection Ht' as <-.
    eapply pf_nan_stays; eauto.
Qed.
Print Assumptions C69_adaptive_nan.

(** the marginal filter does so with every resampler and every potential *)
Theorem C69_marginal_nan {Key X Inp} (split : Key -> nat -> list Key) (init_sample : Key -> Inp -> X)
    (propagate_sample : Key -> X -> Inp -> X) (log_potential : X -> X -> Inp -> ext) (f : Resampling Key X)
    (N : nat) (dummy : X) inputs key states t t' s s' :
  split_ok split -> (0 < N)%nat ->
  filter split (mpf_build_filter split init_sample propagate_sample log_potential f N dummy)
    inputs false (Some key) = Ok (map Ok states) ->
  nth_error states t = Some s -> (forall e, In e (mpf_log_weights s) -> e = NInf) ->
  (t < t')%nat -> nth_error states t' = Some s' -> mpf_log_normalizing_constant s' = NaN.
Proof.
  intros Hs HN Hrun Ht Hd Htt Ht'.
  destruct (run_steps split Hs _ _ _ inputs key states Hrun) as (L & H0 & HS).
  assert (Hx : forall i s, nth_error states i = Some s -> exists x, nth_error inputs i = Some x).
  { intros i s1 Hi. destruct (nth_error inputs i) eqn:E; [eauto|]. apply nth_error_None in E.
    assert (nth_error states i <> None) by congruence. apply nth_error_Some in H. lia. }
  assert (W : forall i s, nth_error states i = Some s -> mwf N s).
  { induction i as [|i IH]; intros s1 Hi; destruct (Hx _ _ Hi) as (x & Ex).
    - destruct (H0 x Ex) as (k & s2 & _ & E & E2). rewrite E2 in Hi. injection Hi as <-. simpl in E. injection E as <-.
      unfold mwf; simpl. unfold zeros. now rewrite map_length, Hs, repeat_length.
    - destruct (nth_error states i) as [s0|] eqn:E0.
      2:{ apply nth_error_None in E0. assert (nth_error states (S i) <> None) by congruence. apply nth_error_Some in H. lia. }
      destruct (HS i x s0 Ex E0) as (k & p & s2 & _ & _ & Hc & H1). rewrite H1 in Hi. injection Hi as <-.
      eapply mwf_step; eauto. }
  revert s' Ht'. induction Htt as [|t' Htt IH]; intros s' Ht'.
  - destruct (Hx _ _ Ht') as (x & Ex). destruct (HS t x s Ex Ht) as (k & p & s1 & _ & _ & Hc & H1). rewrite H1 in Ht'. injection Ht' as <-. exact (marginal_step_nan split Hs propagate_sample log_potential N f s p s1 HN (W _ _ Ht) Hd Hc).
  - destruct (Hx _ _ Ht') as (x & Ex). destruct (nth_error states t') as [s0|] eqn:E0.
    2:{ apply nth_error_None in E0. assert (nth_error states (S t') <> None) by congruence. apply nth_error_Some in H. lia. }
    destruct (HS t' x s0 Ex E0) as (k & p & s1 & _ & _ & Hc & H1). rewrite H1 in Ht'. injection Ht' as <-.
    eapply mpf_nan_stays; eauto.
Qed.
Print Assumptions C69_marginal_nan.

(** ** Witness: independent uniform states that survive a step when below 1/2; the evidence is 2^-T *)
Definition half_initial (u : R) (_ : unit) : R := u.
Definition half_propagate (u : R) (_ : R) (_ : unit) : R := u.
Definition half_potential (_ y : R) (_ : unit) : ext := if Rlt_dec y (1/2) then Fin 0 else NInf.
Lemma half_logit a b x : is_logit (half_potential a b x).
Proof. unfold half_potential. destruct Rlt_dec; [right; eauto|now left]. Qed.
Lemma is_RInt_half c : is_RInt (fun u => uw (half_potential 0 u tt) * c) 0 1 (c / 2).
Proof.
  replace (c / 2) with (plus (scal (1/2 - 0) c) (scal (1 - 1/2) 0)) by (unfold plus, scal; simpl; unfold mult; simpl; lra).
  apply (is_RInt_Chasles (V := R_NormedModule) _ 0 (1/2) 1).
  - apply (is_RInt_ext (V := R_NormedModule) (fun _ => c)); [|apply (is_RInt_const (V := R_NormedModule))].
    rewrite Rmin_left, Rmax_right by lra. intros x Hx. unfold half_potential. destruct Rlt_dec; [|lra]. simpl. rewrite exp_0. now rewrite Rmult_1_l.
  - apply (is_RInt_ext (V := R_NormedModule) (fun _ => 0)); [|apply (is_RInt_const (V := R_NormedModule))].
    rewrite Rmin_left, Rmax_right by lra. intros x Hx. unfold half_potential. destruct Rlt_dec; [lra|]. simpl. now rewrite Rmult_0_l.
Qed.
Lemma half_fk : forall n x, fk_from uniform_mean half_propagate half_potential (repeat tt n) (fun _ => 1) x = (1/2) ^ n.
Proof.
  induction n as [|n IH]; intros x; [reflexivity|]. cbn [repeat fk_from]. cbv zeta.
  rewrite (functional_extensionality _ (fun u => uw (half_potential 0 u tt) * (1/2) ^ n)).
  2:{ intros u. now rewrite IH. }
  unfold uniform_mean. rewrite (is_RInt_unique _ _ _ _ (is_RInt_half _)). cbn [pow]. lra.
Qed.
Lemma half_good T : fk_good uniform_mean uniform_good half_initial half_propagate half_potential tt (repeat tt T) (fun _ => 1).
Proof.
  split.
  - rewrite (functional_extensionality _ (fun _ => (1/2) ^ T)) by (intros; apply half_fk).
    exact (proj1 (proj1 uniform_expectation_ok _)).
  - induction T as [|n IH]; [exact I|]. cbn [repeat fk_from_good]. split; [|exact IH]. intros x. cbv zeta.
    rewrite (functional_extensionality _ (fun u => uw (half_potential 0 u tt) * (1/2) ^ n)).
    2:{ intros u. now rewrite half_fk. }
    eexists. apply is_RInt_half.
Qed.
Lemma half_evidence T : feynman_kac uniform_mean half_initial half_propagate half_potential tt (repeat tt T) (fun _ => 1) = (1/2) ^ T.
Proof.
  unfold feynman_kac. transitivity (uniform_mean (fun _ => (1/2) ^ T)); [|exact (proj2 (proj1 uniform_expectation_ok _))].
  f_equal. apply functional_extensionality. intros u. apply half_fk.
Qed.

Example C69_hypotheses_met (T : nat) : exists (split : list (nat * nat) -> nat -> list (list (nat * nat))) est
    (keq : forall a b : list (nat * nat), {a = b} + {a <> b}),
  split_ok split /\ split_injective split /\
  (forall w, pf_estimates (fun _ => 1) T
     (filter split (pf_build_filter split (fun k => half_initial (snd (w k))) (fun k => half_propagate (snd (w k))) half_potential
        (fun k => seeded 0 true Killing (w k)) 5 0) (tt :: repeat tt T) false (Some [])) (est w)) /\
  expectation keq (seed_mean uniform_mean 5 11) (consumed split [] 5 T) est (fun _ => ([], [], 0)) = (1/2) ^ T.
Proof.
  destruct C38_hypotheses_met as (split & Hs & Hi).
  assert (keq : forall a b : list (nat * nat), {a = b} + {a <> b}).
  { apply list_eq_dec. intros [a b] [c d]. destruct (Nat.eq_dec a c), (Nat.eq_dec b d); subst; auto; right; congruence. }
  destruct (C69_builtin keq uniform_mean uniform_good 0 split half_initial half_propagate half_potential
     true Killing 5 0 (fun _ => 1) tt (repeat tt T) [] (fun _ => ([], [], 0))
     uniform_expectation_ok Hs Hi ltac:(lia) half_logit (half_good T)) as ((est & He) & Q).
  rewrite repeat_length in He, Q. exists split, est, keq. split; [exact Hs|]. split; [exact Hi|]. split; [exact He|].
  rewrite <- half_evidence. exact (Q est He).
Qed.

Section Witness.
  Variable split : list (nat * nat) -> nat -> list (list (nat * nat)).
  Hypothesis Hs : split_ok split.
  Variables (N : nat) (t : R) (cpu : bool).
  Hypothesis HN : (0 < N)%nat.
  Let res := adaptive_fn (systematic_fn (Key := R) 0 cpu (fun u => u)) t.
  Let comb := pf_filter_combine split (fun _ => half_propagate (3/4)) half_potential (fun _ : list (nat * nat) => res (3/4)).

  Lemma half_dies s p : wf N s -> List.Forall is_logit (pf_log_weights s) ->
    exists s', comb s p = Ok s' /\ wf N s' /\ pf_log_weights s' = repeat NInf N.
  Proof using Hs HN.
    intros (W1 & W2) Hl. unfold comb, pf_filter_combine.
    pose proof (Hs (pf_key s) (length (pf_log_weights s) + 1)%nat) as L.
    destruct (split (pf_key s) (length (pf_log_weights s) + 1)) as [|k0 ks]; [simpl in L; lia|]. simpl in L.
    assert (HN' : (0 < length (pf_log_weights s))%nat) by lia.
    assert (E : exists idx lw ys, res (3/4) (pf_log_weights s) (pf_particles s) (length (pf_log_weights s)) = Ok (idx, lw, ys) /\
      length lw = N /\ length ys = N /\ List.Forall is_logit lw).
    { destruct (logits_dichotomy _ Hl) as [V|E].
      - destruct (adaptive_total (systematic_fn (Key := R) 0 cpu (fun u => u)) t ltac:(apply systematic_total) (3/4) _ (pf_particles s) V ltac:(congruence)) as ([[idx lw] ys] & E).
        destruct (adaptive_resampler_ok 0 (systematic_fn (Key := R) 0 cpu (fun u => u)) t ltac:(apply systematic_resampler_ok) _ _ _ _ _ _ _ V (eq_trans W1 (eq_sym W2)) HN' E)
          as (L1 & L2 & L3 & (L4 & _) & _).
        rewrite W2 in *. exists idx, lw, ys. auto.
      - rewrite E, repeat_length. unfold res. rewrite adaptive_dead. do 3 eexists. split; [reflexivity|].
        rewrite repeat_length. repeat split; try lia. rewrite <- E. exact Hl. }
    destruct E as (idx & lw & ys & E & L1 & L2 & L3). rewrite E. cbn [bind].
    replace (length ks) with N by lia. rewrite L1, L2, Nat.eqb_refl. cbn [andb]. eexists. split; [reflexivity|].
    cbn [pf_log_weights]. assert (LL : length ks = N) by lia.
    split. { split; cbn [pf_particles pf_log_weights]; rewrite !map2_len; lia. }
    clear - L1 L2 L3 LL. revert lw ys ks L1 L2 L3 LL. induction N as [|n IH]; intros [|l lw] [|y ys] [|k ks] L1 L2 L3 LL; try discriminate; [reflexivity|].
    simpl in *. inversion_clear L3 as [|? ? A B]. f_equal; [|now apply IH; auto].
    unfold half_potential, half_propagate. destruct Rlt_dec; [lra|]. destruct A as [->|(r & ->)]; reflexivity.
  Qed.
End Witness.

(** the statement fails for adaptive resampling: if all particles die at the first step the filter
    reports NaN at the second, for any number of particles and any threshold *)
Theorem C69_refuted (N : nat) (t : R) (cpu : bool) : (0 < N)%nat ->
  let res := adaptive_fn (systematic_fn (Key := R) 0 cpu (fun u => u)) t in
  exists (split : list (nat * nat) -> nat -> list (list (nat * nat))) states s,
  split_ok split /\ split_injective split /\
  (forall a b x, is_logit (half_potential a b x)) /\
  resampler_ok 0 res /\ resampler_total res /\ resampler_unbiased uniform_mean uniform_good N res /\
  fk_good uniform_mean uniform_good half_initial half_propagate half_potential tt [tt; tt] (fun _ => 1) /\
  filter split (pf_build_filter split (fun _ => half_initial (3/4)) (fun _ => half_propagate (3/4)) half_potential
     (fun _ => res (3/4)) N 0) [tt; tt; tt] false (Some []) = Ok (map Ok states) /\
  nth_error states 2 = Some s /\ pf_log_normalizing_constant s = NaN.
Proof.
  intros HN res. destruct C38_hypotheses_met as (split & Hs & Hi). exists split.
  set (pf := pf_build_filter split (fun _ => half_initial (3/4)) (fun _ => half_propagate (3/4)) half_potential (fun _ => res (3/4)) N 0).
  pose proof (Hs [] 3%nat) as L. destruct (split [] 3%nat) as [|k0 [|k1 [|k2 [|]]]] eqn:Ek; try discriminate.
  assert (exists s0, pf_init_prepare split (fun _ => half_initial (3/4)) N tt (Some k0) = Ok s0) as (s0 & E0) by (simpl; eauto).
  destruct (init_facts split Hs (fun _ => half_initial (3/4)) N HN _ _ _ E0) as (W0 & (V0 & _) & _).
  destruct (half_dies split Hs N t cpu HN s0 (pf_prepared N 0 tt k1) W0 V0) as (s1 & E1 & W1 & D1).
  assert (V1 : List.Forall is_logit (pf_log_weights s1)).
  { rewrite D1. apply Forall_forall. intros e He. apply repeat_spec in He. now left. }
  destruct (half_dies split Hs N t cpu HN s1 (pf_prepared N 0 tt k2) W1 V1) as (s2 & E2 & W2 & D2).
  exists [s0; s1; s2], s2. split; [exact Hs|]. split; [exact Hi|]. split; [exact half_logit|].
  split; [apply adaptive_resampler_ok, systematic_resampler_ok|]. split; [apply adaptive_total, systematic_total|].
  split; [apply adaptive_contract; [apply uniform_expectation_ok|apply systematic_contract]|].
  split; [exact (half_good 2)|]. split; [|split; [reflexivity|]].
  - unfold filter, prepare_keys. cbn [length]. rewrite Ek. cbn [map combine scan_states fst snd]. cbv zeta. cbn [init_prepare pf_build_filter].
    change (init_prepare pf tt (Some k0)) with (pf_init_prepare split (fun _ => half_initial (3/4)) N tt (Some k0)).
    rewrite E0. unfold pf. cbn [filter_combine filter_prepare pf_build_filter pf_filter_prepare bind].
    unfold pf_prepared in E1, E2. unfold res. rewrite E1. cbn [bind]. rewrite E2. reflexivity.
  - eapply (adaptive_step_nan split (fun _ => half_propagate (3/4)) half_potential (fun _ => systematic_fn (Key := R) 0 cpu (fun u => u) (3/4)) t s1).
    + exact half_logit.
    + intros e He. rewrite D1 in He. now apply repeat_spec in He.
    + exact E2.
Qed.
Print Assumptions C69_refuted.
Theorem C69_statement_false : ~ C69_statement.
Proof.
  intros H. destruct (C69_refuted 2 (1/2) true ltac:(lia)) as (split & st & s & Hs & Hi & Hl & Ho & Ht & Hu & Hg & Er & Es & Ez).
  assert (keq : forall a b : list (nat * nat), {a = b} + {a <> b}).
  { apply list_eq_dec. intros [a b] [c d]. destruct (Nat.eq_dec a c), (Nat.eq_dec b d); subst; auto; right; congruence. }
  destruct (H _ _ _ _ keq uniform_mean uniform_good 0 split half_initial half_propagate half_potential _ 2%nat 0 (fun _ => 1) tt [tt; tt] []
    (fun _ => 0) uniform_expectation_ok Hs (C38_no_reuse_partial split [] 2 2 Hi) ltac:(lia) Hl Ho Ht Hu Hg) as (est & He & _).
  destruct (He (fun _ => 3/4)) as (st' & s' & Er' & Es' & Ez'). cbv beta in Er'. rewrite Er in Er'. injection Er' as E. apply map_Ok_inj in E. subst st'.
  simpl length in Es'. rewrite Es in Es'. injection Es' as <-. rewrite Ez in Ez'. destruct Ez' as [(A & _)|(r & A & _)]; discriminate.
Qed.
Print Assumptions C69_statement_false.

(** the same model in the marginal filter: all particles die at the first step, NaN at the second *)
Lemma mpf_succeeds {Key X Inp} (split : Key -> nat -> list Key) (Hs : split_ok split) propagate_sample (log_potential : X -> X -> Inp -> ext)
    (f : Resampling Key X) N s p : mwf N s ->
  (forall k, exists idx lw ys, f k (mpf_log_weights s) (mpf_particles s) N = Ok (idx, lw, ys) /\ length ys = N) ->
  exists s' ks ys, mpf_filter_combine split propagate_sample log_potential f s p = Ok s' /\ mwf N s' /\ length ks = N /\ length ys = N /\
    mpf_log_weights s' = map (fun x => logsumexp (map2 eadd (map (fun a => log_potential a x (mpf_model_inputs p)) (mpf_particles s))
       (map (fun l => esub l (logsumexp (mpf_log_weights s))) (mpf_log_weights s))))
       (map2 (fun k x => propagate_sample k x (mpf_model_inputs p)) ks ys).
Proof.
  intros W H. pose proof W as (W1 & W2). pose proof (Hs (mpf_key s) (length (mpf_log_weights s) + 1)%nat) as L.
  assert (E : exists s' ks ys, mpf_filter_combine split propagate_sample log_potential f s p = Ok s' /\ length ks = N /\ length ys = N /\
    mpf_log_weights s' = map (fun x => logsumexp (map2 eadd (map (fun a => log_potential a x (mpf_model_inputs p)) (mpf_particles s))
       (map (fun l => esub l (logsumexp (mpf_log_weights s))) (mpf_log_weights s))))
       (map2 (fun k x => propagate_sample k x (mpf_model_inputs p)) ks ys)).
  { unfold mpf_filter_combine. destruct (split (mpf_key s) (length (mpf_log_weights s) + 1)%nat) as [|k0 ks]; [simpl in L; lia|]. simpl in L.
    destruct (H k0) as (idx & lw & ys & E & Ly). rewrite W2, E. cbn [bind]. replace (length ks) with N by lia. rewrite Ly, Nat.eqb_refl.
    eexists _, ks, ys. split; [reflexivity|]. split; [lia|]. split; [exact Ly|]. reflexivity. }
  destruct E as (s' & ks & ys & E & A & B & C). exists s', ks, ys. split; [exact E|]. split; [eapply mwf_step; eauto|]. auto.
Qed.
Example C69_marginal_hypotheses_met (N : nat) (cpu : bool) : (0 < N)%nat ->
  exists (split : list (nat * nat) -> nat -> list (list (nat * nat))) states s,
  split_ok split /\
  filter split (mpf_build_filter split (fun _ => half_initial (3/4)) (fun _ => half_propagate (3/4)) half_potential
     (systematic_fn 0 cpu (fun _ => 3/4)) N 0) [tt; tt; tt] false (Some []) = Ok (map Ok states) /\ length states = 3%nat /\
  nth_error states 1 = Some s /\ (forall e, In e (mpf_log_weights s) -> e = NInf).
Proof.
  intros HN. destruct C38_hypotheses_met as (split & Hs & Hi). exists split.
  set (res := systematic_fn 0 cpu (fun _ : list (nat * nat) => 3/4)).
  pose proof (Hs [] 3%nat) as L. destruct (split [] 3%nat) as [|k0 [|k1 [|k2 [|]]]] eqn:Ek; try discriminate.
  assert (exists s0, mpf_init_prepare split (fun _ => half_initial (3/4)) N tt (Some k0) = Ok s0) as (s0 & E0) by (simpl; eauto).
  assert (W0 : mwf N s0 /\ mpf_log_weights s0 = zeros N).
  { simpl in E0. injection E0 as <-. unfold mwf; simpl. unfold zeros. now rewrite map_length, Hs, repeat_length. }
  destruct W0 as (W0 & Z0).
  set (prep := fun k => {| mpf_key := k; mpf_particles := repeat 0 N; mpf_log_weights := zeros N; mpf_model_inputs := tt;
     mpf_log_normalizing_constant := Fin 0 |} : MPFState (list (nat * nat)) R unit).
  assert (Hr : forall s : MPFState (list (nat * nat)) R unit, mwf N s -> forall k, exists idx lw ys, res k (mpf_log_weights s) (mpf_particles s) N = Ok (idx, lw, ys) /\ length ys = N).
  { intros s (A & B) k. unfold res, systematic_fn, systematic_resampling. do 3 eexists. split; [reflexivity|].
    unfold apply_resampling_indices, gather. now rewrite map_length, inverse_cdf_length, systematic_uniforms_length. }
  destruct (mpf_succeeds split Hs (fun _ => half_propagate (3/4)) half_potential res N s0 (prep k1) W0 (Hr s0 W0)) as (s1 & ks & ys & E1 & W1 & Lk & Ly & D1).
  destruct (mpf_succeeds split Hs (fun _ => half_propagate (3/4)) half_potential res N s1 (prep k2) W1 (Hr s1 W1)) as (s2 & _ & _ & E2 & _).
  exists [s0; s1; s2], s1. split; [exact Hs|]. split; [|split; [reflexivity|split; [reflexivity|]]].
  - unfold filter, prepare_keys. cbn [length]. rewrite Ek. cbn [map combine scan_states fst snd]. cbv zeta.
    match goal with |- context [init_prepare ?pf tt (Some k0)] => change (init_prepare pf tt (Some k0)) with (mpf_init_prepare split (fun _ => half_initial (3/4)) N tt (Some k0)) end.
    rewrite E0. cbn [filter_combine filter_prepare mpf_build_filter mpf_filter_prepare bind].
    unfold prep in E1, E2. rewrite E1. cbn [bind]. rewrite E2. reflexivity.
  - intros e He. rewrite D1 in He. apply in_map_iff in He. destruct He as (x & <- & Hx).
    assert (x = 3/4). { apply (In_nth _ _ 0) in Hx. destruct Hx as (i & Hi' & <-). rewrite map2_len in Hi'.
      rewrite (map2_nth_d _ [] 0) by lia. reflexivity. }
    subst x. destruct W0 as (A & B). rewrite Z0, (logsumexp_valid _ (zeros_valid N HN)).
    assert (F : map2 eadd (map (fun a => half_potential a (3/4) (mpf_model_inputs (prep k1))) (mpf_particles s0))
        (map (fun l => esub l (Fin (ln (lsum uw (zeros N))))) (zeros N)) = repeat NInf N).
    { generalize (ln (lsum uw (zeros N))). intros c. unfold zeros. clear - A. revert A. generalize (mpf_particles s0).
      induction N as [|n IH]; intros [|a l] A; try discriminate; [reflexivity|]. simpl in *. rewrite IH by lia.
      unfold half_potential at 1. destruct Rlt_dec; [lra|]. reflexivity. }
    rewrite F. apply logsumexp_dead.
Qed.
