(** Properties C32-C38: particle filters and backward samplers. *)
From Coq Require Import Reals List Arith ZArith Bool Lia Lra Permutation FunctionalExtensionality.
From Coquelicot Require Import Coquelicot.
From Verif Require Import Ext ScanModel ScanProofs DriverSpec DriverProofs DiscreteSpec Sums
  ResamplingModel ResamplingSpec ResamplingProofs ConditionalProofs KillingProofs SystematicProofs
  ConditionalLaw SmcModel SmcSpec SmcProofs SmcResamplers SmcRuns MarginalPfProofs MarginalRuns MarginalWeights
  BackwardProofs BackwardKernels ImhProofs KeyProofs.
Import ListNotations.
Open Scope R_scope.

(** A concrete particle filter used to show that hypotheses can be met: keys are paths in the key
    tree, particles are real numbers. *)
Definition demo_split (k : list nat) (n : nat) : list (list nat) := map (fun i => i :: k) (seq 0 n).
Lemma demo_split_ok : split_ok demo_split.
Proof. intros k n. unfold demo_split. now rewrite map_length, seq_length. Qed.
Definition demo_init (k : list nat) (x : R) : R := INR (length k).
Definition demo_prop (k : list nat) (p x : R) : R := p + x.
Definition demo_pot (a b x : R) : ext := Fin (a * x - b).
Definition demo_res : Resampling (list nat) R := adaptive_fn (systematic_fn 0 true (fun _ => 1/2)) (1/2).
Lemma demo_res_ok : resampler_ok 0 demo_res.
Proof. apply adaptive_resampler_ok, systematic_resampler_ok. Qed.

(** C32: runs with finite potentials never fail and all their weights are valid. *)
Theorem C32_runs_exist {Key X Inp} (dX : X) (split : Key -> nat -> list Key)
        (init_sample : Key -> Inp -> X) (propagate_sample : Key -> X -> Inp -> X)
        (log_potential : X -> X -> Inp -> ext) (resampling_fn : Resampling Key X)
        (N : nat) (dummy : X) (inputs : list Inp) (key : Key) :
  split_ok split -> (0 < N)%nat -> inputs <> [] ->
  resampler_ok dX resampling_fn -> resampler_total resampling_fn ->
  (forall a b x, exists r, log_potential a b x = Fin r) ->
  let pf := pf_build_filter split init_sample propagate_sample log_potential resampling_fn N dummy in
  exists states, filter split pf inputs false (Some key) = Ok (map Ok states) /\
    length states = length inputs /\
    forall t s, nth_error states t = Some s ->
      length (pf_particles s) = N /\ length (pf_log_weights s) = N /\ valid_logits (pf_log_weights s).
Proof.
  intros Hs HN Hi Hr Ht Hf.
  destruct (pf_run_exists dX split Hs init_sample propagate_sample log_potential Hf resampling_fn Hr Ht N HN dummy
              inputs key Hi) as (st & E & L & W).
  exists st. split; [exact E|]. split; [exact L|]. intros t s Hst. destruct (W t s Hst) as ([A B] & C). auto.
Qed.
Print Assumptions C32_runs_exist.

(** C32: the evidence is the sum over the steps of the log of the weighted average of exp(potential). *)
Theorem C32_evidence_telescopes {Key X Inp} (dX : X) (split : Key -> nat -> list Key)
        (init_sample : Key -> Inp -> X) (propagate_sample : Key -> X -> Inp -> X)
        (log_potential : X -> X -> Inp -> ext) (resampling_fn : Resampling Key X)
        (N : nat) (dummy : X) (inputs : list Inp) (key : Key) (states : list (PFState Key X Inp)) :
  split_ok split -> (0 < N)%nat -> resampler_ok dX resampling_fn ->
  let pf := pf_build_filter split init_sample propagate_sample log_potential resampling_fn N dummy in
  filter split pf inputs false (Some key) = Ok (map Ok states) ->
  (forall t s, nth_error states t = Some s -> valid_logits (pf_log_weights s)) ->
  exists inc : nat -> R,
    (forall t s s', nth_error states t = Some s -> nth_error states (S t) = Some s' ->
       exists k0 ks idx lw anc,
         split (pf_key s) (N + 1)%nat = k0 :: ks /\
         resampling_fn k0 (pf_log_weights s) (pf_particles s) N = Ok (idx, lw, anc) /\
         inc t = ln (weighted_average lw (fun i =>
                   log_potential (nth i anc dX) (nth i (pf_particles s') dX) (pf_model_inputs s')))) /\
    (forall t s, nth_error states t = Some s ->
       pf_log_normalizing_constant s = Fin (lsum inc (seq 0 t))).
Proof.
  intros Hs HN Hr pf Hrun Hv.
  exact (pf_evidence dX split Hs init_sample propagate_sample log_potential resampling_fn Hr N HN dummy
           inputs key states Hrun Hv).
Qed.
Print Assumptions C32_evidence_telescopes.

(** C32: rescaling the weights of an intermediate state changes nothing but the scale of later weights. *)
Theorem C32_scale_invariant {Key X Inp} (dX : X) (split : Key -> nat -> list Key)
        (init_sample : Key -> Inp -> X) (propagate_sample : Key -> X -> Inp -> X)
        (log_potential : X -> X -> Inp -> ext) (resampling_fn : Resampling Key X)
        (N : nat) (dummy : X) (c : R) (s : PFState Key X Inp) (later rs : list (PFState Key X Inp)) :
  split_ok split -> (0 < N)%nat -> resampler_ok dX resampling_fn -> resampler_scale_free resampling_fn ->
  let pf := pf_build_filter split init_sample propagate_sample log_potential resampling_fn N dummy in
  let rescaled := {| pf_key := pf_key s; pf_particles := pf_particles s;
                     pf_log_weights := shift_logits c (pf_log_weights s);
                     pf_ancestor_indices := pf_ancestor_indices s; pf_model_inputs := pf_model_inputs s;
                     pf_log_normalizing_constant := pf_log_normalizing_constant s |} in
  length (pf_particles s) = N -> length (pf_log_weights s) = N -> valid_logits (pf_log_weights s) ->
  scan_states (filter_combine pf) (Ok s) (map Ok later) = map Ok rs ->
  List.Forall (fun r => valid_logits (pf_log_weights r)) rs ->
  exists rs', scan_states (filter_combine pf) (Ok rescaled) (map Ok later) = map Ok rs' /\
    Forall2 (fun r r' => pf_log_normalizing_constant r' = pf_log_normalizing_constant r /\
                         pf_particles r' = pf_particles r /\
                         pf_ancestor_indices r' = pf_ancestor_indices r /\
                         exists d, pf_log_weights r' = shift_logits d (pf_log_weights r)) rs rs'.
Proof.
  intros Hs HN Hr Hsf pf rescaled L1 L2 V Hrun Hval.
  destruct (run_scale dX split Hs init_sample propagate_sample log_potential resampling_fn Hr N HN dummy Hsf
              (map Ok later) s rescaled rs (conj L1 L2) V) as (rs' & E & F); auto.
  { unfold same_up_to_scale, rescaled; simpl. repeat split; auto. now exists c. }
  exists rs'. split; [exact E|]. clear - F. induction F; constructor; auto.
  destruct H as (A1 & A2 & A3 & A4 & A5 & A6). auto.
Qed.
Print Assumptions C32_scale_invariant.

(** C32: constant potentials give exactly the sum of the constants. *)
Theorem C32_constant_potentials {Key X Inp} (dX : X) (split : Key -> nat -> list Key)
        (init_sample : Key -> Inp -> X) (propagate_sample : Key -> X -> Inp -> X)
        (log_potential : X -> X -> Inp -> ext) (resampling_fn : Resampling Key X)
        (N : nat) (dummy : X) (inputs : list Inp) (key : Key) (states : list (PFState Key X Inp)) (g : nat -> R) :
  split_ok split -> (0 < N)%nat -> resampler_ok dX resampling_fn ->
  let pf := pf_build_filter split init_sample propagate_sample log_potential resampling_fn N dummy in
  filter split pf inputs false (Some key) = Ok (map Ok states) ->
  (forall t x a b, nth_error inputs (S t) = Some x -> log_potential a b x = Fin (g t)) ->
  forall t s, nth_error states t = Some s -> pf_log_normalizing_constant s = Fin (lsum g (seq 0 t)).
Proof.
  intros Hs HN Hr pf Hrun Hg.
  exact (pf_constant dX split Hs init_sample propagate_sample log_potential resampling_fn Hr N HN dummy
           inputs key states g Hrun Hg).
Qed.
Print Assumptions C32_constant_potentials.

(** C32: the built-in resamplers satisfy the contracts assumed above. *)
Theorem C32_builtin_resamplers {Key X} (dX : X) (cpu : bool) (u : Key -> R)
        (vs us : Key -> nat -> list R) (perm : Key -> nat -> list nat) (threshold : R) :
  uniforms_ok vs 0 -> uniforms_ok us 1 -> perm_ok perm ->
  let good (f : Resampling Key X) := resampler_ok dX f /\ resampler_scale_free f /\ resampler_total f in
  good (systematic_fn dX cpu u) /\ good (multinomial_fn dX cpu us perm) /\
  good (killing_fn dX cpu vs us perm) /\
  (forall f, good f -> good (adaptive_fn f threshold)).
Proof.
  intros Hv Hu Hp good. unfold good. repeat match goal with |- _ /\ _ => split end.
  - apply systematic_resampler_ok.
  - apply systematic_scale_free.
  - apply systematic_total.
  - now apply multinomial_resampler_ok.
  - now apply multinomial_scale_free.
  - apply multinomial_total.
  - now apply killing_resampler_ok.
  - now apply killing_scale_free.
  - apply killing_total_fn.
  - intros f (A & B & C). split; [now apply adaptive_resampler_ok|].
    split; [now apply adaptive_scale_free|now apply adaptive_total].
Qed.
Print Assumptions C32_builtin_resamplers.

(** the hypotheses above are met by a run with adaptive systematic resampling, particle-dependent
    potentials and three steps *)
Example C32_hypotheses_met : exists states : list (PFState (list nat) R R),
  filter demo_split (pf_build_filter demo_split demo_init demo_prop demo_pot demo_res 4 0)
    [1; 2; 3; 4] false (Some []) = Ok (map Ok states) /\ length states = 4%nat /\
  (forall t s, nth_error states t = Some s -> valid_logits (pf_log_weights s)).
Proof.
  destruct (C32_runs_exist 0 demo_split demo_init demo_prop demo_pot demo_res 4 0 [1; 2; 3; 4] []
              demo_split_ok ltac:(lia) ltac:(discriminate) demo_res_ok) as (st & E & L & W).
  - apply adaptive_total, systematic_total.
  - intros a b x. unfold demo_pot. eauto.
  - exists st. split; [exact E|]. split; [exact L|]. intros t s H. now apply (W t s H).
Qed.
Example C32_draws_met : exists (vs us : nat -> nat -> list R) (perm : nat -> nat -> list nat),
  uniforms_ok vs 0 /\ uniforms_ok us 1 /\ perm_ok perm.
Proof.
  exists (fun _ n => repeat (1/2) n), (fun _ n => repeat (1/2) (n + 1)), (fun _ n => seq 0 n).
  split; [|split].
  - intros k n. split; [rewrite repeat_length; lia|]. apply Forall_forall. intros x Hx. apply repeat_spec in Hx. subst. lra.
  - intros k n. split; [rewrite repeat_length; lia|]. apply Forall_forall. intros x Hx. apply repeat_spec in Hx. subst. lra.
  - intros k n. reflexivity.
Qed.

(** ** C33: marginal particle filter *)
(** Full statement: for every resampler meeting the contract (adaptive ones included)
    log_normalizing_constant = sum of the g_t.  It is false: *)
Definition C33_statement : Prop :=
  forall (Key X Inp : Type) (dX : X) (split : Key -> nat -> list Key)
         (init_sample : Key -> Inp -> X) (propagate_sample : Key -> X -> Inp -> X)
         (log_potential : X -> X -> Inp -> ext) (resampling_fn : Resampling Key X)
         (N : nat) (dummy : X) (inputs : list Inp) (key : Key) (states : list (MPFState Key X Inp)) (g : nat -> R),
  split_ok split -> (0 < N)%nat -> resampler_ok dX resampling_fn ->
  filter split (mpf_build_filter split init_sample propagate_sample log_potential resampling_fn N dummy)
    inputs false (Some key) = Ok (map Ok states) ->
  (forall t x a b, nth_error inputs (S t) = Some x -> log_potential a b x = Fin (g t)) ->
  forall t s, nth_error states t = Some s -> mpf_log_normalizing_constant s = Fin (lsum g (seq 0 t)).

(** With an adaptive resampler (threshold in (0,1]) the weights stay uniform, resampling never
    triggers, and the reported constant is the last potential instead of the sum. *)
Theorem C33_adaptive_reports_last_potential {Key X Inp} (dX : X) (split : Key -> nat -> list Key)
        (init_sample : Key -> Inp -> X) (propagate_sample : Key -> X -> Inp -> X)
        (log_potential : X -> X -> Inp -> ext) (f : Resampling Key X) (threshold : R)
        (N : nat) (dummy : X) (inputs : list Inp) (key : Key) (states : list (MPFState Key X Inp)) (g : nat -> R) :
  split_ok split -> (0 < N)%nat -> resampler_ok dX f -> 0 < threshold <= 1 ->
  filter split (mpf_build_filter split init_sample propagate_sample log_potential (adaptive_fn f threshold) N dummy)
    inputs false (Some key) = Ok (map Ok states) ->
  (forall t x a b, nth_error inputs (S t) = Some x -> log_potential a b x = Fin (g t)) ->
  forall t s, nth_error states (S t) = Some s -> mpf_log_normalizing_constant s = Fin (g t).
Proof.
  intros Hs HN Hf Ht Hrun Hg t s Hst.
  apply (mpf_run_constant dX split Hs init_sample propagate_sample log_potential (adaptive_fn f threshold)
           (adaptive_resampler_ok dX f threshold Hf) N HN dummy inputs key states g (prev_g g) Hrun Hg eq_refl)
    with (t := S t); auto.
  intros t' k0 xs idx lw anc Hr. rewrite adaptive_keeps in Hr by assumption. injection Hr as _ <- _.
  rewrite lse_repeat by assumption. simpl. lra.
Qed.
Print Assumptions C33_adaptive_reports_last_potential.

Theorem C33_refuted :
  exists (Key X Inp : Type) (dX : X) (split : Key -> nat -> list Key)
         (init_sample : Key -> Inp -> X) (propagate_sample : Key -> X -> Inp -> X)
         (log_potential : X -> X -> Inp -> ext) (resampling_fn : Resampling Key X)
         (N : nat) (dummy : X) (inputs : list Inp) (key : Key) (states : list (MPFState Key X Inp)) (g : nat -> R),
  split_ok split /\ (0 < N)%nat /\ resampler_ok dX resampling_fn /\
  filter split (mpf_build_filter split init_sample propagate_sample log_potential resampling_fn N dummy)
    inputs false (Some key) = Ok (map Ok states) /\
  (forall t x a b, nth_error inputs (S t) = Some x -> log_potential a b x = Fin (g t)) /\
  exists t s, nth_error states t = Some s /\ mpf_log_normalizing_constant s <> Fin (lsum g (seq 0 t)).
Proof.
  destruct (mpf_run_exists 0 demo_split demo_split_ok demo_init demo_prop (fun _ _ g => Fin g)
              ltac:(eauto) demo_res demo_res_ok (adaptive_total _ _ (systematic_total _ _ _)) 4 ltac:(lia) 0
              [0; -1; -1] [] ltac:(discriminate)) as (st & E & L).
  assert (Hg : forall t x (a b : R), nth_error [0; -1; -1] (S t) = Some x -> Fin x = Fin ((fun _ : nat => -1) t)).
  { intros [|[|[|t]]] x a b H; simpl in H; try discriminate; congruence. }
  exists (list nat), R, R, 0, demo_split, demo_init, demo_prop, (fun _ _ g => Fin g), demo_res, 4%nat, 0,
    [0; -1; -1], [], st, (fun _ => -1).
  split; [exact demo_split_ok|]. split; [lia|]. split; [exact demo_res_ok|]. split; [exact E|]. split; [exact Hg|].
  destruct (nth_error st 2) as [s|] eqn:Es; [|apply nth_error_None in Es; simpl in L; lia].
  exists 2%nat, s. split; [exact Es|].
  rewrite (C33_adaptive_reports_last_potential 0 demo_split demo_init demo_prop (fun _ _ g => Fin g)
             (systematic_fn 0 true (fun _ => 1/2)) (1/2) 4 0 [0; -1; -1] [] st (fun _ => -1)
             demo_split_ok ltac:(lia) (systematic_resampler_ok _ _ _) ltac:(lra) E Hg 1%nat s Es).
  simpl. intros H. injection H. lra.
Qed.
Print Assumptions C33_refuted.
Theorem C33_statement_false : ~ C33_statement.
Proof.
  intros H. destruct C33_refuted as (K & X & I & dX & sp & i & p & l & r & N & d & inp & k & st & g &
    A & B & C & D & E & t & s & F & G). apply G. eapply H; eauto.
Qed.
Print Assumptions C33_statement_false.

(** What does hold: the claim for resamplers that always reset the weights (all built-in
    non-adaptive ones).  Missing: adaptive resamplers, for which it is false. *)
Theorem C33_constant_potentials_partial {Key X Inp} (dX : X) (split : Key -> nat -> list Key)
        (init_sample : Key -> Inp -> X) (propagate_sample : Key -> X -> Inp -> X)
        (log_potential : X -> X -> Inp -> ext) (resampling_fn : Resampling Key X)
        (N : nat) (dummy : X) (inputs : list Inp) (key : Key) (states : list (MPFState Key X Inp)) (g : nat -> R) :
  split_ok split -> (0 < N)%nat -> resampler_ok dX resampling_fn -> resampler_uniform resampling_fn ->
  filter split (mpf_build_filter split init_sample propagate_sample log_potential resampling_fn N dummy)
    inputs false (Some key) = Ok (map Ok states) ->
  (forall t x a b, nth_error inputs (S t) = Some x -> log_potential a b x = Fin (g t)) ->
  forall t s, nth_error states t = Some s -> mpf_log_normalizing_constant s = Fin (lsum g (seq 0 t)).
Proof.
  intros Hs HN Hr Hu Hrun Hg.
  exact (mpf_uniform dX split Hs init_sample propagate_sample log_potential resampling_fn Hr N HN dummy
           inputs key states g Hu Hrun Hg).
Qed.
Print Assumptions C33_constant_potentials_partial.
Theorem C33_uniform_resamplers {Key X} (dX : X) (cpu : bool) (u : Key -> R)
        (vs us : Key -> nat -> list R) (perm : Key -> nat -> list nat) :
  resampler_uniform (systematic_fn dX cpu u) /\ resampler_uniform (multinomial_fn dX cpu us perm) /\
  resampler_uniform (killing_fn dX cpu vs us perm).
Proof.
  repeat split.
  - intros k l xs n idx lw ys H. unfold systematic_fn, systematic_resampling in H. now injection H as _ <- _.
  - intros k l xs n idx lw ys H. unfold multinomial_fn, multinomial_resampling in H. now injection H as _ <- _.
  - intros k l xs n idx lw ys H. unfold killing_fn, killing_resampling in H.
    destruct (Nat.eqb_spec n (length l)) as [->|]; [|discriminate]. simpl negb in H. cbv iota in H.
    destruct multinomial_resampling as [[a b] c]. now injection H as _ <- _.
Qed.
Print Assumptions C33_uniform_resamplers.
Example C33_hypotheses_met : exists states : list (MPFState (list nat) R R),
  filter demo_split (mpf_build_filter demo_split demo_init demo_prop (fun _ _ g => Fin g)
      (systematic_fn 0 true (fun _ => 1/2)) 4 0) [0; 1; 2] false (Some []) = Ok (map Ok states)
  /\ length states = 3%nat.
Proof.
  exact (mpf_run_exists 0 demo_split demo_split_ok demo_init demo_prop (fun _ _ g => Fin g)
              ltac:(eauto) _ (systematic_resampler_ok _ _ _) (systematic_total _ _ _) 4 ltac:(lia) 0
              [0; 1; 2] [] ltac:(discriminate)).
Qed.

(** ** C52: the marginal particle filter weighs every new particle by the mixture over all previous
    weighted particles, and propagates from the resampled ancestors *)
Theorem C52_mixture_weights {Key X Inp} (dX : X) (split : Key -> nat -> list Key)
        (init_sample : Key -> Inp -> X) (propagate_sample : Key -> X -> Inp -> X)
        (log_potential : X -> X -> Inp -> ext) (resampling_fn : Resampling Key X)
        (N : nat) (dummy : X) (inputs : list Inp) (key : Key) (states : list (MPFState Key X Inp)) :
  split_ok split -> (0 < N)%nat -> resampler_ok dX resampling_fn ->
  (forall a b x, exists r, log_potential a b x = Fin r) ->
  filter split (mpf_build_filter split init_sample propagate_sample log_potential resampling_fn N dummy)
    inputs false (Some key) = Ok (map Ok states) ->
  forall t s s' x, nth_error states t = Some s -> nth_error states (S t) = Some s' ->
    nth_error inputs (S t) = Some x ->
    exists k0 ks idx lw anc,
      split (mpf_key s) (N + 1)%nat = k0 :: ks /\
      resampling_fn k0 (mpf_log_weights s) (mpf_particles s) N = Ok (idx, lw, anc) /\
      (forall j dk, (j < N)%nat -> (nth j idx 0 < N)%nat /\
         nth j (mpf_particles s') dX
         = propagate_sample (nth j ks dk) (nth (nth j idx 0%nat) (mpf_particles s) dX) x) /\
      (forall j, (j < N)%nat -> nth j (mpf_log_weights s') NaN
         = Fin (ln (weighted_average (mpf_log_weights s) (fun i =>
             log_potential (nth i (mpf_particles s) dX) (nth j (mpf_particles s') dX) x)))) /\
      mpf_log_normalizing_constant s' =
        eadd (Fin (ln (lsum (fun x' => exp (ln (weighted_average (mpf_log_weights s) (fun i =>
                     log_potential (nth i (mpf_particles s) dX) x' x)))) (mpf_particles s'))
                   - fin_val (logsumexp lw))) (mpf_log_normalizing_constant s).
Proof.
  intros Hs HN Hr Hf Hrun.
  exact (proj2 (mpf_run_facts dX split Hs init_sample propagate_sample log_potential Hf resampling_fn Hr N HN dummy
           inputs key states Hrun)).
Qed.
Print Assumptions C52_mixture_weights.
Example C52_hypotheses_met : exists states : list (MPFState (list nat) R R),
  filter demo_split (mpf_build_filter demo_split demo_init demo_prop demo_pot demo_res 4 0)
    [1; 2; 3; 4] false (Some []) = Ok (map Ok states) /\ length states = 4%nat.
Proof.
  apply (mpf_run_exists 0 demo_split demo_split_ok demo_init demo_prop demo_pot
              ltac:(unfold demo_pot; eauto) demo_res demo_res_ok (adaptive_total _ _ (systematic_total _ _ _)) 4 ltac:(lia) 0
              [1; 2; 3; 4] [] ltac:(discriminate)).
Qed.

(** ** C34: tracing returns ancestral lines *)
Theorem C34_tracing_ancestral_lines {Key X Inp} (dX : X) (split : Key -> nat -> list Key)
        (init_sample : Key -> Inp -> X) (propagate_sample : Key -> X -> Inp -> X)
        (log_potential : X -> X -> Inp -> ext) (resampling_fn sm_resampling : Resampling Key X)
        (N M : nat) (dummy : X) (dummy_like : Inp -> Inp) (fkey skey : Key)
        (x0 : Inp) (trans inputs : list Inp)
        (fstates : list (PFState Key X Inp)) (sstates : list (PSState Key X Inp)) :
  split_ok split -> (0 < N)%nat -> (0 < M)%nat ->
  resampler_ok dX resampling_fn -> resampler_ok dX sm_resampling ->
  let pf := pf_build_filter split init_sample propagate_sample log_potential resampling_fn N dummy in
  let sm := ps_build_smoother split log_potential (tracing_simulate dX) sm_resampling M dummy_like in
  filter split pf (x0 :: trans) false (Some fkey) = Ok (map Ok fstates) ->
  trans <> [] ->
  (forall t s, nth_error fstates t = Some s -> valid_logits (pf_log_weights s)) ->
  (inputs = trans \/ exists x, inputs = x :: trans) ->
  smoother split dummy_like pf_model_inputs sm fstates (Some inputs) false (Some skey) = Ok (map Ok sstates) ->
  length sstates = length fstates /\
  forall k, (k < M)%nat -> exists b : nat -> nat,
    (forall t f s, nth_error fstates t = Some f -> nth_error sstates t = Some s ->
       (b t < N)%nat /\ nth k (ps_particles s) dX = nth (b t) (pf_particles f) dX) /\
    (forall t f', nth_error fstates (S t) = Some f' ->
       b t = nth (b (S t)) (pf_ancestor_indices f') 0%nat).
Proof.
  intros Hs HN HM Hr Hsm pf sm Hrun Ht Hv Hin Hsmooth.
  exact (tracing_lines dX split Hs init_sample propagate_sample log_potential resampling_fn Hr N HN dummy
           dummy_like sm_resampling Hsm M HM fkey skey x0 trans inputs fstates sstates Hrun Ht Hv Hin Hsmooth).
Qed.
Print Assumptions C34_tracing_ancestral_lines.

(** C34: the filter's ancestor indices do record who was propagated into whom. *)
Theorem C34_ancestor_indices_are_parents {Key X Inp} (dX : X) (split : Key -> nat -> list Key)
        (init_sample : Key -> Inp -> X) (propagate_sample : Key -> X -> Inp -> X)
        (log_potential : X -> X -> Inp -> ext) (resampling_fn : Resampling Key X)
        (N : nat) (dummy : X) (inputs : list Inp) (key : Key) (states : list (PFState Key X Inp)) :
  split_ok split -> (0 < N)%nat -> resampler_ok dX resampling_fn ->
  let pf := pf_build_filter split init_sample propagate_sample log_potential resampling_fn N dummy in
  filter split pf inputs false (Some key) = Ok (map Ok states) ->
  (forall t s, nth_error states t = Some s -> valid_logits (pf_log_weights s)) ->
  forall t s s' j, nth_error states t = Some s -> nth_error states (S t) = Some s' -> (j < N)%nat ->
    (nth j (pf_ancestor_indices s') 0 < N)%nat /\
    exists k, nth_error (tl (split (pf_key s) (N + 1)%nat)) j = Some k /\
      nth j (pf_particles s') dX =
      propagate_sample k (nth (nth j (pf_ancestor_indices s') 0%nat) (pf_particles s) dX) (pf_model_inputs s').
Proof.
  intros Hs HN Hr pf Hrun Hv t s s' j Hs1 Hs2 Hj.
  destruct (pf_genealogy dX split Hs init_sample propagate_sample log_potential resampling_fn Hr N HN dummy
           inputs key states Hrun Hv) as (A & B & _).
  split; [now apply (A _ _ Hs2)|]. eapply B; eauto.
Qed.
Print Assumptions C34_ancestor_indices_are_parents.
Example C34_hypotheses_met :
  exists (fstates : list (PFState (list nat) R R)) (sstates : list (PSState (list nat) R R)),
  filter demo_split (pf_build_filter demo_split demo_init demo_prop demo_pot demo_res 4 0)
    [1; 2; 3; 4] false (Some []) = Ok (map Ok fstates) /\
  (forall t s, nth_error fstates t = Some s -> valid_logits (pf_log_weights s)) /\
  smoother demo_split (fun x => x) pf_model_inputs
    (ps_build_smoother demo_split demo_pot (tracing_simulate 0) (systematic_fn 0 true (fun _ => 1/2)) 3 (fun x => x))
    fstates (Some [1; 2; 3; 4]) false (Some []) = Ok (map Ok sstates).
Proof.
  destruct C32_hypotheses_met as (fs & E & L & V).
  destruct (smoother_run_exists 0 demo_split demo_split_ok demo_pot (tracing_simulate 0)
              (systematic_fn 0 true (fun _ => 1/2)) 3 (fun x => x) fs 2 [3; 4] [1; 2; 3; 4] []) as (ss & E2 & _).
  - intros. unfold tracing_simulate. eauto.
  - intros. unfold systematic_fn. eauto.
  - exact L.
  - right. eauto.
  - exists fs, ss. auto.
Qed.

(** ** C35: the inputs seen by the backward density *)
(** Full statement: at time t the kernel is given the density of the transition t -> t+1. *)
Definition uses_transition_inputs {Key X Inp} (log_potential : X -> X -> Inp -> ext)
           (bs : BackwardSampling (Key:=Key) (X:=X))
           (fstates : list (PFState Key X Inp)) (trans : list Inp) (sstates : list (PSState Key X Inp)) : Prop :=
  forall t f x s s', nth_error fstates t = Some f -> nth_error trans t = Some x ->
    nth_error sstates t = Some s -> nth_error sstates (S t) = Some s' ->
    exists anc,
      bs (ps_key s) (pf_particles f) (ps_particles s') (pf_log_weights f)
         (fun a b => log_potential a b x) (ps_ancestor_indices s') = Ok (ps_particles s, anc).

(** What the code does: at time t it uses the inputs of the NEXT transition, and at the last
    transition the dummy inputs. *)
Theorem C35_inputs_actually_used {Key X Inp} (split : Key -> nat -> list Key)
        (log_potential : X -> X -> Inp -> ext) (bs : BackwardSampling) (sm_resampling : Resampling Key X)
        (M : nat) (dummy_like : Inp -> Inp) (x0 : Inp) (trans' inputs : list Inp) (key : Key)
        (fstates : list (PFState Key X Inp)) (sstates : list (PSState Key X Inp)) :
  split_ok split ->
  let trans := x0 :: trans' in
  (inputs = trans \/ exists x, inputs = x :: trans) ->
  length fstates = S (length trans) ->
  smoother split dummy_like pf_model_inputs (ps_build_smoother split log_potential bs sm_resampling M dummy_like)
    fstates (Some inputs) false (Some key) = Ok (map Ok sstates) ->
  forall t f s s', nth_error fstates t = Some f -> nth_error sstates t = Some s ->
    nth_error sstates (S t) = Some s' ->
    exists anc x,
      x = nth (S t) trans (dummy_like (dummy_like x0)) /\
      bs (ps_key s) (pf_particles f) (ps_particles s') (pf_log_weights f)
         (fun a b => log_potential a b x) (ps_ancestor_indices s') = Ok (ps_particles s, anc).
Proof.
  intros Hs trans Hin L Hsm.
  exact (backward_inputs split Hs log_potential bs sm_resampling M dummy_like x0 trans' inputs key fstates sstates Hin L Hsm).
Qed.
Print Assumptions C35_inputs_actually_used.

(** Witness: exact backward sampling with a density that forces the ancestor to equal the input.
    The inputs of the two transitions are 0 and 1; at time 0 the only ancestor allowed by the
    transition 0 -> 1 is particle 0, the sampler returns particle 1. *)
Definition wit_pot (a b x : nat) : ext := if Nat.eqb a x then Fin 0 else NInf.
(** returns an index of positive weight *)
Definition wit_cat (k : nat) (l : list ext) : nat := match l with NInf :: _ => 1%nat | _ => 0%nat end.
Definition wit_split (k n : nat) : list nat := repeat k n.
Definition wit_state : PFState nat nat nat :=
  {| pf_key := 0%nat; pf_particles := [0; 1]%nat; pf_log_weights := [Fin 0; Fin 0];
     pf_ancestor_indices := [0; 1]%nat; pf_model_inputs := 0%nat; pf_log_normalizing_constant := Fin 0 |}.
Definition wit_res : Resampling nat nat := fun _ _ _ _ => Ok ([0]%nat, [Fin 0], [0]%nat).

Lemma wit_weights x1 x : (x < 2)%nat ->
  backward_log_weights [0; 1]%nat x1 [Fin 0; Fin 0] (fun a b => wit_pot a b x) =
  if Nat.eqb x 0 then [Fin 0; NInf] else [NInf; Fin 0].
Proof.
  intros Hx. unfold backward_log_weights. cbn [map2]. unfold log_weights_single, wit_pot.
  destruct x as [|[|x]]; [| |lia]; cbn [Nat.eqb eadd].
  - replace (logsumexp [Fin (0 + 0); NInf]) with (Fin 0).
    + simpl. unfold esub; simpl. f_equal. f_equal. lra.
    + unfold logsumexp. cbn -[exp]. rewrite ?Rplus_0_l, ?Rplus_0_r, exp_0.
      unfold elog. destruct Rlt_dec; [now rewrite ln_1|lra].
  - replace (logsumexp [NInf; Fin (0 + 0)]) with (Fin 0).
    + simpl. unfold esub; simpl. do 2 f_equal. f_equal. lra.
    + unfold logsumexp. cbn -[exp]. rewrite ?Rplus_0_l, ?Rplus_0_r, exp_0.
      unfold elog. destruct Rlt_dec; [now rewrite ln_1|lra].
Qed.
Lemma wit_simulate key x1 x anc : (x < 2)%nat ->
  exact_simulate 0%nat wit_split wit_cat key [0; 1]%nat [x1] [Fin 0; Fin 0] (fun a b => wit_pot a b x) anc
  = Ok ([x], [x]).
Proof.
  intros Hx. unfold exact_simulate. cbn [length wit_split repeat map2 map].
  unfold simulate_single. rewrite wit_weights by assumption.
  destruct x as [|[|x]]; [| |lia]; reflexivity.
Qed.

Theorem C35_refuted :
  exists (split : nat -> nat -> list nat) (log_potential : nat -> nat -> nat -> ext)
         (categorical : nat -> list ext -> nat) (sm_resampling : Resampling nat nat) (M : nat)
         (dummy_like : nat -> nat) (trans : list nat) (fstates : list (PFState nat nat nat))
         (sstates : list (PSState nat nat nat)),
    split_ok split /\ length fstates = S (length trans) /\
    let bs := exact_simulate 0%nat split categorical in
    smoother split dummy_like pf_model_inputs (ps_build_smoother split log_potential bs sm_resampling M dummy_like)
      fstates (Some trans) false (Some 0%nat) = Ok (map Ok sstates) /\
    ~ uses_transition_inputs log_potential bs fstates trans sstates.
Proof.
  exists wit_split, wit_pot, wit_cat, wit_res, 1%nat, (fun _ => 1%nat), [0; 1]%nat,
    [wit_state; wit_state; wit_state],
    [ {| ps_key := 0%nat; ps_particles := [1]%nat; ps_ancestor_indices := [1]%nat; ps_model_inputs := 0%nat;
         ps_log_weights := [eopp (elog (Fin 1))] |};
      {| ps_key := 0%nat; ps_particles := [1]%nat; ps_ancestor_indices := [1]%nat; ps_model_inputs := 1%nat;
         ps_log_weights := [eopp (elog (Fin 1))] |};
      {| ps_key := 0%nat; ps_particles := [0]%nat; ps_ancestor_indices := [0]%nat; ps_model_inputs := 1%nat;
         ps_log_weights := [Fin 0] |} ].
  split; [intros k n; apply repeat_length|]. split; [reflexivity|]. intros bs. split.
  - cbn -[exact_simulate]. unfold ps_combine. cbn -[exact_simulate elog eopp].
    unfold bs. rewrite wit_simulate by lia. cbn -[exact_simulate elog eopp].
    rewrite wit_simulate by lia. reflexivity.
  - intros H. destruct (H 0%nat _ _ _ _ eq_refl eq_refl eq_refl eq_refl) as (anc & E).
    unfold bs in E. cbn -[exact_simulate] in E. rewrite wit_simulate in E by lia. discriminate.
Qed.
Print Assumptions C35_refuted.

(** What does hold (1): when the potential does not depend on the inputs. Missing: the dependence on
    the inputs, where the claim is false. *)
Theorem C35_input_free_potential_partial {Key X Inp} (split : Key -> nat -> list Key)
        (log_potential : X -> X -> Inp -> ext) (bs : BackwardSampling) (sm_resampling : Resampling Key X)
        (M : nat) (dummy_like : Inp -> Inp) (x0 : Inp) (trans' inputs : list Inp) (key : Key)
        (fstates : list (PFState Key X Inp)) (sstates : list (PSState Key X Inp)) :
  split_ok split -> (forall a b x y, log_potential a b x = log_potential a b y) ->
  let trans := x0 :: trans' in
  (inputs = trans \/ exists x, inputs = x :: trans) ->
  length fstates = S (length trans) ->
  smoother split dummy_like pf_model_inputs (ps_build_smoother split log_potential bs sm_resampling M dummy_like)
    fstates (Some inputs) false (Some key) = Ok (map Ok sstates) ->
  uses_transition_inputs log_potential bs fstates trans sstates.
Proof.
  intros Hs Hp trans Hin L Hsm t f x s s' Hf Hx H1 H2.
  destruct (C35_inputs_actually_used split log_potential bs sm_resampling M dummy_like x0 trans' inputs key
              fstates sstates Hs Hin L Hsm t f s s' Hf H1 H2) as (anc & y & _ & E).
  exists anc. rewrite <- E. f_equal. extensionality a. extensionality b. apply Hp.
Qed.
Print Assumptions C35_input_free_potential_partial.

(** What does hold (2): exact backward sampling, when the inputs only contribute a term that does not
    depend on the ancestor (e.g. an observation density), whatever that term is. *)
Theorem C35_exact_sampling_partial {Key X Inp} (dX : X) (split : Key -> nat -> list Key)
        (categorical : Key -> list ext -> nat)
        (log_potential : X -> X -> Inp -> ext) (h : X -> X -> ext) (c : X -> Inp -> R)
        (sm_resampling : Resampling Key X)
        (M : nat) (dummy_like : Inp -> Inp) (x0 : Inp) (trans' inputs : list Inp) (key : Key)
        (fstates : list (PFState Key X Inp)) (sstates : list (PSState Key X Inp)) :
  split_ok split -> (forall a b x, log_potential a b x = eadd (h a b) (Fin (c b x))) ->
  let trans := x0 :: trans' in
  let bs := exact_simulate dX split categorical in
  (inputs = trans \/ exists x, inputs = x :: trans) ->
  length fstates = S (length trans) ->
  smoother split dummy_like pf_model_inputs (ps_build_smoother split log_potential bs sm_resampling M dummy_like)
    fstates (Some inputs) false (Some key) = Ok (map Ok sstates) ->
  uses_transition_inputs log_potential bs fstates trans sstates.
Proof.
  intros Hs Hp trans bs Hin L Hsm t f x s s' Hf Hx H1 H2.
  destruct (C35_inputs_actually_used split log_potential bs sm_resampling M dummy_like x0 trans' inputs key
              fstates sstates Hs Hin L Hsm t f s s' Hf H1 H2) as (anc & y & _ & E).
  exists anc. rewrite <- E. unfold bs, exact_simulate.
  assert (Q : (fun k x1 => simulate_single dX categorical k (pf_particles f) x1 (pf_log_weights f) (fun a b => log_potential a b x))
            = (fun k x1 => simulate_single dX categorical k (pf_particles f) x1 (pf_log_weights f) (fun a b => log_potential a b y))).
  { extensionality k. extensionality x1. unfold simulate_single.
    assert (W : forall z, backward_log_weights (pf_particles f) x1 (pf_log_weights f) (fun a b => log_potential a b z)
                = backward_log_weights (pf_particles f) x1 (pf_log_weights f) h).
    { intros z. rewrite <- (backward_log_weights_shift (pf_particles f) x1 0 (c x1 z) (pf_log_weights f) h
                              (fun a b => log_potential a b z)) by (intros; apply Hp).
      f_equal. unfold shift_logits. rewrite <- (map_id (pf_log_weights f)) at 1. apply map_ext.
      intros e. destruct e; simpl; auto. f_equal. lra. }
    now rewrite !W. }
  now rewrite Q.
Qed.
Print Assumptions C35_exact_sampling_partial.
Example C35_hypotheses_met :
  exists (fstates : list (PFState (list nat) R R)) (sstates : list (PSState (list nat) R R)),
  length fstates = 4%nat /\
  smoother demo_split (fun x => x) pf_model_inputs
    (ps_build_smoother demo_split (fun a b x => eadd (Fin (- (a - b)^2)) (Fin (b * x)))
       (exact_simulate 0 demo_split (fun _ _ => 0%nat)) (systematic_fn 0 true (fun _ => 1/2)) 3 (fun x => x))
    fstates (Some [1; 2; 3; 4]) false (Some []) = Ok (map Ok sstates).
Proof.
  destruct C32_hypotheses_met as (fs & E & L & V).
  destruct (smoother_run_exists 0 demo_split demo_split_ok (fun a b x => eadd (Fin (- (a - b)^2)) (Fin (b * x)))
              (exact_simulate 0 demo_split (fun _ _ => 0%nat))
              (systematic_fn 0 true (fun _ => 1/2)) 3 (fun x => x) fs 2 [3; 4] [1; 2; 3; 4] []) as (ss & E2 & _).
  - intros. unfold exact_simulate. eauto.
  - intros. unfold systematic_fn. eauto.
  - exact L.
  - right. eauto.
  - exists fs, ss. auto.
Qed.

(** ** C36: exact backward weights *)
Theorem C36_exact_backward_weights {X} (dX : X) (x0_all : list X) (x1 : X) (lw : list ext) (ld : X -> X -> ext) :
  length x0_all = length lw -> List.Forall is_logit lw ->
  (forall x, In x x0_all -> is_logit (ld x x1)) ->
  (exists i w l, nth_error lw i = Some (Fin w) /\ ld (nth i x0_all dX) x1 = Fin l) ->
  let bl := backward_log_weights x0_all x1 lw ld in
  length bl = length lw /\ List.Forall is_logit bl /\ lsum uw bl = 1 /\
  forall i, (i < length lw)%nat ->
    uw (nth i bl NInf) = backward_prob lw (fun i => ld (nth i x0_all dX) x1) i.
Proof.
  intros L Hw Hd He. exact (backward_log_weights_spec dX x0_all x1 lw ld (conj L (conj Hw (conj Hd He)))).
Qed.
Print Assumptions C36_exact_backward_weights.
(** unchanged when the weights are rescaled or a constant is added to the density *)
Theorem C36_scale_invariant {X} (x0_all : list X) (x1 : X) (lw : list ext) (ld : X -> X -> ext) (c d : R) :
  backward_log_weights x0_all x1 (shift_logits c lw) (fun a b => eadd (ld a b) (Fin d))
  = backward_log_weights x0_all x1 lw ld.
Proof. apply (backward_log_weights_shift x0_all x1 c d). reflexivity. Qed.
Print Assumptions C36_scale_invariant.
(** every smoother particle gets its own key, its own weights, and the particle its index points to *)
Theorem C36_simulate {Key X} (dX : X) (split : Key -> nat -> list Key) (categorical : Key -> list ext -> nat)
        (key : Key) (x0_all x1_all : list X) (lw : list ext) (ld : X -> X -> ext) (anc : list nat) :
  split_ok split ->
  exists particles idx,
    exact_simulate dX split categorical key x0_all x1_all lw ld anc = Ok (particles, idx) /\
    length particles = length x1_all /\ length idx = length x1_all /\
    forall s k, nth_error (split key (length x1_all)) s = Some k ->
      nth s idx 0%nat = categorical k (backward_log_weights x0_all (nth s x1_all dX) lw ld) /\
      nth s particles dX = nth (nth s idx 0%nat) x0_all dX.
Proof. intros Hs. exact (exact_simulate_spec dX split categorical key x0_all x1_all lw ld anc Hs). Qed.
Print Assumptions C36_simulate.
Example C36_hypotheses_met :
  let x0_all := [0; 1; 2] in let lw := [Fin 0; NInf; Fin 1] in
  let ld := fun a b : R => Fin (- (a - b) ^ 2) in
  length x0_all = length lw /\ List.Forall is_logit lw /\ (forall x, In x x0_all -> is_logit (ld x 5)) /\
  (exists i w l, nth_error lw i = Some (Fin w) /\ ld (nth i x0_all 0) 5 = Fin l).
Proof.
  simpl. split; [reflexivity|]. split.
  - repeat apply List.Forall_cons; try apply List.Forall_nil; unfold is_logit; eauto.
  - split; [intros; right; eauto|]. exists 0%nat. simpl. eauto.
Qed.

(** ** C37: the MCMC kernel *)
(** The expectation defining [chain_law] is over genuinely integrable functions. *)
Theorem C37_law_well_defined {X} (dX : X) (x0_all : list X) (x1 : X) (lw : list ext) (ld : X -> X -> ext)
        (n : nat) (c : nat * ext) (j m : nat) :
  ex_RInt (fun u => chain_law (imh_step dX x0_all x1 ld) lw n (imh_step dX x0_all x1 ld c j u) m) 0 1.
Proof. eexists. apply (step_RInt dX x0_all x1 lw ld n c j m). Qed.
Print Assumptions C37_law_well_defined.
(** Each step keeps "carried log p = log_density(x0[idx], x1)". *)
Theorem C37_carry_consistent {X} (dX : X) (x0_all : list X) (x1 : X) (ld : X -> X -> ext)
        (i j : nat) (u : R) :
  let c := imh_step dX x0_all x1 ld (i, ld (nth i x0_all dX) x1) j u in
  snd c = ld (nth (fst c) x0_all dX) x1.
Proof. unfold imh_step. simpl. destruct eltb; reflexivity. Qed.
Print Assumptions C37_carry_consistent.
(** Full statement: started as in the code, n steps leave the exact backward distribution invariant. *)
Definition C37_statement : Prop :=
  forall (X : Type) (dX : X) (x0_all : list X) (x1 : X) (lw : list ext) (ld : X -> X -> ext) (n m : nat),
  backward_valid dX x0_all x1 lw ld -> (m < length lw)%nat ->
  let pi := backward_prob lw (fun i => ld (nth i x0_all dX) x1) in
  lsum (fun i => pi i * chain_law (imh_step dX x0_all x1 ld) lw n (imh_init dX x0_all x1 ld i) m)
       (seq 0 (length lw)) = pi m.

(** False for asymmetric densities, because the initial carry holds log_density(x1, x0[idx]). *)
Definition asym (a b : nat) : ext :=
  match a, b with 2%nat, 0%nat => Fin (ln 2) | _, _ => Fin 0 end.
Theorem C37_refuted :
  exists (X : Type) (dX : X) (x0_all : list X) (x1 : X) (lw : list ext) (ld : X -> X -> ext) (n m : nat),
  backward_valid dX x0_all x1 lw ld /\ (m < length lw)%nat /\
  let pi := backward_prob lw (fun i => ld (nth i x0_all dX) x1) in
  lsum (fun i => pi i * chain_law (imh_step dX x0_all x1 ld) lw n (imh_init dX x0_all x1 ld i) m)
       (seq 0 (length lw)) <> pi m.
Proof.
  exists nat, 0%nat, [0; 1]%nat, 2%nat, [Fin 0; Fin 0], asym, 1%nat, 0%nat.
  split; [|split; [simpl; lia|]].
  - split; [reflexivity|]. split; [repeat apply List.Forall_cons; try apply List.Forall_nil; unfold is_logit; eauto|].
    split; [intros x [<-|[<-|[]]]; right; simpl; eauto|].
    exists 0%nat, 0, 0. split; reflexivity.
  - intros pi.
    assert (P : forall i, (i < 2)%nat -> pi i = 1/2).
    { intros i Hi. unfold pi, backward_prob. destruct i as [|[|i]]; [| |lia]; simpl; rewrite exp_0; field. }
    assert (W : forall i, (i < 2)%nat -> wt [Fin 0; Fin 0] i = 1/2).
    { intros i Hi. unfold wt. destruct i as [|[|i]]; [| |lia]; simpl; rewrite exp_0; field. }
    assert (Law : forall c, chain_law (imh_step 0%nat [0; 1]%nat 2%nat asym) [Fin 0; Fin 0] 1 c 0 =
        1/2 * (theta (esub (Fin 0) (snd c)) * 1 + (1 - theta (esub (Fin 0) (snd c))) * (if Nat.eqb (fst c) 0 then 1 else 0))
        + (1/2 * (theta (esub (Fin 0) (snd c)) * 0 + (1 - theta (esub (Fin 0) (snd c))) * (if Nat.eqb (fst c) 0 then 1 else 0)))).
    { intros c. rewrite (law_S 0%nat [0; 1]%nat 2%nat [Fin 0; Fin 0] asym 0 c 0).
      cbn [seq length lsum]. rewrite !W by lia. cbn [nth asym]. simpl chain_law. cbn [fst]. simpl Nat.eqb. cbv iota. lra. }
    cbn [seq length lsum]. rewrite !P, !Law by lia.
    unfold imh_init. cbn [fst snd nth asym Nat.eqb]. unfold esub; cbn [eadd eopp theta].
    rewrite Rplus_0_l, exp_Ropp, exp_ln by lra.
    rewrite (Rmin_right 1 (/ 2)) by lra. rewrite Ropp_0, Rplus_0_l, exp_0, Rmin_left by lra. lra.
Qed.
Print Assumptions C37_refuted.
Theorem C37_statement_false : ~ C37_statement.
Proof.
  intros H. destruct C37_refuted as (X & dX & x0 & x1 & lw & ld & n & m & A & B & C). apply C. now apply H.
Qed.
Print Assumptions C37_statement_false.

(** The kernel itself is right: from a consistent carry, any number of steps keeps the exact backward
    distribution (this is the claim for every step after the first). Missing: the first step of the
    code, whose carry is not consistent. *)
Theorem C37_kernel_invariant_partial {X} (dX : X) (x0_all : list X) (x1 : X) (lw : list ext) (ld : X -> X -> ext)
        (n m : nat) :
  backward_valid dX x0_all x1 lw ld -> (m < length lw)%nat ->
  let pi := backward_prob lw (fun i => ld (nth i x0_all dX) x1) in
  lsum (fun i => pi i * chain_law (imh_step dX x0_all x1 ld) lw n (i, ld (nth i x0_all dX) x1) m)
       (seq 0 (length lw)) = pi m /\
  lsum pi (seq 0 (length lw)) = 1.
Proof.
  intros Hv Hm pi. split.
  - exact (imh_invariant dX x0_all x1 lw ld Hv n m Hm).
  - exact (pi_sum dX x0_all x1 lw ld Hv).
Qed.
Print Assumptions C37_kernel_invariant_partial.
(** ... and the code is right for symmetric densities *)
Theorem C37_symmetric_density_partial {X} (dX : X) (x0_all : list X) (x1 : X) (lw : list ext) (ld : X -> X -> ext)
        (n m : nat) :
  backward_valid dX x0_all x1 lw ld -> (m < length lw)%nat ->
  (forall x, In x x0_all -> ld x1 x = ld x x1) ->
  let pi := backward_prob lw (fun i => ld (nth i x0_all dX) x1) in
  lsum (fun i => pi i * chain_law (imh_step dX x0_all x1 ld) lw n (imh_init dX x0_all x1 ld i) m)
       (seq 0 (length lw)) = pi m.
Proof.
  intros Hv Hm Hsym pi. etransitivity; [|exact (proj1 (C37_kernel_invariant_partial dX x0_all x1 lw ld n m Hv Hm))].
  apply lsum_ext. intros i Hi. apply in_seq in Hi. revert i Hi. intros i Hi. unfold imh_init. rewrite Hsym; [reflexivity|].
  apply nth_In. destruct Hv as (L & _). lia.
Qed.
Print Assumptions C37_symmetric_density_partial.
Example C37_hypotheses_met :
  backward_valid 0 [0; 1; 2] 5 [Fin 0; NInf; Fin 1] (fun a b : R => Fin (- (a - b) ^ 2)).
Proof.
  destruct C36_hypotheses_met as (A & B & C & D). exact (conj A (conj B (conj C D))).
Qed.

(** ** C38: random keys *)
(** The run draws from the keys [consumed split key N T], in this order. *)
Theorem C38_run_consumes {Key X Inp} (dX : X) (split : Key -> nat -> list Key)
        (init_sample : Key -> Inp -> X) (propagate_sample : Key -> X -> Inp -> X)
        (log_potential : X -> X -> Inp -> ext) (resampling_fn : Resampling Key X)
        (N : nat) (dummy : X) (x0 : Inp) (inputs : list Inp) (key : Key) (states : list (PFState Key X Inp)) :
  split_ok split -> (0 < N)%nat -> resampler_ok dX resampling_fn ->
  let pf := pf_build_filter split init_sample propagate_sample log_potential resampling_fn N dummy in
  filter split pf (x0 :: inputs) false (Some key) = Ok (map Ok states) ->
  (forall t s, nth_error states t = Some s -> valid_logits (pf_log_weights s)) ->
  exists k0 ks : list Key,
    (forall s, nth_error states 0 = Some s -> pf_particles s = map (fun k => init_sample k x0) k0) /\
    (forall t s s', nth_error states t = Some s -> nth_error states (S t) = Some s' ->
       exists kr kp lw anc,
         firstn (N + 1) (skipn (t * (N + 1)) ks) = kr :: kp /\
         resampling_fn kr (pf_log_weights s) (pf_particles s) N = Ok (pf_ancestor_indices s', lw, anc) /\
         pf_particles s' = map2 (fun k x => propagate_sample k x (pf_model_inputs s')) kp anc) /\
    length k0 = N /\ consumed split key N (length inputs) = k0 ++ ks.
Proof.
  intros Hs HN Hr pf Hrun Hv.
  exact (run_consumes dX split Hs init_sample propagate_sample log_potential resampling_fn Hr N HN dummy
           x0 inputs key states Hrun Hv).
Qed.
Print Assumptions C38_run_consumes.

(** Full statement: for every splitting function whose children are distinct (as positions in the key
    tree) the consumed keys are pairwise distinct. *)
Definition distinct_children {Key} (split : Key -> nat -> list Key) : Prop :=
  forall k i k' i' n c, nth_error (split k n) i = Some c -> nth_error (split k' n) i' = Some c -> k = k' /\ i = i'.
Definition C38_statement : Prop :=
  forall (Key : Type) (split : Key -> nat -> list Key) (key : Key) (N T : nat),
    split_ok split -> distinct_children split -> NoDup (consumed split key N T).
(** False: when child i does not depend on the number of children requested (JAX's partitionable
    threefry), the initial particles and the first step share their keys, for every key, N and T. *)
Theorem C38_keys_reused {Key} (split : Key -> nat -> list Key) (key : Key) (N T : nat) :
  split_ok split -> split_prefix split -> (0 < N)%nat -> (0 < T)%nat ->
  ~ NoDup (consumed split key N T).
Proof. exact (consumed_reused split key N T). Qed.
Print Assumptions C38_keys_reused.
Lemma demo_split_nth k n i c : nth_error (demo_split k n) i = Some c <-> (i < n)%nat /\ c = i :: k.
Proof.
  unfold demo_split. rewrite nth_error_map. split.
  - destruct (nth_error (seq 0 n) i) as [j|] eqn:E; [|discriminate]. intros H. injection H as <-.
    assert (i < n)%nat. { rewrite <- (seq_length n 0). apply nth_error_Some. congruence. }
    split; [assumption|]. apply nth_error_nth with (d := 0%nat) in E. rewrite seq_nth in E by assumption. simpl in E. congruence.
  - intros (Hi & ->). rewrite (nth_error_nth' _ 0%nat) by now rewrite seq_length. rewrite seq_nth by assumption. reflexivity.
Qed.
Theorem C38_refuted : exists (Key : Type) (split : Key -> nat -> list Key) (key : Key) (N T : nat),
    split_ok split /\ distinct_children split /\ ~ NoDup (consumed split key N T).
Proof.
  exists (list nat), demo_split, [], 3%nat, 2%nat. split; [exact demo_split_ok|]. split.
  - intros k i k' i' n c H1 H2. apply demo_split_nth in H1. apply demo_split_nth in H2.
    destruct H1 as (_ & ->), H2 as (_ & H2). injection H2. auto.
  - apply C38_keys_reused; [exact demo_split_ok| |lia|lia].
    intros k n n' i c H Hi. apply demo_split_nth in H. apply demo_split_nth. destruct H as (_ & ->). auto.
Qed.
Print Assumptions C38_refuted.
Theorem C38_statement_false : ~ C38_statement.
Proof. intros H. destruct C38_refuted as (K & sp & k & N & T & A & B & C). apply C. now apply H. Qed.
Print Assumptions C38_statement_false.
(** It does hold when children asked for in different numbers are also different. Missing: splitting
    functions with the prefix property, for which it is false. *)
Theorem C38_no_reuse_partial {Key} (split : Key -> nat -> list Key) (key : Key) (N T : nat) :
  split_injective split -> NoDup (consumed split key N T).
Proof. exact (consumed_NoDup split key N T). Qed.
Print Assumptions C38_no_reuse_partial.
Example C38_hypotheses_met : exists split : list (nat * nat) -> nat -> list (list (nat * nat)),
  split_ok split /\ split_injective split.
Proof.
  exists (fun k n => map (fun i => (n, i) :: k) (seq 0 n)).
  assert (Q : forall k n i c, nth_error (map (fun i => (n, i) :: k) (seq 0 n)) i = Some c -> c = (n, i) :: k).
  { intros k n i c. rewrite nth_error_map. destruct (nth_error (seq 0 n) i) as [j|] eqn:E; [|discriminate].
    intros H. injection H as <-.
    assert (i < n)%nat. { rewrite <- (seq_length n 0). apply nth_error_Some. congruence. }
    apply nth_error_nth with (d := 0%nat) in E. rewrite seq_nth in E by assumption. simpl in E. congruence. }
  split; [intros k n; now rewrite map_length, seq_length|].
  intros k n i k' n' i' c H1 H2. apply Q in H1. apply Q in H2. subst c. injection H2. auto.
Qed.
