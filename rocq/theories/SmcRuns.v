(** Particle filter runs with finite potentials never fail and keep valid weights. *)
From Coq Require Import Reals List Arith ZArith Bool Lia Lra Permutation.
From Verif Require Import Ext ScanModel ScanProofs DriverSpec DriverProofs DiscreteSpec Sums
  ResamplingModel ResamplingSpec ResamplingProofs ConditionalProofs KillingProofs SystematicProofs
  ConditionalLaw SmcModel SmcSpec SmcProofs SmcResamplers.
Import ListNotations.
Open Scope R_scope.

Lemma map2_finite_valid pots lw : length pots = length lw ->
  (forall e, In e pots -> exists r, e = Fin r) -> valid_logits lw -> valid_logits (map2 eadd pots lw).
Proof.
  intros L Hp [Hf He]. split.
  - apply Forall_forall. intros e Hin. destruct (In_nth _ _ NInf Hin) as (i & Hi & <-). rewrite map2_len in Hi.
    rewrite (map2_nth_d eadd NaN NInf) by lia. apply eadd_logit.
    + destruct (Hp (nth i pots NaN)) as (r & ->); [apply nth_In; lia|]. right; eauto.
    + rewrite Forall_forall in Hf. apply Hf, nth_In. lia.
  - apply Exists_exists in He. destruct He as (e & Hin & x & ->).
    destruct (In_nth _ _ NInf Hin) as (i & Hi & E).
    apply Exists_exists. exists (nth i (map2 eadd pots lw) NInf). split; [apply nth_In; rewrite map2_len; lia|].
    rewrite (map2_nth_d eadd NaN NInf) by lia. rewrite E.
    destruct (Hp (nth i pots NaN)) as (r & ->); [apply nth_In; lia|]. simpl. eauto.
Qed.

Section Runs.
  Context {Key X Inp : Type}.
  Variable dX : X.
  Variable split : Key -> nat -> list Key.
  Hypothesis Hsplit : split_ok split.
  Variable init_sample : Key -> Inp -> X.
  Variable propagate_sample : Key -> X -> Inp -> X.
  Variable log_potential : X -> X -> Inp -> ext.
  Hypothesis Hfin : forall a b x, exists r, log_potential a b x = Fin r.
  Variable resampling_fn : Resampling Key X.
  Hypothesis Hres : resampler_ok dX resampling_fn.
  Hypothesis Htot : resampler_total resampling_fn.
  Variable N : nat.
  Hypothesis HN : (0 < N)%nat.
  Variable dummy : X.
  Let pf := pf_build_filter split init_sample propagate_sample log_potential resampling_fn N dummy.

  Lemma comb_succeeds s p : wf N s -> valid_logits (pf_log_weights s) ->
    exists s', pf_filter_combine split propagate_sample log_potential resampling_fn s p = Ok s' /\
               wf N s' /\ valid_logits (pf_log_weights s').
  Proof using Hsplit Hfin Hres Htot HN.
    intros W Hv. destruct W as [W1 W2].
    assert (exists s', pf_filter_combine split propagate_sample log_potential resampling_fn s p = Ok s') as (s' & Hs').
    { unfold pf_filter_combine.
      pose proof (Hsplit (pf_key s) (length (pf_log_weights s) + 1)%nat) as L.
      destruct (split (pf_key s) (length (pf_log_weights s) + 1)) as [|k0 ks]; [simpl in L; lia|].
      destruct (Htot k0 (pf_log_weights s) (pf_particles s) Hv ltac:(congruence)) as ([[idx lw] anc] & E).
      rewrite E. simpl.
      assert (HN' : (0 < length (pf_log_weights s))%nat) by lia.
      destruct (Hres _ _ _ _ _ _ _ Hv (eq_trans W1 (eq_sym W2)) HN' E) as (L1 & L2 & L3 & _).
      simpl in L. rewrite L2, L3. replace (length ks) with (length (pf_log_weights s)) by lia.
      rewrite Nat.eqb_refl. simpl. eauto. }
    exists s'. split; [exact Hs'|].
    destruct (comb_facts dX split Hsplit _ _ _ Hres N HN _ _ _ (conj W1 W2) Hv Hs') as
        (k0 & ks & idx & lw & anc & E1 & E2 & W' & La & Ll & Li & Hlw & Hk & Hin & Hai & Hp' & Hnth & Hnl & _).
    split; [exact W'|]. rewrite Hnl. apply map2_finite_valid; auto.
    - rewrite map2_len. destruct W'. lia.
    - intros e He. destruct (In_nth _ _ NaN He) as (i & Hi & <-). rewrite map2_len in Hi.
      rewrite (map2_nth_d _ dX dX) by lia. apply Hfin.
  Qed.

  Lemma pf_run_exists inputs key : inputs <> [] ->
    exists states, filter split pf inputs false (Some key) = Ok (map Ok states) /\
      length states = length inputs /\
      forall t s, nth_error states t = Some s -> wf N s /\ valid_logits (pf_log_weights s).
  Proof using Hsplit Hfin Hres Htot HN.
    destruct inputs as [|x inputs]; [easy|]. intros _.
    unfold filter, prepare_keys. pose proof (Hsplit key (length (x :: inputs))) as L.
    destruct (split key (length (x :: inputs))) as [|k0 ks]; [discriminate|]. simpl map.
    simpl in L. injection L as L.
    assert (exists s, pf_init_prepare split init_sample N x (Some k0) = Ok s) as (s0 & E0) by (simpl; eauto).
    destruct (init_facts split Hsplit init_sample N HN _ _ _ E0) as (W0 & V0 & _).
    cbv zeta. change (init_prepare pf x (Some k0)) with (pf_init_prepare split init_sample N x (Some k0)). rewrite E0.
    assert (Q : forall ks inputs s, length ks = length inputs -> wf N s -> valid_logits (pf_log_weights s) ->
      exists states, scan_states (fun prev (xk : Inp * option Key) =>
          filter_combine pf prev (filter_prepare pf (fst xk) (snd xk))) (Ok s) (combine inputs (map Some ks)) = map Ok states /\
        length states = length inputs /\ Forall (fun s => wf N s /\ valid_logits (pf_log_weights s)) states).
    { induction ks0 as [|k ks0 IH]; destruct inputs0 as [|y inputs0]; intros s Ls Ws Vs; try discriminate.
      - exists []. repeat split; constructor.
      - simpl in Ls. injection Ls as Ls.
        simpl combine. simpl scan_states.
        destruct (comb_succeeds s {| pf_key := k; pf_particles := repeat dummy N; pf_log_weights := zeros N;
              pf_ancestor_indices := seq 0 N; pf_model_inputs := y; pf_log_normalizing_constant := Fin 0 |} Ws Vs)
          as (s' & E & W' & V'). rewrite E.
        destruct (IH inputs0 s' Ls W' V') as (st & E2 & L2 & F2).
        exists (s' :: st). repeat split; simpl; auto. f_equal. exact E2. }
    destruct (Q ks inputs s0 L W0 V0) as (st & E & Ls & F).
    exists (s0 :: st). split; [|split].
    - simpl map. do 2 f_equal. exact E.
    - simpl. congruence.
    - intros [|t] s Hs; simpl in Hs; [injection Hs as <-; auto|].
      rewrite Forall_forall in F. apply F. eapply nth_error_In; eauto.
  Qed.
End Runs.

Lemma systematic_total {Key X} (dX : X) cpu (u : Key -> R) : resampler_total (systematic_fn dX cpu u).
Proof. intros k l xs _ _. unfold systematic_fn. eauto. Qed.
Lemma multinomial_total {Key X} (dX : X) cpu (us : Key -> nat -> list R) perm : resampler_total (multinomial_fn dX cpu us perm).
Proof. intros k l xs _ _. unfold multinomial_fn. eauto. Qed.
Lemma killing_total_fn {Key X} (dX : X) cpu (vs us : Key -> nat -> list R) perm : resampler_total (killing_fn dX cpu vs us perm).
Proof.
  intros k l xs _ _. unfold killing_fn, killing_resampling. rewrite Nat.eqb_refl. simpl negb. cbv iota.
  destruct multinomial_resampling as [[a b] c]. eauto.
Qed.
Lemma adaptive_total {Key X} (f : Resampling Key X) t : resampler_total f -> resampler_total (adaptive_fn f t).
Proof.
  intros H k l xs Hv L. unfold adaptive_fn, ess_decorator. rewrite Nat.eqb_refl. simpl negb. cbv iota.
  destruct eltb; eauto.
Qed.

Lemma all_ok {A} (l : list (result A)) : (forall t r, nth_error l t = Some r -> exists a, r = Ok a) ->
  exists m, l = map Ok m.
Proof.
  induction l as [|r l IH]; intros H; [exists []; reflexivity|].
  destruct (H 0%nat r eq_refl) as (a & ->). destruct IH as (m & ->).
  { intros t r Hr. apply (H (S t) r Hr). }
  exists (a :: m). reflexivity.
Qed.

(** backward sampler runs never fail when the final resampling and the backward kernel do not *)
Lemma smoother_run_exists_at {Key X Inp} (dX : X) (split : Key -> nat -> list Key) (Hsplit : split_ok split)
      (log_potential : X -> X -> Inp -> ext) (bs : BackwardSampling (Key:=Key) (X:=X))
      (sm_resampling : Resampling Key X) (M : nat) (dummy_like : Inp -> Inp)
      (fstates : list (PFState Key X Inp)) x0 trans' inputs key :
  (forall k a b c d e, exists out, bs k a b c d e = Ok out) ->
  (forall k f, nth_error fstates (length (x0 :: trans')) = Some f ->
     exists out, sm_resampling k (pf_log_weights f) (pf_particles f) M = Ok out) ->
  length fstates = S (length (x0 :: trans')) ->
  (inputs = x0 :: trans' \/ exists x, inputs = x :: x0 :: trans') ->
  exists sstates,
    smoother split dummy_like pf_model_inputs
      (ps_build_smoother split log_potential bs sm_resampling M dummy_like) fstates (Some inputs) false (Some key)
      = Ok (map Ok sstates) /\ length sstates = length fstates.
Proof.
  intros Hb Hr L Hin. set (obj := ps_build_smoother split log_potential bs sm_resampling M dummy_like).
  set (trans := x0 :: trans') in *. set (T := length trans) in *.
  destruct (smoother_sequential split Hsplit dummy_like pf_model_inputs obj fstates trans x0 inputs (Some key)
              ltac:(discriminate) L eq_refl Hin) as (st & E & (_ & L2 & R0 & RS)). fold T in L2, R0, RS.
  assert (Hk : forall t, (t <= T)%nat -> exists k, nth_error (split key (S T)) t = Some k).
  { intros t Ht. destruct (nth_error (split key (S T)) t) eqn:En; [eauto|].
    apply nth_error_None in En. rewrite Hsplit in En. lia. }
  assert (A : forall n t r, (t + n = T)%nat -> nth_error st t = Some r -> exists a, r = Ok a).
  { induction n as [|n IH]; intros t r Ht Hst.
    - assert (t = T) by lia. subst t.
      destruct (nth_error fstates T) as [f|] eqn:Ef; [|apply nth_error_None in Ef; lia].
      destruct (Hk 0%nat ltac:(lia)) as (k & Hk0).
      assert (Hck : child_key split (Some key) (S T) 0 = Some k) by exact Hk0.
      rewrite (R0 f eq_refl), Hck in Hst. injection Hst as <-. unfold obj. simpl.
      pose proof (Hsplit k 2%nat) as L'. destruct (split k 2%nat) as [|k1 [|k2 [|? ?]]]; try discriminate.
      destruct (Hr k2 f eq_refl) as ([[i l] xs] & ->). simpl. eauto.
    - destruct (nth_error fstates t) as [f|] eqn:Ef; [|apply nth_error_None in Ef; lia].
      destruct (nth_error trans t) as [x|] eqn:Ex; [|apply nth_error_None in Ex; fold T in Ex; lia].
      destruct (nth_error st (S t)) as [r'|] eqn:Er; [|apply nth_error_None in Er; lia].
      destruct (IH (S t) r' ltac:(lia) Er) as (s' & ->).
      destruct (Hk (S t) ltac:(lia)) as (k & Hk0).
      assert (Hck : child_key split (Some key) (S T) (S t) = Some k) by exact Hk0.
      rewrite (RS t f x _ Ef Ex Er), Hck in Hst. injection Hst as <-. unfold obj. simpl.
      unfold ps_combine. match goal with |- context [bs ?a ?b ?c ?d ?e ?f] => destruct (Hb a b c d e f) as ([y anc] & ->) end.
      simpl. eauto. }
  destruct (all_ok st) as (m & ->).
  { intros t r Hst. assert (t < length st)%nat by (apply nth_error_Some; congruence).
    apply (A (T - t)%nat t r); auto. lia. }
  exists m. split; [exact E|]. rewrite map_length in L2. lia.
Qed.
Lemma smoother_run_exists {Key X Inp} (dX : X) (split : Key -> nat -> list Key) (Hsplit : split_ok split)
      (log_potential : X -> X -> Inp -> ext) (bs : BackwardSampling (Key:=Key) (X:=X))
      (sm_resampling : Resampling Key X) (M : nat) (dummy_like : Inp -> Inp)
      (fstates : list (PFState Key X Inp)) x0 trans' inputs key :
  (forall k a b c d e, exists out, bs k a b c d e = Ok out) ->
  (forall k l xs, exists out, sm_resampling k l xs M = Ok out) ->
  length fstates = S (length (x0 :: trans')) ->
  (inputs = x0 :: trans' \/ exists x, inputs = x :: x0 :: trans') ->
  exists sstates,
    smoother split dummy_like pf_model_inputs
      (ps_build_smoother split log_potential bs sm_resampling M dummy_like) fstates (Some inputs) false (Some key)
      = Ok (map Ok sstates) /\ length sstates = length fstates.
Proof. intros Hb Hr. apply smoother_run_exists_at; auto. Qed.
