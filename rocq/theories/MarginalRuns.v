(** Marginal particle filter runs with finite potentials never fail and keep valid weights. *)
From Coq Require Import Reals List Arith ZArith Bool Lia Lra Permutation.
From Verif Require Import Ext ScanModel ScanProofs DriverSpec DriverProofs DiscreteSpec Sums
  ResamplingModel ResamplingSpec ResamplingProofs ConditionalProofs KillingProofs SystematicProofs
  ConditionalLaw SmcModel SmcSpec SmcProofs SmcResamplers SmcRuns MarginalPfProofs.
Import ListNotations.
Open Scope R_scope.

Section Runs.
  Context {Key X Inp : Type}.
  Variable dX : X.
  Variable split : Key -> nat -> list Key.
  Hypothesis Hsplit : split_ok split.
  Variable init_sample : Key -> Inp -> X.
  Variable propagate_sample : Key -> X -> Inp -> X.
  Variable log_potential : X -> X -> Inp -> ext.
  Hypothesis Hfin : forall a b x, exists r, log_potential a b x = Fin r.
  Variable resampling_fn : Resampling Key X.
  Hypothesis Hres : resampler_ok dX resampling_fn.
  Hypothesis Htot : resampler_total resampling_fn.
  Variable N : nat.
  Hypothesis HN : (0 < N)%nat.
  Variable dummy : X.
  Let pf := mpf_build_filter split init_sample propagate_sample log_potential resampling_fn N dummy.
  Let wfm (s : MPFState Key X Inp) := length (mpf_particles s) = N /\ length (mpf_log_weights s) = N
                                      /\ valid_logits (mpf_log_weights s).

  Lemma mpf_comb_succeeds s p : wfm s ->
    exists s', mpf_filter_combine split propagate_sample log_potential resampling_fn s p = Ok s' /\ wfm s'.
  Proof using Hsplit Hfin Hres Htot HN.
    intros (W1 & W2 & Hv).
    unfold mpf_filter_combine.
    pose proof (Hsplit (mpf_key s) (length (mpf_log_weights s) + 1)%nat) as L.
    destruct (split (mpf_key s) (length (mpf_log_weights s) + 1)) as [|k0 ks]; [simpl in L; lia|].
    destruct (Htot k0 (mpf_log_weights s) (mpf_particles s) Hv ltac:(congruence)) as ([[idx lw] anc] & E).
    rewrite E. simpl bind.
    assert (HN' : (0 < length (mpf_log_weights s))%nat) by lia.
    destruct (Hres _ _ _ _ _ _ _ Hv (eq_trans W1 (eq_sym W2)) HN' E) as (L1 & L2 & L3 & _).
    simpl in L. rewrite L3. replace (length ks) with (length (mpf_log_weights s)) by lia.
    rewrite Nat.eqb_refl. eexists. split; [reflexivity|].
    unfold wfm. simpl. rewrite map_length, map2_len.
    assert (LL : Nat.min (length ks) (length anc) = N) by lia. rewrite LL. repeat split.
    - apply Forall_forall. intros e He. apply in_map_iff in He. destruct He as (x & <- & _).
      right. eexists. apply logsumexp_valid. apply map2_finite_valid.
      + rewrite !map_length. congruence.
      + intros e He. apply in_map_iff in He. destruct He as (a & <- & _). apply Hfin.
      + rewrite logsumexp_valid by exact Hv. now apply valid_shift.
    - match goal with |- context [map ?f ?l] => destruct l as [|x xs] eqn:El end.
      { apply (f_equal (@length X)) in El. rewrite map2_len in El. simpl in El. lia. }
      simpl. apply Exists_cons_hd. eexists. apply logsumexp_valid. apply map2_finite_valid.
      + rewrite !map_length. congruence.
      + intros e He. apply in_map_iff in He. destruct He as (a & <- & _). apply Hfin.
      + rewrite logsumexp_valid by exact Hv. now apply valid_shift.
  Qed.

  Lemma mpf_run_exists inputs key : inputs <> [] ->
    exists states, filter split pf inputs false (Some key) = Ok (map Ok states) /\
      length states = length inputs.
  Proof using Hsplit Hfin Hres Htot HN.
    destruct inputs as [|x inputs]; [easy|]. intros _.
    unfold filter, prepare_keys. pose proof (Hsplit key (length (x :: inputs))) as L.
    destruct (split key (length (x :: inputs))) as [|k0 ks]; [discriminate|]. simpl map.
    simpl in L. injection L as L.
    assert (exists s, mpf_init_prepare split init_sample N x (Some k0) = Ok s) as (s0 & E0) by (simpl; eauto).
    destruct (mpf_init_facts split Hsplit init_sample N HN _ _ _ E0) as (W0 & V0 & _).
    assert (W : wfm s0). { unfold wfm. rewrite V0, repeat_length. repeat split; auto; now apply repeat_valid. }
    cbv zeta. change (init_prepare pf x (Some k0)) with (mpf_init_prepare split init_sample N x (Some k0)). rewrite E0.
    assert (Q : forall ks inputs s, length ks = length inputs -> wfm s ->
      exists states, scan_states (fun prev (xk : Inp * option Key) =>
          filter_combine pf prev (filter_prepare pf (fst xk) (snd xk))) (Ok s) (combine inputs (map Some ks)) = map Ok states /\
        length states = length inputs).
    { induction ks0 as [|k ks0 IH]; destruct inputs0 as [|y inputs0]; intros s Ls Ws; try discriminate.
      - exists []. repeat split; constructor.
      - simpl in Ls. injection Ls as Ls.
        simpl combine. simpl scan_states.
        destruct (mpf_comb_succeeds s {| mpf_key := k; mpf_particles := repeat dummy N; mpf_log_weights := zeros N;
              mpf_model_inputs := y; mpf_log_normalizing_constant := Fin 0 |} Ws)
          as (s' & E & W'). rewrite E.
        destruct (IH inputs0 s' Ls W') as (st & E2 & L2).
        exists (s' :: st). repeat split; simpl; auto. f_equal. exact E2. }
    destruct (Q ks inputs s0 L W) as (st & E & Ls).
    exists (s0 :: st). split.
    - simpl map. do 2 f_equal. exact E.
    - simpl. congruence.
  Qed.
End Runs.
