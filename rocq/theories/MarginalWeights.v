(** The weights of the marginal particle filter. *)
From Coq Require Import Reals List Arith ZArith Bool Lia Lra Permutation.
From Verif Require Import Ext ScanModel ScanProofs DriverSpec DriverProofs DiscreteSpec Sums
  ResamplingModel ResamplingSpec ResamplingProofs ConditionalProofs KillingProofs SystematicProofs
  ConditionalLaw SmcModel SmcSpec SmcProofs SmcResamplers SmcRuns MarginalPfProofs MarginalRuns.
Import ListNotations.
Open Scope R_scope.

Lemma mixture_eq pots l : length pots = length l -> valid_logits l ->
  (forall e, In e pots -> exists r, e = Fin r) ->
  logsumexp (map2 eadd pots (map (fun e => esub e (logsumexp l)) l))
  = Fin (ln (weighted_average l (fun i => nth i pots NaN))).
Proof.
  intros Hl Hv Hp. set (nl := map (fun e => esub e (logsumexp l)) l).
  assert (E : nl = map (fun e => esub e (Fin (ln (lsum uw l)))) l) by (unfold nl; now rewrite logsumexp_valid).
  assert (Vn : valid_logits nl) by (rewrite E; now apply valid_shift).
  assert (Ln : length nl = length l) by apply map_length.
  assert (V : valid_logits (map2 eadd pots nl)) by (apply map2_finite_valid; auto; congruence).
  pose proof (increment_eq pots nl ltac:(congruence) Vn V) as H.
  unfold nl in H at 2. rewrite lse_normalised in H by assumption.
  rewrite logsumexp_valid in H |- * by assumption. rewrite esub_fin in H. injection H as H.
  f_equal. replace (ln (lsum uw (map2 eadd pots nl))) with (ln (lsum uw (map2 eadd pots nl)) - 0) by lra.
  rewrite H. f_equal. unfold weighted_average. rewrite Ln. apply lsum_seq_ext. intros i Hi.
  rewrite E, wt_shift by assumption. reflexivity.
Qed.

Section MPF.
  Context {Key X Inp : Type}.
  Variable dX : X.
  Variable split : Key -> nat -> list Key.
  Hypothesis Hsplit : split_ok split.
  Variable init_sample : Key -> Inp -> X.
  Variable propagate_sample : Key -> X -> Inp -> X.
  Variable log_potential : X -> X -> Inp -> ext.
  Hypothesis Hfin : forall a b x, exists r, log_potential a b x = Fin r.
  Variable resampling_fn : Resampling Key X.
  Hypothesis Hres : resampler_ok dX resampling_fn.
  Variable N : nat.
  Hypothesis HN : (0 < N)%nat.
  Variable dummy : X.
  Let comb := mpf_filter_combine split propagate_sample log_potential resampling_fn.
  Let mpf := mpf_build_filter split init_sample propagate_sample log_potential resampling_fn N dummy.
  Definition wfm (s : MPFState Key X Inp) := length (mpf_particles s) = N /\ length (mpf_log_weights s) = N
                                      /\ valid_logits (mpf_log_weights s).
  (** log of the mixture weight of a new particle [x'] under the old weighted particles *)
  Definition mixture_log_weight (s : MPFState Key X Inp) (inp : Inp) (x' : X) : R :=
    ln (weighted_average (mpf_log_weights s) (fun i => log_potential (nth i (mpf_particles s) dX) x' inp)).

  Lemma valid_of_fin l : l <> [] -> (forall e, In e l -> exists r, e = Fin r) -> valid_logits l.
  Proof.
    intros Hn Hf. split.
    - apply Forall_forall. intros e He. right. auto.
    - destruct l as [|e l]; [easy|]. apply Exists_cons_hd. apply Hf. now left.
  Qed.

  Lemma mpf_comb_facts s p s' : wfm s -> comb s p = Ok s' ->
    wfm s' /\ mpf_model_inputs s' = mpf_model_inputs p /\ mpf_key s' = mpf_key p /\
    exists k0 ks idx lw anc,
      split (mpf_key s) (N + 1) = k0 :: ks /\
      resampling_fn k0 (mpf_log_weights s) (mpf_particles s) N = Ok (idx, lw, anc) /\
      (forall j dk, (j < N)%nat -> (nth j idx 0 < N)%nat /\
         nth j (mpf_particles s') dX
         = propagate_sample (nth j ks dk) (nth (nth j idx 0%nat) (mpf_particles s) dX) (mpf_model_inputs p)) /\
      (forall j, (j < N)%nat -> nth j (mpf_log_weights s') NaN
         = Fin (mixture_log_weight s (mpf_model_inputs p) (nth j (mpf_particles s') dX))) /\
      mpf_log_normalizing_constant s' =
        eadd (Fin (ln (lsum (fun x' => exp (mixture_log_weight s (mpf_model_inputs p) x')) (mpf_particles s'))
                   - fin_val (logsumexp lw))) (mpf_log_normalizing_constant s).
  Proof using Hres HN Hsplit Hfin.
    intros (W1 & W2 & Hv). unfold comb, mpf_filter_combine. rewrite W2.
    destruct (split (mpf_key s) (N + 1)) as [|k0 ks] eqn:Es; [discriminate|].
    assert (Lks : length ks = N). { pose proof (Hsplit (mpf_key s) (N + 1)%nat) as L. rewrite Es in L. simpl in L. lia. }
    intros H. apply bind_ok in H. destruct H as ([[idx lw] anc] & Hr & H).
    destruct (Hres _ _ _ _ _ _ _ Hv (eq_trans W1 (eq_sym W2)) HN Hr) as (L1 & L2 & L3 & Hlw & Hj).
    rewrite Lks, L3, Nat.eqb_refl in H. injection H as <-.
    set (np := map2 (fun k x => propagate_sample k x (mpf_model_inputs p)) ks anc).
    assert (Lnp : length np = N) by (unfold np; rewrite map2_len; lia).
    assert (E : forall x, logsumexp (map2 eadd
                        (map (fun a => log_potential a x (mpf_model_inputs p)) (mpf_particles s))
                        (map (fun l => esub l (logsumexp (mpf_log_weights s))) (mpf_log_weights s)))
               = Fin (mixture_log_weight s (mpf_model_inputs p) x)).
    { intros x. rewrite mixture_eq; [|rewrite map_length; congruence|assumption|].
      - unfold mixture_log_weight, weighted_average. do 2 f_equal. apply lsum_seq_ext. intros i Hi. do 2 f_equal.
        rewrite (nth_indep _ NaN (log_potential dX x (mpf_model_inputs p))) by (rewrite map_length; congruence).
        now rewrite (map_nth (fun a => log_potential a x (mpf_model_inputs p))).
      - intros e He. apply in_map_iff in He. destruct He as (a & <- & _). apply Hfin. }
    cbn [mpf_particles mpf_log_weights mpf_model_inputs mpf_key mpf_log_normalizing_constant].
    fold np. rewrite (map_ext _ _ E).
    set (nlw := map (fun x => Fin (mixture_log_weight s (mpf_model_inputs p) x)) np).
    assert (Vn : valid_logits nlw).
    { apply valid_of_fin.
      - intros Q. apply (f_equal (@length ext)) in Q. unfold nlw in Q. rewrite map_length in Q. simpl in Q. lia.
      - intros e He. unfold nlw in He. apply in_map_iff in He. destruct He as (x & <- & _). eauto. }
    split. { unfold wfm. cbn. split; [exact Lnp|]. split; [|exact Vn]. unfold nlw. now rewrite map_length. }
    split; [reflexivity|]. split; [reflexivity|].
    exists k0, ks, idx, lw, anc. split; [reflexivity|]. split; [exact Hr|]. split; [|split].
    - intros j dk Hjn. destruct (Hj j Hjn) as (A & B). rewrite W2 in A. split; [exact A|].
      unfold np. rewrite (map2_nth_d _ dk dX dX) by lia. now rewrite B.
    - intros j Hjn. unfold nlw.
      rewrite (nth_indep _ NaN (Fin (mixture_log_weight s (mpf_model_inputs p) dX))) by (rewrite map_length; lia).
      now rewrite (map_nth (fun x => Fin (mixture_log_weight s (mpf_model_inputs p) x))).
    - f_equal. rewrite (logsumexp_valid nlw Vn), (logsumexp_valid lw Hlw). cbn [fin_val].
      rewrite esub_fin. do 3 f_equal. unfold nlw. now rewrite lsum_map.
  Qed.

  Lemma mpf_run_facts inputs key states :
    filter split mpf inputs false (Some key) = Ok (map Ok states) ->
    (forall t s, nth_error states t = Some s -> wfm s) /\
    forall t s s' x, nth_error states t = Some s -> nth_error states (S t) = Some s' ->
      nth_error inputs (S t) = Some x ->
      exists k0 ks idx lw anc,
      split (mpf_key s) (N + 1) = k0 :: ks /\
      resampling_fn k0 (mpf_log_weights s) (mpf_particles s) N = Ok (idx, lw, anc) /\
      (forall j dk, (j < N)%nat -> (nth j idx 0 < N)%nat /\
         nth j (mpf_particles s') dX
         = propagate_sample (nth j ks dk) (nth (nth j idx 0%nat) (mpf_particles s) dX) x) /\
      (forall j, (j < N)%nat -> nth j (mpf_log_weights s') NaN
         = Fin (mixture_log_weight s x (nth j (mpf_particles s') dX))) /\
      mpf_log_normalizing_constant s' =
        eadd (Fin (ln (lsum (fun x' => exp (mixture_log_weight s x x')) (mpf_particles s'))
                   - fin_val (logsumexp lw))) (mpf_log_normalizing_constant s).
  Proof using Hres HN Hsplit Hfin.
    intros Hrun. destruct (run_steps split Hsplit _ _ _ _ _ _ Hrun) as (L & H0 & HS).
    assert (W : forall t s, nth_error states t = Some s -> wfm s).
    { induction t as [|t IH]; intros s Hs.
      - destruct (nth_error inputs 0) as [x|] eqn:Ex.
        + destruct (H0 x eq_refl) as (k & s0 & _ & Hi & Hs0). rewrite Hs in Hs0. injection Hs0 as ->.
          destruct (mpf_init_facts split Hsplit init_sample N HN _ _ _ Hi) as (A & B & _).
          unfold wfm. rewrite B, repeat_length. repeat split; auto; now apply repeat_valid.
        + apply nth_error_None in Ex. assert (0 < length states)%nat by (apply nth_error_Some; congruence). lia.
      - assert (Hlt : (S t < length states)%nat) by (apply nth_error_Some; congruence).
        destruct (nth_error inputs (S t)) as [x|] eqn:Ex; [|apply nth_error_None in Ex; lia].
        destruct (nth_error states t) as [s0|] eqn:Es0; [|apply nth_error_None in Es0; lia].
        destruct (HS t x s0 Ex Es0) as (k & p & s' & _ & Hp & Hc & Hs'). rewrite Hs in Hs'. injection Hs' as ->.
        now apply (mpf_comb_facts s0 p s' (IH _ eq_refl)). }
    split; [exact W|]. intros t s s' x Hs Hs' Hx.
    destruct (HS t x s Hx Hs) as (k & p & s1 & _ & Hp & Hc & Hs1). rewrite Hs' in Hs1. injection Hs1 as <-.
    destruct (mpf_comb_facts s p s' (W _ _ Hs) Hc) as (_ & _ & _ & F).
    unfold mpf_filter_prepare in Hp. injection Hp as <-. exact F.
  Qed.
End MPF.
