From Coq Require Import Reals List Arith ZArith Bool Lia Lra Permutation.
From Verif Require Import Ext ScanModel ScanProofs DriverSpec DriverProofs DiscreteSpec Sums
  ResamplingModel ResamplingSpec ResamplingProofs ConditionalProofs KillingProofs SystematicProofs
  ConditionalLaw SmcModel SmcSpec SmcProofs SmcResamplers.
Import ListNotations.
Open Scope R_scope.

Lemma repeat_shift g n : repeat (Fin g) n = shift_logits g (zeros n).
Proof. unfold shift_logits, zeros. induction n; simpl; auto. rewrite IHn. do 2 f_equal. lra. Qed.
Lemma lse_repeat g n : (0 < n)%nat -> logsumexp (repeat (Fin g) n) = Fin (ln (INR n) + g).
Proof. intros H. rewrite repeat_shift, logsumexp_shift, lsum_uw_zeros by now apply zeros_valid. reflexivity. Qed.
Lemma repeat_valid g n : (0 < n)%nat -> valid_logits (repeat (Fin g) n).
Proof. intros H. rewrite repeat_shift. now apply valid_shift_logits, zeros_valid. Qed.
Lemma lse_normalised l : valid_logits l -> logsumexp (map (fun e => esub e (logsumexp l)) l) = Fin 0.
Proof.
  intros H. rewrite (logsumexp_valid l H), logsumexp_valid by now apply valid_shift.
  rewrite lsum_uw_shift, exp_Ropp, exp_ln by now apply valid_sum_pos.
  rewrite Rinv_r, ln_1; auto. apply Rgt_not_eq. now apply valid_sum_pos.
Qed.

Section MPF.
  Context {Key X Inp : Type}.
  Variable dX : X.
  Variable split : Key -> nat -> list Key.
  Hypothesis Hsplit : split_ok split.
  Variable init_sample : Key -> Inp -> X.
  Variable propagate_sample : Key -> X -> Inp -> X.
  Variable log_potential : X -> X -> Inp -> ext.
  Variable resampling_fn : Resampling Key X.
  Hypothesis Hres : resampler_ok dX resampling_fn.
  Variable N : nat.
  Hypothesis HN : (0 < N)%nat.
  Variable dummy : X.
  Let comb := mpf_filter_combine split propagate_sample log_potential resampling_fn.
  Let mpf := mpf_build_filter split init_sample propagate_sample log_potential resampling_fn N dummy.

  Lemma mpf_comb_constant s p s' g :
    length (mpf_particles s) = N -> length (mpf_log_weights s) = N -> valid_logits (mpf_log_weights s) ->
    (forall a x, log_potential a x (mpf_model_inputs p) = Fin g) ->
    comb s p = Ok s' ->
    length (mpf_particles s') = N /\ mpf_log_weights s' = repeat (Fin g) N /\
    exists k0 ks idx lw anc,
      split (mpf_key s) (N + 1) = k0 :: ks /\
      resampling_fn k0 (mpf_log_weights s) (mpf_particles s) N = Ok (idx, lw, anc) /\
      mpf_log_normalizing_constant s' =
      eadd (esub (Fin (ln (INR N) + g)) (logsumexp lw)) (mpf_log_normalizing_constant s).
  Proof using Hres HN Hsplit.
    intros W1 W2 Hv Hg. unfold comb, mpf_filter_combine. rewrite W2.
    destruct (split (mpf_key s) (N + 1)) as [|k0 ks] eqn:Es; [discriminate|].
    assert (Lks : length ks = N). { pose proof (Hsplit (mpf_key s) (N + 1)%nat) as L. rewrite Es in L. simpl in L. lia. }
    intros H. apply bind_ok in H. destruct H as ([[idx lw] anc] & Hr & H).
    destruct (Hres _ _ _ _ _ _ _ Hv (eq_trans W1 (eq_sym W2)) HN Hr) as (L1 & L2 & L3 & Hlw & Hj).
    rewrite Lks, L3, Nat.eqb_refl in H. injection H as <-. simpl.
    rewrite map2_len, Lks, L3, Nat.min_id. split; [reflexivity|].
    match goal with |- map ?f ?l = _ /\ _ => assert (E : map f l = repeat (Fin g) N) end.
    { match goal with |- map ?f ?l = _ => transitivity (map (fun _ => Fin g) l) end.
      - apply map_ext. intros x.
        rewrite (shift_map2 _ _ g).
        + rewrite logsumexp_shift by (rewrite logsumexp_valid by assumption; now apply valid_shift).
          pose proof (lse_normalised _ Hv) as E. rewrite logsumexp_valid in E at 1.
          2: { rewrite logsumexp_valid by assumption; now apply valid_shift. }
          injection E as E. rewrite E. f_equal. lra.
        + rewrite !map_length. congruence.
        + intros i Hi. rewrite map_length in Hi.
          rewrite (nth_indep _ NaN (log_potential dX x (mpf_model_inputs p))) by (rewrite map_length; congruence).
          rewrite (map_nth (fun a => log_potential a x (mpf_model_inputs p))). apply Hg.
      - assert (Q : forall (l : list X) n, length l = n -> map (fun _ => Fin g) l = repeat (Fin g) n).
        { induction l as [|a l IH]; intros n <-; simpl; auto. now rewrite <- IH. }
        apply Q. rewrite map2_len. lia. }
    rewrite E, lse_repeat by assumption. split; [reflexivity|].
    exists k0, ks, idx, lw, anc. auto.
  Qed.

  Lemma mpf_init_facts x k s : mpf_init_prepare split init_sample N x (Some k) = Ok s ->
    length (mpf_particles s) = N /\ mpf_log_weights s = repeat (Fin 0) N /\ mpf_log_normalizing_constant s = Fin 0.
  Proof using Hsplit HN.
    unfold mpf_init_prepare. intros H. injection H as <-. simpl.
    rewrite map_length, Hsplit. repeat split.
    rewrite logsumexp_valid, lsum_uw_zeros by now apply zeros_valid.
    assert (0 < INR N) by (apply lt_0_INR; lia). unfold elog. destruct (Rlt_dec 0 (INR N)); [|lra].
    unfold esub; simpl. f_equal. lra.
  Qed.

  Definition prev_g (g : nat -> R) (t : nat) : R := match t with O => 0 | S t' => g t' end.

  Lemma mpf_run_constant inputs key states (g : nat -> R) (z : nat -> R) :
    filter split mpf inputs false (Some key) = Ok (map Ok states) ->
    (forall t x a b, nth_error inputs (S t) = Some x -> log_potential a b x = Fin (g t)) ->
    z 0%nat = 0 ->
    (forall t k0 xs idx lw anc, resampling_fn k0 (repeat (Fin (prev_g g t)) N) xs N = Ok (idx, lw, anc) ->
       z (S t) = z t + (ln (INR N) + g t) - fin_val (logsumexp lw)) ->
    forall t s, nth_error states t = Some s ->
      length (mpf_particles s) = N /\ mpf_log_weights s = repeat (Fin (prev_g g t)) N /\
      mpf_log_normalizing_constant s = Fin (z t).
  Proof using Hres HN Hsplit.
    intros Hrun Hg Z0 ZS. destruct (run_steps split Hsplit _ _ _ _ _ _ Hrun) as (L & H0 & HS).
    induction t as [|t IH]; intros s Hs.
    - destruct (nth_error inputs 0) as [x|] eqn:Ex.
      + destruct (H0 x eq_refl) as (k & s0 & _ & Hi & Hs0). rewrite Hs in Hs0. injection Hs0 as ->.
        destruct (mpf_init_facts _ _ _ Hi) as (A & B & C). rewrite Z0. auto.
      + apply nth_error_None in Ex. assert (0 < length states)%nat by (apply nth_error_Some; congruence). lia.
    - assert (Hlt : (S t < length states)%nat) by (apply nth_error_Some; congruence).
      destruct (nth_error inputs (S t)) as [x|] eqn:Ex; [|apply nth_error_None in Ex; lia].
      destruct (nth_error states t) as [s0|] eqn:Es0; [|apply nth_error_None in Es0; lia].
      destruct (HS t x s0 Ex Es0) as (k & p & s' & _ & Hp & Hc & Hs'). rewrite Hs in Hs'. injection Hs' as ->.
      destruct (IH _ eq_refl) as (A & B & C).
      assert (V : valid_logits (mpf_log_weights s0)) by (rewrite B; now apply repeat_valid).
      destruct (mpf_comb_constant s0 p s' (g t) A) as (A' & B' & k0 & ks & idx & lw & anc & E1 & E2 & E3); auto.
      { rewrite B. apply repeat_length. }
      { intros a b. unfold mpf_filter_prepare in Hp. injection Hp as <-. simpl. eapply Hg; eauto. }
      split; [exact A'|]. split; [exact B'|].
      assert (Vl : valid_logits lw).
      { eapply (Hres k0 _ _ N); eauto. rewrite B, repeat_length. congruence. }
      rewrite B in E2. rewrite E3, C, (ZS t _ _ _ _ _ E2).
      rewrite logsumexp_valid by assumption. simpl. f_equal. lra.
  Qed.

  (** resamplers that reset the weights *)
  Lemma mpf_uniform inputs key states (g : nat -> R) :
    resampler_uniform resampling_fn ->
    filter split mpf inputs false (Some key) = Ok (map Ok states) ->
    (forall t x a b, nth_error inputs (S t) = Some x -> log_potential a b x = Fin (g t)) ->
    forall t s, nth_error states t = Some s ->
      mpf_log_normalizing_constant s = Fin (lsum g (seq 0 t)).
  Proof using Hres HN Hsplit.
    intros Hu Hrun Hg t s Hs.
    apply (mpf_run_constant inputs key states g (fun t => lsum g (seq 0 t)) Hrun Hg eq_refl) with (t := t); auto.
    intros t' k0 xs idx lw anc Hr. rewrite (Hu _ _ _ _ _ _ _ Hr), lse_repeat, lsum_seq_S by assumption. simpl. lra.
  Qed.
End MPF.

(** the adaptive resampler keeps uniform weights, so the increment only sees the last potential *)
Lemma adaptive_keeps {Key X} (f : Resampling Key X) thr k0 c N (xs : list X) :
  (0 < N)%nat -> 0 < thr <= 1 ->
  adaptive_fn f thr k0 (repeat (Fin c) N) xs N = Ok (seq 0 N, repeat (Fin c) N, xs).
Proof.
  intros HN Ht. unfold adaptive_fn, ess_decorator. rewrite repeat_length, Nat.eqb_refl. simpl negb. cbv iota.
  assert (V : valid_logits (repeat (Fin c) N)) by now apply repeat_valid.
  pose proof (adaptive_test (repeat (Fin c) N) thr V ltac:(lra)) as E. rewrite repeat_length in E. rewrite E.
  assert (Q : ess_spec (map uw (repeat (Fin c) N)) = INR N).
  { replace (INR N) with (INR (length (repeat (Fin c) N))) by now rewrite repeat_length.
    apply (ess_max_iff _ V). intros a b Ha Hb. unfold wt.
    assert (R1 : forall i, (i < N)%nat -> nth i (repeat (Fin c) N) NInf = Fin c).
    { intros i Hi. apply (repeat_spec N (Fin c)). apply nth_In. now rewrite repeat_length. }
    rewrite repeat_length in Ha, Hb. now rewrite !R1 by assumption. }
  rewrite Q. clear E. destruct Rlt_dec; [|reflexivity]. assert (0 < INR N) by (apply lt_0_INR; lia). nra.
Qed.
