(** Backward weights and the independent Metropolis-Hastings kernel. *)
From Coq Require Import Reals List Arith ZArith Bool Lia Lra Permutation FunctionalExtensionality.
From Coquelicot Require Import Coquelicot.
From Verif Require Import Ext ScanModel ScanProofs DiscreteSpec Sums
  ResamplingModel ResamplingSpec ResamplingProofs ConditionalProofs KillingProofs SystematicProofs
  ConditionalLaw SmcModel SmcSpec SmcProofs.
Import ListNotations.
Open Scope R_scope.

(** ** logsumexp commutes with shifts, for all arrays of floats *)
Definition nonneg_ext (e : ext) : Prop := e = NaN \/ e = PInf \/ exists r, 0 <= r /\ e = Fin r.
Lemma esuml_exp_nonneg l : nonneg_ext (esuml (map eexp l)).
Proof.
  induction l as [|a l IH]; simpl.
  - right; right. exists 0. split; [lra|auto].
  - destruct IH as [->|[->|(r & Hr & ->)]]; destruct a; simpl; unfold nonneg_ext; auto.
    + right; right. eexists. split; [|reflexivity]. pose proof (exp_pos r0). lra.
    + right; right. eexists. split; [|reflexivity]. lra.
Qed.
Lemma inf_times_pos x : 0 < x -> inf_times true x = PInf.
Proof. intros H. unfold inf_times. destruct Rlt_dec; [auto|lra]. Qed.
Lemma esuml_shift c l : esuml (map eexp (shift_logits c l)) = emul (esuml (map eexp l)) (Fin (exp c)).
Proof.
  induction l as [|a l IH]; simpl; [f_equal; lra|]. rewrite IH.
  pose proof (exp_pos c) as Hc.
  destruct (esuml_exp_nonneg l) as [->|[->|(r & Hr & ->)]]; destruct a; simpl; rewrite ?inf_times_pos by assumption; simpl; auto;
    rewrite ?inf_times_pos by assumption; simpl; auto; f_equal; rewrite ?exp_plus; lra.
Qed.
Lemma elog_scale e c : nonneg_ext e -> elog (emul e (Fin (exp c))) = eadd (elog e) (Fin c).
Proof.
  pose proof (exp_pos c) as Hc.
  intros [->|[->|(r & Hr & ->)]]; simpl; rewrite ?inf_times_pos by assumption; simpl; auto.
  destruct (Rlt_dec 0 r) as [H|H].
  - destruct Rlt_dec as [H1|H1]; [|exfalso; apply H1; now apply Rmult_lt_0_compat].
    simpl. rewrite ln_mult, ln_exp by assumption. reflexivity.
  - assert (r = 0) by lra. subst r. rewrite Rmult_0_l.
    destruct Rlt_dec; [lra|]. destruct Req_EM_T; [reflexivity|lra].
Qed.
Lemma lse_shift c l : logsumexp (shift_logits c l) = eadd (logsumexp l) (Fin c).
Proof. unfold logsumexp. rewrite esuml_shift. apply elog_scale, esuml_exp_nonneg. Qed.
Lemma esub_shift e f c : esub (eadd e (Fin c)) (eadd f (Fin c)) = esub e f.
Proof. destruct e, f; simpl; auto. unfold esub; simpl. f_equal. lra. Qed.
Lemma normalise_shift c l :
  map (fun e => esub e (logsumexp (shift_logits c l))) (shift_logits c l) = map (fun e => esub e (logsumexp l)) l.
Proof. rewrite lse_shift. unfold shift_logits. rewrite map_map. apply map_ext. intros e. apply esub_shift. Qed.

Section Weights.
  Context {Key X : Type}.
  Variable dX : X.
  Variable split : Key -> nat -> list Key.

  Lemma log_weights_shift (x0 : list X) x1 c d : forall lw ld ld',
    (forall x, ld' x x1 = eadd (ld x x1) (Fin d)) ->
    map2 (fun x w => log_weights_single x x1 w ld') x0 (shift_logits c lw) =
    shift_logits (c + d) (map2 (fun x w => log_weights_single x x1 w ld) x0 lw).
  Proof.
    induction x0 as [|x x0 IH]; intros [|w lw] ld ld' H; simpl; auto.
    rewrite (IH lw ld ld') by assumption. f_equal. unfold log_weights_single. rewrite H.
    destruct w, (ld x x1); simpl; auto. f_equal. lra.
  Qed.
  Lemma backward_log_weights_shift (x0 : list X) x1 c d lw ld ld' :
    (forall x, ld' x x1 = eadd (ld x x1) (Fin d)) ->
    backward_log_weights x0 x1 (shift_logits c lw) ld' = backward_log_weights x0 x1 lw ld.
  Proof.
    intros H. unfold backward_log_weights. rewrite (log_weights_shift x0 x1 c d lw ld ld' H). apply normalise_shift.
  Qed.

  Definition backward_valid (x0 : list X) (x1 : X) (lw : list ext) (ld : X -> X -> ext) : Prop :=
    length x0 = length lw /\ List.Forall is_logit lw /\ (forall x, In x x0 -> is_logit (ld x x1)) /\
    exists i w l, nth_error lw i = Some (Fin w) /\ ld (nth i x0 dX) x1 = Fin l.

  Lemma backward_log_weights_spec (x0 : list X) x1 lw ld :
    backward_valid x0 x1 lw ld ->
    let bl := backward_log_weights x0 x1 lw ld in
    length bl = length lw /\ List.Forall is_logit bl /\ lsum uw bl = 1 /\
    forall i, (i < length lw)%nat -> uw (nth i bl NInf) = backward_prob lw (fun i => ld (nth i x0 dX) x1) i.
  Proof.
    intros (L & Hw & Hd & i0 & w0 & l0 & Hw0 & Hl0). unfold backward_log_weights.
    set (all := map2 (fun x w => log_weights_single x x1 w ld) x0 lw).
    assert (La : length all = length lw) by (unfold all; rewrite map2_len; lia).
    assert (Hi0 : (i0 < length lw)%nat) by (apply nth_error_Some; congruence).
    assert (Hn : forall i, (i < length lw)%nat -> nth i all NInf = eadd (nth i lw NInf) (ld (nth i x0 dX) x1)).
    { intros i Hi. unfold all. rewrite (map2_nth_d _ dX NInf) by lia. reflexivity. }
    assert (Hlog : forall i, (i < length lw)%nat -> is_logit (nth i lw NInf) /\ is_logit (ld (nth i x0 dX) x1)).
    { intros i Hi. split; [|apply Hd, nth_In; lia].
      rewrite Forall_forall in Hw. apply Hw, nth_In. lia. }
    assert (V : valid_logits all).
    { split.
      - apply Forall_forall. intros e He. destruct (In_nth _ _ NInf He) as (i & Hi & <-). rewrite La in Hi.
        rewrite Hn by assumption. apply eadd_logit; now apply Hlog.
      - apply Exists_exists. exists (nth i0 all NInf). split; [apply nth_In; lia|].
        rewrite Hn, Hl0 by assumption. rewrite (nth_error_nth _ _ NInf Hw0). simpl. eauto. }
    assert (Hsum : lsum uw all = lsum (fun k => uw (nth k lw NInf) * uw (ld (nth k x0 dX) x1)) (seq 0 (length lw))).
    { rewrite (lsum_nth_seq _ _ NInf), La. apply lsum_seq_ext. intros i Hi. rewrite Hn by assumption.
      apply uw_eadd; now apply Hlog. }
    rewrite logsumexp_valid by exact V.
    assert (P := valid_sum_pos all V).
    split; [now rewrite map_length|]. split; [apply (valid_shift all _ V)|].
    split.
    - rewrite lsum_uw_shift, exp_Ropp, exp_ln by assumption. field. lra.
    - intros i Hi. unfold backward_prob.
      change NInf with ((fun e => esub e (Fin (ln (lsum uw all)))) NInf) at 1. rewrite map_nth.
      rewrite uw_shift, exp_Ropp, exp_ln, Hn by assumption. rewrite uw_eadd by now apply Hlog.
      rewrite <- Hsum. reflexivity.
  Qed.

  Variable categorical : Key -> list ext -> nat.
  Lemma exact_simulate_spec key x0 x1s lw ld anc :
    (forall k n, length (split k n) = n) ->
    exists particles idx,
      exact_simulate dX split categorical key x0 x1s lw ld anc = Ok (particles, idx) /\
      length particles = length x1s /\ length idx = length x1s /\
      forall s k, nth_error (split key (length x1s)) s = Some k ->
        nth s idx 0%nat = categorical k (backward_log_weights x0 (nth s x1s dX) lw ld) /\
        nth s particles dX = nth (nth s idx 0%nat) x0 dX.
  Proof.
    intros Hs. unfold exact_simulate. eexists _, _. split; [reflexivity|].
    rewrite !map_length, map2_len, Hs, Nat.min_id. repeat split.
    - assert (s < length x1s)%nat. { rewrite <- (Hs key (length x1s)). apply nth_error_Some. congruence. }
      set (f := fun k x1 => simulate_single dX categorical k x0 x1 lw ld).
      change 0%nat with (snd (dX, 0%nat)) at 1. rewrite map_nth.
      rewrite (map2_nth_d f k dX (dX, 0%nat)) by (rewrite ?Hs; lia). unfold f, simulate_single. simpl.
      now rewrite (nth_error_nth _ _ k H).
    - assert (s < length x1s)%nat. { rewrite <- (Hs key (length x1s)). apply nth_error_Some. congruence. }
      set (f := fun k x1 => simulate_single dX categorical k x0 x1 lw ld).
      pose proof (map_nth fst (map2 f (split key (length x1s)) x1s) (dX, 0%nat) s) as E1.
      pose proof (map_nth snd (map2 f (split key (length x1s)) x1s) (dX, 0%nat) s) as E2.
      transitivity (fst (nth s (map2 f (split key (length x1s)) x1s) (dX, 0%nat))); [exact E1|].
      transitivity (nth (snd (nth s (map2 f (split key (length x1s)) x1s) (dX, 0%nat))) x0 dX);
        [|f_equal; symmetry; exact E2].
      rewrite (map2_nth_d f k dX (dX, 0%nat)) by (rewrite ?Hs; lia). reflexivity.
  Qed.
End Weights.
