(** Property C67: multinomial and killing resampling when the generator returns 0. *)
From Coq Require Import Reals List Arith ZArith Bool Lia Lra Permutation.
From Verif Require Import Ext ScanModel DiscreteSpec Sums ResamplingModel ResamplingSpec ResamplingProofs ConditionalProofs
  KillingProofs ConditionalLaw ZeroDrawModel ZeroDrawSpec ZeroDraw PropResampling.
Import ListNotations.
Open Scope R_scope.

Lemma nth_repeat0 {A} (a : A) n k d : (k < n)%nat -> nth k (repeat a n) d = a.
Proof. revert k. induction n; intros k H; [lia|]. destruct k; [reflexivity|]. simpl. apply IHn. lia. Qed.
Lemma perm_repeat {A} (a : A) d perm n : Permutation perm (seq 0 n) -> map (fun i => nth i (repeat a n) d) perm = repeat a n.
Proof.
  intros H. rewrite (map_const _ a).
  - now rewrite (Permutation_length H), seq_length.
  - intros i Hi. apply (Permutation_in _ H), in_seq in Hi. apply nth_repeat0. lia.
Qed.

(** On the CPU a single draw equal to 0 makes multinomial resampling return n copies of particle 0,
    whatever the log weights and the position of the draw. *)
Theorem C67_collapse {X} (dX : X) (us : list R) (perm : list nat) (logits : list ext) (positions : list X) (n : nat) :
  length us = S n -> List.Forall (fun u => 0 <= u < 1) us -> In 0 us -> Permutation perm (seq 0 n) ->
  positions <> [] ->
  multinomial_ext dX true us perm logits positions n
  = (repeat 0%nat n, repeat (Fin 0) n, repeat (hd dX positions) n).
Proof.
  intros Hl Hu Hin Hp Hx. unfold multinomial_ext. rewrite cpu_collapse; [|eapply Forall_impl; [|exact Hu]; simpl; intros; lra|easy].
  replace (length us - 1)%nat with n by lia. rewrite perm_repeat by easy. unfold zeros, apply_resampling_indices, gather.
  rewrite map_repeat'. destruct positions as [|x xs]; [easy|]. reflexivity.
Qed.
Print Assumptions C67_collapse.

(** Conditional resampling keeps the reference particle but replaces all others by particle 0. *)
Theorem C67_conditional_collapse {X} (dX : X) (us : list R) (perm : list nat) (logits : list ext) (positions : list X)
  (n pivot_in pivot_out : nat) :
  length us = S n -> List.Forall (fun u => 0 <= u < 1) us -> In 0 us -> Permutation perm (seq 0 n) ->
  positions <> [] -> (pivot_in < n)%nat ->
  exists idx, multinomial_conditional_ext dX true us perm logits positions n pivot_in pivot_out
              = (idx, repeat (Fin 0) n, apply_resampling_indices dX positions idx) /\
    length idx = n /\
    forall k, (k < n)%nat -> nth k idx 0%nat = if Nat.eqb k pivot_in then pivot_out else 0%nat.
Proof.
  intros Hl Hu Hin Hp Hx Hpi. unfold multinomial_conditional_ext. rewrite C67_collapse by easy.
  eexists. split; [reflexivity|]. split; [now rewrite set_at_length, repeat_length|].
  intros k Hk. destruct (Nat.eqb_spec k pivot_in) as [-> |N].
  - apply set_at_same. now rewrite repeat_length.
  - rewrite set_at_other by congruence. now apply nth_repeat0.
Qed.
Print Assumptions C67_conditional_collapse.

(** Elsewhere the draws before the zero select particle 0 and the others select the last particle. *)
Theorem C67_collapse_default {X} (dX : X) (us vs : list R) (perm : list nat) (logits : list ext) (positions : list X) (n : nat) :
  (length us + length vs)%nat = n -> List.Forall (fun u => 0 < u < 1) us -> List.Forall (fun u => 0 <= u < 1) vs ->
  valid_logits logits -> Permutation perm (seq 0 n) ->
  Permutation (fst (fst (multinomial_ext dX false (us ++ 0 :: vs) perm logits positions n)))
    (repeat 0%nat (length us) ++ repeat (length logits - 1)%nat (length vs)).
Proof.
  intros Hn Hu Hv V Hp. unfold multinomial_ext. cbn [fst].
  rewrite default_collapse; [|easy|eapply Forall_impl; [|exact Hu]; simpl; intros; lra|eapply Forall_impl; [|exact Hv]; simpl; intros; lra].
  set (l := _ ++ _). assert (Ll : length l = n) by (unfold l; now rewrite app_length, !repeat_length).
  transitivity (map (fun i => nth i l 0%nat) (seq 0 n)); [now apply Permutation_map|].
  rewrite <- Ll, <- (map_nth_seq (fun i => i) l 0%nat), map_id. reflexivity.
Qed.
Print Assumptions C67_collapse_default.

(** Killing resampling: particles that do not survive are all replaced by particle 0. *)
Theorem C67_killing {X} (dX : X) (vs us : list R) (perm : list nat) (logits : list ext) (positions : list X) :
  let n := length logits in
  length vs = n -> length us = S n -> List.Forall (fun u => 0 <= u < 1) us -> In 0 us -> Permutation perm (seq 0 n) ->
  exists idx, killing_ext dX true vs us perm logits positions n
              = Ok (idx, repeat (Fin 0) n, apply_resampling_indices dX positions idx) /\
    forall k, (k < n)%nat -> nth k idx 0%nat = k \/ nth k idx 0%nat = 0%nat.
Proof.
  intros n Lv Hl Hu Hin Hp. unfold killing_ext. fold n. rewrite Nat.eqb_refl. cbn [negb].
  unfold multinomial_ext. rewrite cpu_collapse; [|eapply Forall_impl; [|exact Hu]; simpl; intros; lra|easy].
  replace (length us - 1)%nat with n by lia. rewrite perm_repeat by easy.
  eexists. split; [reflexivity|]. intros k Hk.
  rewrite (map2_nth_d _ 0%nat (0, 0%nat)).
  - rewrite seq_nth by lia. rewrite combine_nth by (rewrite repeat_length; lia).
    unfold killing_index. cbn [fst snd plus]. destruct survived; [now left|]. right. now apply nth_repeat0.
  - rewrite seq_length; lia.
  - rewrite combine_length, repeat_length; lia.
Qed.
Print Assumptions C67_killing.

(** Frequency: with M equally likely outputs per draw, at least 1 - (1 - 1/M)^(n+1) of the resampling steps collapse
    to particle 0; a first particle of weight zero gets exactly that fraction of the n copies in expectation. *)
Definition copies0 (logits : list ext) (n : nat) (us : list R) : R :=
  INR (copies (fst (fst (multinomial_ext tt true us (seq 0 n) logits (repeat tt (length logits)) n))) 0).
Theorem C67_collapse_frequency (M n : nat) (logits : list ext) :
  (0 < M)%nat -> valid_logits logits ->
  INR n * (1 - (1 - / INR M) ^ S n) <= average M (S n) (copies0 logits n) /\
  (wt logits 0 = 0 -> average M (S n) (copies0 logits n) = INR n * (1 - (1 - / INR M) ^ S n)).
Proof.
  intros HM V.
  assert (Z : forall us, In us (draws M (S n)) -> In 0 us -> copies0 logits n us = INR n).
  { intros us Hu Hin. destruct (draws_in M (S n) us HM Hu) as (A & B). unfold copies0.
    rewrite C67_collapse; [|easy|easy|easy|apply Permutation_refl|].
    - cbn [fst]. f_equal. unfold copies. clear. induction n; [reflexivity|]. simpl. now rewrite IHn.
    - pose proof (valid_length _ V). destruct (length logits); [lia|discriminate]. }
  replace (INR n * (1 - (1 - / INR M) ^ S n)) with (INR n + (0 - INR n) * (1 - / INR M) ^ S n) by ring.
  rewrite <- (average_zero M (S n) (INR n) 0 HM). split.
  - apply average_le. intros us Hu. destruct (in_dec0 us) as [I|I]; [rewrite Z by easy; lra|]. apply pos_INR.
  - intros W. apply average_ext. intros us Hu. destruct (in_dec0 us) as [I|I]; [now apply Z|].
    destruct (draws_in M (S n) us HM Hu) as (A & B). unfold copies0.
    assert (B' : List.Forall (fun u => 0 < u < 1) us).
    { rewrite Forall_forall in *. intros u Hi. specialize (B u Hi). destruct (Req_EM_T u 0) as [->|]; [easy|lra]. }
    rewrite (multinomial_agree true tt us (seq 0 n) logits _ n A B').
    replace 0 with (INR 0) by reflexivity. f_equal. apply count_occ_not_In. intros Hi.
    destruct (multinomial_facts true tt us (seq 0 n) logits (repeat tt (length logits)) n V A B' (Permutation_refl _)) as (_ & F).
    destruct (F _ Hi) as (_ & F2). lra.
Qed.
Print Assumptions C67_collapse_frequency.

(** With the single-precision generator (M = 2^23) and a million particles, more than one resampling step in ten. *)
Corollary C67_collapse_single_precision (M n : nat) (logits : list ext) :
  INR M = 2 ^ 23 -> 10 ^ 6 <= INR n -> valid_logits logits ->
  average M (S n) (copies0 logits n) > INR n / 10.
Proof.
  intros EM Hn V. assert (HM : (0 < M)%nat) by (apply INR_lt; rewrite EM; simpl; lra).
  destruct (C67_collapse_frequency M n logits HM V) as (H & _). eapply Rlt_le_trans; [|exact H].
  assert (B : forall p k, 0 <= p <= 1 -> (1 - p) ^ k * (1 + INR k * p) <= 1).
  { intros p k Hp. induction k; [simpl; lra|]. rewrite <- tech_pow_Rmult, S_INR. 
    assert (0 <= (1 - p) ^ k) by (apply pow_le; lra). pose proof (pos_INR k).
    assert ((1 - p) ^ k * ((1 - p) * (1 + (INR k + 1) * p)) <= (1 - p) ^ k * (1 + INR k * p)).
    { apply Rmult_le_compat_l; [easy|]. assert (0 <= p * p * (INR k + 1)); [|lra]. apply Rmult_le_pos; [nra|lra]. }
    lra. }
  specialize (B (/ INR M) (S n)). assert (P : 0 <= / INR M <= 1).
  { rewrite EM. split; [left; apply Rinv_0_lt_compat; simpl; lra|]. rewrite <- Rinv_1. apply Rinv_le_contravar; simpl; lra. }
  specialize (B P). set (q := (1 - / INR M) ^ S n) in *.
  assert (0 <= q) by (apply pow_le; lra). 
  assert (K : 1 + 119 / 1000 <= 1 + INR (S n) * / INR M).
  { rewrite EM, S_INR. apply Rplus_le_compat_l. apply Rmult_le_reg_r with (2 ^ 23); [simpl; lra|].
    rewrite Rmult_assoc, Rinv_l by (simpl; lra). simpl in *. lra. }
  assert (q * (1 + 119/1000) <= 1) by (eapply Rle_trans; [apply Rmult_le_compat_l; [easy|exact K]|exact B]).
  assert (0 < INR n) by (simpl in Hn; lra). assert (q < 9/10) by lra. nra.
Qed.
Print Assumptions C67_collapse_single_precision.

(** C67: the full claim fails: a particle of zero weight receives all copies, and the platforms disagree. *)
Theorem C67_refuted :
  exists (logits : list ext) (us : list R) (n : nat),
    valid_logits logits /\ length us = S n /\ List.Forall (fun u => 0 <= u < 1) us /\ wt logits 0 = 0 /\
    fst (fst (multinomial_ext tt true us (seq 0 n) logits (repeat tt n) n)) = repeat 0%nat n /\
    ~ Permutation (fst (fst (multinomial_ext tt true us (seq 0 n) logits (repeat tt n) n)))
        (fst (fst (multinomial_ext tt false us (seq 0 n) logits (repeat tt n) n))).
Proof.
  exists [NInf; Fin 0], [1/2; 0; 1/2], 2%nat.
  assert (V : valid_logits [NInf; Fin 0]).
  { split; [constructor; [now left|constructor; [right; eauto|constructor]]|]. apply Exists_cons_tl, Exists_cons_hd. eauto. }
  assert (U : List.Forall (fun u => 0 <= u < 1) [1/2; 0; 1/2]) by (repeat constructor; lra).
  split; [exact V|]. split; [reflexivity|]. split; [exact U|]. split; [unfold wt; simpl; field; apply Rgt_not_eq; rewrite exp_0; lra|].
  rewrite C67_collapse; [|reflexivity|exact U|simpl; auto|apply Permutation_refl|discriminate]. cbn [fst].
  split; [reflexivity|]. intros P.
  assert (Q : Permutation (fst (fst (multinomial_ext tt false ([1/2] ++ 0 :: [1/2]) (seq 0 2) [NInf; Fin 0] (repeat tt 2) 2)))
    (repeat 0%nat 1 ++ repeat 1%nat 1)).
  { apply (C67_collapse_default tt [1/2] [1/2]); [reflexivity|repeat constructor; lra|repeat constructor; lra|exact V|apply Permutation_refl]. }
  pose proof (Permutation_trans P Q) as PQ. apply Permutation_sym in PQ.
  assert (I : In 1%nat (repeat 0%nat 2)) by (apply (Permutation_in _ PQ); simpl; auto). simpl in I. lia.
Qed.
Print Assumptions C67_refuted.

(** C67, what holds: with positive draws every index is the generalised inverse of the weights at a sorted uniform in (0,1),
    has positive weight, and does not depend on the platform. *)
Theorem C67_positive_draws_partial (cpu : bool) {X} (dX : X) (us : list R) (perm : list nat) (logits : list ext) (positions : list X) (n : nat) :
  valid_logits logits -> length us = S n -> List.Forall (fun u => 0 < u < 1) us -> Permutation perm (seq 0 n) ->
  let tot := lsum ln us in
  let idx := fst (fst (multinomial_ext dX cpu us perm logits positions n)) in
  length idx = n /\
  (forall k, (k < n)%nat -> exists i, nth k perm 0%nat = i /\
     inverse_at (length logits) (wt logits) (lsum ln (firstn (S i) us) / tot) (nth k idx 0%nat)) /\
  (forall i, In i idx -> (i < length logits)%nat /\ 0 < wt logits i) /\
  multinomial_ext dX true us perm logits positions n = multinomial_ext dX false us perm logits positions n.
Proof.
  intros V Hl Hu Hp tot idx. subst idx. rewrite !(multinomial_agree _ dX us perm logits positions n Hl Hu).
  destruct (multinomial_facts cpu dX us perm logits positions n V Hl Hu Hp) as (F1 & F2).
  split; [exact F1|]. destruct (sorted_uniforms_facts us n Hl Hu) as (A & B & C).
  split; [|split; [exact F2|]].
  - intros k Hk. exists (nth k perm 0%nat). split; [reflexivity|].
    assert (Hi : (nth k perm 0 < n)%nat).
    { assert (I : In (nth k perm 0%nat) perm) by (apply nth_In; rewrite (Permutation_length Hp), seq_length; lia).
      apply (Permutation_in _ Hp), in_seq in I. lia. }
    unfold multinomial_resampling. cbn [fst].
    destruct (inverse_cdf_spec cpu _ logits V B) as (D & E). rewrite A in D, E.
    set (g := fun i => nth i (inverse_cdf cpu (sorted_uniforms us) logits) 0%nat).
    assert (Eg : nth k (map g perm) 0%nat = g (nth k perm 0%nat)).
    { rewrite (nth_indep _ 0%nat (g 0%nat)) by (rewrite map_length, (Permutation_length Hp), seq_length; lia). apply map_nth. }
    rewrite Eg. unfold g.
    specialize (E _ Hi). revert E. 
    replace (nth (nth k perm 0%nat) (sorted_uniforms us) 0) with (lsum ln (firstn (S (nth k perm 0%nat)) us) / tot); [easy|].
    generalize dependent (nth k perm 0%nat). intros i Hi. unfold sorted_uniforms.
    set (z := rcumsum_from 0 (map (fun u => - ln u) us)).
    assert (Lz : length z = S n) by (unfold z; now rewrite rcumsum_length, map_length).
    assert (Nz : forall j, (j < S n)%nat -> nth j z 0 = - lsum ln (firstn (S j) us)).
    { intros j Hj. unfold z. rewrite rcumsum_nth by (rewrite map_length; lia). rewrite firstn_map, lsum_map, (lsum_ext _ (fun u => (-1) * ln u)) by (intros; ring). rewrite lsum_scal. ring. }
    rewrite last_nth, Lz. replace (S n - 1)%nat with n by lia. rewrite (Nz n) by lia.
    rewrite (nth_indep _ 0 (0 / - lsum ln (firstn (S n) us))) by (rewrite map_length, removelast_length; lia).
    rewrite (map_nth (fun x => x / - lsum ln (firstn (S n) us))), removelast_nth' by lia. rewrite Nz by lia.
    intros _. unfold tot. rewrite <- Hl, firstn_all. clear. unfold Rdiv. destruct (Req_dec (lsum ln us) 0) as [E|E]; [rewrite E, Ropp_0, Rinv_0; ring|field; lra].
  - unfold multinomial_resampling. now rewrite (inverse_cdf_platform _ logits V B).
Qed.
Print Assumptions C67_positive_draws_partial.
Example C67_hypotheses_met : valid_logits demo_logits /\ List.Forall (fun u => 0 < u < 1) [1/2; 1/3; 1/4; 1/5] /\
  In [1/2; 0] (draws 2 2) /\ (exists M n, INR M = 2 ^ 23 /\ 10 ^ 6 <= INR n).
Proof.
  split; [apply demo_valid|]. split; [repeat constructor; lra|]. split.
  - simpl. right; right; left. repeat f_equal; field.
  - exists (2 ^ 23)%nat, (10 ^ 6)%nat. split; rewrite pow_INR; [reflexivity|]. right. f_equal. simpl. lra.
Qed.
