(** The built-in resamplers meet the contracts of SmcSpec.v. *)
From Coq Require Import Reals List Arith ZArith Bool Lia Lra Permutation.
From Verif Require Import Ext ScanModel ScanProofs DiscreteSpec Sums
  ResamplingModel ResamplingSpec ResamplingProofs ConditionalProofs KillingProofs SystematicProofs
  ConditionalLaw SmcModel SmcSpec SmcProofs.
Import ListNotations.
Open Scope R_scope.

(** ranges of the random draws *)
Definition uniforms_ok {Key} (us : Key -> nat -> list R) (extra : nat) : Prop :=
  forall k n, length (us k n) = (n + extra)%nat /\ List.Forall (fun u => 0 < u < 1) (us k n).
Definition perm_ok {Key} (perm : Key -> nat -> list nat) : Prop :=
  forall k n, Permutation (perm k n) (seq 0 n).

Section S.
  Context {Key X : Type}.
  Variable dX : X.
  Variable cpu : bool.

  Lemma gather_ok (xs : list X) (l : list ext) idx n : length xs = length l -> length idx = n ->
    (forall i, In i idx -> (i < length l)%nat) ->
    length (gather xs idx dX) = n /\
    forall j, (j < n)%nat -> (nth j idx 0 < length l)%nat /\ nth j (gather xs idx dX) dX = nth (nth j idx 0%nat) xs dX.
  Proof.
    intros L Li Hr. split; [now rewrite gather_length|]. intros j Hj.
    assert (Hn : (nth j idx 0 < length l)%nat) by (apply Hr, nth_In; lia).
    split; [exact Hn|]. rewrite (gather_nth xs idx dX j) by lia. reflexivity.
  Qed.

  Lemma systematic_resampler_ok (u : Key -> R) : resampler_ok dX (systematic_fn dX cpu u).
  Proof.
    intros k l xs n idx lw ys Hv L Hn H. unfold systematic_fn, systematic_resampling in H.
    injection H as <- <- <-. unfold apply_resampling_indices.
    destruct (inverse_cdf_spec cpu _ l Hv (systematic_uniforms_sorted (u k) n)) as (A & _).
    rewrite systematic_uniforms_length in A.
    destruct (gather_ok xs l _ n L A) as (B & C).
    { intros i Hi. eapply inverse_cdf_range; eauto using systematic_uniforms_sorted. }
    split; [exact A|]. split; [apply repeat_length|]. split; [exact B|]. split; [now apply zeros_valid|exact C].
  Qed.

  Lemma multinomial_resampler_ok us perm : uniforms_ok (Key:=Key) us 1 -> perm_ok perm ->
    resampler_ok dX (multinomial_fn dX cpu us perm).
  Proof.
    intros Hu Hp k l xs n idx lw ys Hv L Hn H. unfold multinomial_fn in H.
    destruct (Hu k n) as (U1 & U2).
    destruct (multinomial_facts cpu dX (us k n) (perm k n) l xs n Hv ltac:(lia) U2 (Hp k n)) as (A & B).
    unfold multinomial_resampling in *. cbn [fst] in A, B. injection H as <- <- <-. unfold apply_resampling_indices.
    destruct (gather_ok xs l _ n L A) as (C & D). { intros i Hi. now apply B. }
    split; [exact A|]. split; [apply repeat_length|]. split; [exact C|]. split; [now apply zeros_valid|exact D].
  Qed.

  Lemma killing_resampler_ok vs us perm : uniforms_ok (Key:=Key) vs 0 -> uniforms_ok us 1 -> perm_ok perm ->
    resampler_ok dX (killing_fn dX cpu vs us perm).
  Proof.
    intros Hvs Hu Hp k l xs n idx lw ys Hv L Hn H. unfold killing_fn, killing_resampling in H.
    destruct (Nat.eqb_spec n (length l)) as [->|]; [|discriminate]. simpl negb in H.
    destruct (Hu k (length l)) as (U1 & U2). destruct (Hvs k (length l)) as (V1 & V2).
    destruct (multinomial_facts cpu dX (us k (length l)) (perm k (length l)) l xs (length l) Hv ltac:(lia) U2 (Hp k _)) as (A & B).
    destruct (multinomial_resampling dX cpu (us k (length l)) (perm k (length l)) l xs (length l)) as [[other a] b].
    cbn [fst] in A, B. injection H as <- <- <-. unfold apply_resampling_indices.
    match goal with |- context [gather xs ?i dX] => set (idx := i) end.
    assert (Li : length idx = length l).
    { unfold idx. rewrite map2_len, seq_length, combine_length. lia. }
    destruct (gather_ok xs l idx (length l) L Li) as (C & D).
    { intros i Hi. destruct (In_nth _ _ 0%nat Hi) as (j & Hj & <-). unfold idx.
      rewrite (map2_nth_d _ 0%nat (0, 0%nat)) by (rewrite ?seq_length, ?combine_length; lia).
      unfold killing_index. rewrite seq_nth by lia. rewrite combine_nth by lia. simpl.
      destruct survived; [lia|]. apply B. apply nth_In. lia. }
    split; [exact Li|]. split; [apply repeat_length|]. split; [exact C|]. split; [now apply zeros_valid|exact D].
  Qed.

  Lemma adaptive_resampler_ok (f : Resampling Key X) t : resampler_ok dX f -> resampler_ok dX (adaptive_fn f t).
  Proof.
    intros Hf k l xs n idx lw ys Hv L Hn H. unfold adaptive_fn, ess_decorator in H.
    destruct (Nat.eqb_spec n (length l)) as [->|]; [|discriminate]. simpl negb in H. cbv iota in H.
    destruct eltb.
    - eapply Hf; eauto.
    - injection H as <- <- <-. rewrite seq_length. repeat match goal with |- _ /\ _ => split end; auto.
      intros j Hj. rewrite seq_nth by lia. auto.
  Qed.

  (** scale-freeness *)
  Lemma inverse_cdf_shift su c l : valid_logits l -> sorted su ->
    inverse_cdf cpu su (shift_logits c l) = inverse_cdf cpu su l.
  Proof.
    intros Hv Hs. symmetry. apply inverse_cdf_wt_ext; auto using valid_shift_logits.
    - now rewrite shift_length.
    - intros k Hk. symmetry. now apply wt_shift_logits.
  Qed.
  Lemma shift_zero n : shift_logits 0 (zeros n) = zeros n.
  Proof. unfold shift_logits, zeros. induction n; simpl; auto. rewrite IHn. do 2 f_equal. lra. Qed.

  Lemma systematic_scale_free (u : Key -> R) : resampler_scale_free (systematic_fn dX cpu u).
  Proof.
    intros k l xs n c idx lw ys Hv H. exists 0. unfold systematic_fn, systematic_resampling in *.
    injection H as <- <- <-. rewrite inverse_cdf_shift by auto using systematic_uniforms_sorted.
    now rewrite shift_zero.
  Qed.
  Lemma multinomial_scale_free us perm : uniforms_ok (Key:=Key) us 1 ->
    resampler_scale_free (multinomial_fn dX cpu us perm).
  Proof.
    intros Hu k l xs n c idx lw ys Hv H. exists 0. unfold multinomial_fn, multinomial_resampling in *.
    injection H as <- <- <-. destruct (Hu k n) as (U1 & U2).
    destruct (sorted_uniforms_facts (us k n) n ltac:(lia) U2) as (_ & B & _).
    rewrite inverse_cdf_shift by auto. now rewrite shift_zero.
  Qed.
  Lemma emaxl_shift c l : emaxl (shift_logits c l) = eadd (emaxl l) (Fin c).
  Proof.
    induction l as [|a l IH]; simpl; auto. rewrite IH.
    destruct a, (emaxl l); simpl; auto. f_equal.
    unfold Rmax; repeat destruct Rle_dec; lra.
  Qed.
  Lemma killing_scale_free vs us perm : uniforms_ok (Key:=Key) us 1 ->
    resampler_scale_free (killing_fn dX cpu vs us perm).
  Proof.
    intros Hu k l xs n c idx lw ys Hv H. exists 0. unfold killing_fn, killing_resampling in *.
    rewrite shift_length. destruct (Nat.eqb n (length l)); [|discriminate]. simpl negb in *. cbv iota in *.
    unfold multinomial_resampling in *. destruct (Hu k n) as (U1 & U2).
    destruct (sorted_uniforms_facts (us k n) n ltac:(lia) U2) as (_ & B & _).
    rewrite inverse_cdf_shift by auto.
    assert (E : forall v s o, killing_index (shift_logits c l) v s o = killing_index l v s o).
    { intros v s o. unfold killing_index. replace (survived v (nth s (shift_logits c l) NaN) (emaxl (shift_logits c l)))
        with (survived v (nth s l NaN) (emaxl l)); [reflexivity|].
      unfold survived. f_equal. rewrite emaxl_shift. unfold shift_logits.
      change NaN with ((fun e => eadd e (Fin c)) NaN) at 2. rewrite map_nth.
      destruct (emaxl_valid l Hv) as (m & -> & _). unfold esub. simpl.
      destruct (nth s l NaN); simpl; auto. f_equal. lra. }
    injection H as <- <- <-. rewrite shift_zero. f_equal.
    assert (E2 : forall a b, map2 (fun s vo => killing_index (shift_logits c l) (fst vo) s (snd vo)) a b
                 = map2 (fun s vo => killing_index l (fst vo) s (snd vo)) a b).
    { induction a; destruct b; simpl; auto. now rewrite E, IHa. }
    now rewrite E2.
  Qed.
  Lemma log_ess_shift c l : valid_logits l -> log_ess (shift_logits c l) = log_ess l.
  Proof.
    intros Hv. pose proof (ess_shift l c Hv) as H. unfold ess in H.
    rewrite (log_ess_eq l Hv), (log_ess_eq (shift_logits c l)) in *.
    2: now apply valid_shift_logits.
    all: fold (shift_logits c l) in H; rewrite log_ess_eq in H by now apply valid_shift_logits.
    simpl in H. injection H as H. apply exp_inv in H. congruence.
  Qed.
  Lemma adaptive_scale_free (f : Resampling Key X) t : resampler_scale_free f ->
    resampler_scale_free (adaptive_fn f t).
  Proof.
    intros Hf k l xs n c idx lw ys Hv H. unfold adaptive_fn, ess_decorator in *.
    rewrite shift_length, log_ess_shift by assumption.
    destruct (Nat.eqb n (length l)); [|discriminate]. simpl negb in *. cbv iota in *.
    destruct eltb.
    - eapply Hf; eauto.
    - injection H as <- <- <-. now exists c.
  Qed.
End S.
