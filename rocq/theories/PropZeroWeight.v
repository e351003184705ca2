(** C23: exactly when a particle of weight zero is selected. *)
From Coq Require Import Reals List Arith ZArith Bool Lia Lra Permutation.
From Coquelicot Require Import Coquelicot.
From Verif Require Import Ext ScanModel ScanProofs DiscreteSpec Sums ResamplingModel ResamplingSpec
  ResamplingProofs SystematicProofs ConditionalProofs KillingProofs ConditionalLaw PropResampling.
Import ListNotations.
Open Scope R_scope.

(** systematic resampling: only the first particle, only in the first slot, and only for the draw 0 *)
Theorem C23_systematic_exact (cpu : bool) {X} (dX : X) (u : R) (logits : list ext) (positions : list X) (n k : nat) :
  valid_logits logits -> 0 <= u < 1 -> (k < n)%nat ->
  let idx := fst (fst (systematic_resampling dX cpu u logits positions n)) in
  wt logits (nth k idx 0%nat) = 0 <-> (u = 0 /\ k = 0%nat /\ wt logits 0 = 0).
Proof.
  intros H Hu Hk idx. unfold idx, systematic_resampling. cbn [fst].
  destruct (inverse_cdf_spec cpu _ logits H (systematic_uniforms_sorted u n)) as (A & B).
  rewrite systematic_uniforms_length in A, B. specialize (B k Hk).
  rewrite systematic_uniforms_nth in B by lia.
  assert (Hn : 0 < INR n) by (apply lt_0_INR; lia). pose proof (pos_INR k).
  assert (INR k + 1 <= INR n) by (rewrite <- S_INR; apply le_INR; lia).
  set (i := nth k _ 0%nat) in *.
  split.
  - intro W. destruct (Req_dec (u + INR k) 0) as [Z|Z].
    + assert (u = 0) by lra. assert (K : INR k = 0) by lra.
      assert (k = 0%nat) by (apply INR_eq; simpl; lra). repeat split; auto.
      replace 0%nat with i; [exact W|]. destruct B as (_ & [E|E] & _); [exact E|exfalso].
      assert ((INR k + u) / INR n = 0) by (rewrite K; replace (0 + u) with 0 by lra; unfold Rdiv; apply Rmult_0_l).
      assert (0 <= cdf (wt logits) i) by (rewrite <- (cdf_0 (wt logits)); apply cdf_mono; [intro j; now apply wt_nonneg|lia]).
      lra.
    + assert (P : 0 < wt logits i); [|lra]. eapply inverse_at_pos; [exact H| |exact B].
      split; [apply Rdiv_lt_0_compat; lra|]. apply Rle_div_l; lra.
  - intros (-> & -> & W). replace i with 0%nat; [exact W|].
    destruct B as (_ & [E|E] & _); [easy|exfalso].
    assert ((INR 0 + 0) / INR n = 0) by (simpl; unfold Rdiv; ring).
    assert (0 <= cdf (wt logits) i) by (rewrite <- (cdf_0 (wt logits)); apply cdf_mono; [intro j; now apply wt_nonneg|lia]). lra.
Qed.
Print Assumptions C23_systematic_exact.

(** killing: exactly the particles of weight zero whose survival draw is 0, in their own slots *)
Theorem C23_killing_exact (cpu : bool) {X} (dX : X) (logits : list ext) (positions : list X) vs us perm (k : nat) :
  let n := length logits in
  valid_logits logits -> length vs = n -> List.Forall (fun v => 0 <= v < 1) vs ->
  length us = S n -> List.Forall (fun u => 0 < u < 1) us -> Permutation perm (seq 0 n) -> (k < n)%nat ->
  exists idx lw pos, killing_resampling dX cpu vs us perm logits positions n = Ok (idx, lw, pos) /\ length idx = n /\
    (wt logits (nth k idx 0%nat) = 0 <-> (wt logits k = 0 /\ nth k vs 0 = 0)).
Proof.
  intros n H Lv Hv Hl Hu Hp Hk. unfold killing_resampling. fold n. rewrite Nat.eqb_refl. simpl negb. cbv iota.
  destruct (multinomial_facts cpu dX us perm logits positions n H Hl Hu Hp) as (M1 & M2).
  destruct (multinomial_resampling dX cpu us perm logits positions n) as [[other lo] pos] eqn:E.
  cbn [fst] in M1, M2. do 3 eexists. split; [reflexivity|].
  assert (Lm : length (map2 (fun s vo => killing_index logits (fst vo) s (snd vo)) (seq 0 n) (combine vs other)) = n).
  { rewrite map2_length, seq_length, combine_length. lia. }
  split; [exact Lm|].
  rewrite (map2_nth_d _ 0%nat (0, 0%nat)); [|rewrite seq_length; lia|rewrite combine_length; lia].
  rewrite seq_nth by lia. rewrite combine_nth by lia. cbn [fst snd plus].
  assert (V : 0 <= nth k vs 0 < 1) by (rewrite Forall_forall in Hv; apply Hv, nth_In; lia).
  rewrite Nat.add_0_l. unfold killing_index. rewrite survived_iff; [|exact H|exact Hk|lra].
  destruct (ratio_wt logits H) as (M & HM & ER).
  assert (WE : wt logits k = 0 <-> ratio logits k = 0).
  { rewrite ER. unfold wt. assert (Z := valid_sum_pos logits H).
    unfold Rdiv. split; intro e; apply Rmult_integral in e; destruct e as [e|e]; try (rewrite e; ring);
      apply Rinv_neq_0_compat in e; try lra; contradiction. }
  destruct (Rle_dec (nth k vs 0) (ratio logits k)) as [D|D].
  - cbv iota; rewrite ?Nat.add_0_l. split; [|tauto]. intro W. split; [exact W|]. apply WE in W. lra.
  - cbv iota; split.
    + intro W. exfalso. assert (P : 0 < wt logits (nth k other 0%nat)) by (apply M2, nth_In; lia). lra.
    + intros (W & Z). apply WE in W. exfalso; apply D; rewrite W, Z; lra.
Qed.
Print Assumptions C23_killing_exact.
(** both sides occur: two particles, the first of weight zero, the survival draws 0 and 1/2 *)
Example C23_exact_case :
  valid_logits [NInf; Fin 0] /\ wt [NInf; Fin 0] 0 = 0 /\ 0 < wt [NInf; Fin 0] 1 /\
  List.Forall (fun v => 0 <= v < 1) [0; 1/2] /\ List.Forall (fun u => 0 < u < 1) [1/2; 1/3; 1/4] /\ Permutation [1;0]%nat (seq 0 2).
Proof.
  split; [split; [constructor; [now left|constructor; [right; eauto|constructor]]|apply Exists_cons_tl, Exists_cons_hd; eauto]|].
  unfold wt; simpl; rewrite exp_0. repeat split; try lra; repeat constructor; lra.
Qed.
