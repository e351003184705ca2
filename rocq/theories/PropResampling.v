(** Properties C22-C31 and C51: resampling. *)
From Coq Require Import Reals List Arith ZArith Bool Lia Lra Permutation.
From Coquelicot Require Import Coquelicot.
From Verif Require Import Ext ScanModel ScanProofs DiscreteSpec Sums ResamplingModel ResamplingSpec
  ResamplingProofs SystematicProofs ConditionalProofs KillingProofs ConditionalLaw.
Import ListNotations.
Open Scope R_scope.

(** log weights used to show that the hypotheses below can be met: weights 1/3, 2/3, 0 *)
Definition demo_logits : list ext := [Fin 0; Fin (ln 2); NInf].
Example demo_valid : valid_logits demo_logits.
Proof.
  split.
  - constructor; [right; eauto|]. constructor; [right; eauto|]. constructor; [now left|constructor].
  - apply Exists_cons_hd. eauto.
Qed.
Example demo_weights : wt demo_logits 0 = 1/3 /\ wt demo_logits 1 = 2/3 /\ wt demo_logits 2 = 0.
Proof. unfold wt, demo_logits; simpl. rewrite exp_0, exp_ln by lra. repeat split; field. Qed.

(** C22: inverse_cdf is the generalised inverse CDF on both platforms; the result is sorted, in range,
    and the same on CPU and elsewhere. *)
Theorem C22_inverse_cdf_correct (cpu : bool) (su : list R) (logits : list ext) :
  valid_logits logits -> sorted su ->
  length (inverse_cdf cpu su logits) = length su /\
  (forall n, (n < length su)%nat ->
     inverse_at (length logits) (wt logits) (nth n su 0) (nth n (inverse_cdf cpu su logits) 0%nat)) /\
  sorted_nat (inverse_cdf cpu su logits) /\
  inverse_cdf true su logits = inverse_cdf false su logits.
Proof.
  intros H Hs. destruct (inverse_cdf_spec cpu su logits H Hs) as (A & B).
  split; [exact A|]. split; [exact B|]. split; [now apply inverse_cdf_sorted|now apply inverse_cdf_platform].
Qed.
Print Assumptions C22_inverse_cdf_correct.
(** the specification determines the index *)
Theorem C22_inverse_at_unique N w u i j :
  (forall k, 0 <= w k) -> inverse_at N w u i -> inverse_at N w u j -> i = j.
Proof. exact (inverse_at_unique N w u i j). Qed.
Print Assumptions C22_inverse_at_unique.
Example C22_nontrivial : sorted [1/4; 1/2; 9/10] /\ inverse_cdf true [1/4; 1/2; 9/10] demo_logits = [0;1;1]%nat.
Proof.
  assert (S : sorted [1/4; 1/2; 9/10]).
  { intros a b Hab. simpl in Hab. destruct a as [|[|[|a]]], b as [|[|[|b]]]; simpl; try lra; lia. }
  split; [exact S|]. destruct demo_weights as (W0 & W1 & W2).
  apply inverse_cdf_unique; [apply demo_valid|exact S|reflexivity|].
  intros n Hn. simpl in Hn. unfold inverse_at, cdf.
  destruct n as [|[|[|n]]]; simpl; try lia; rewrite ?W0, ?W1; (split; [lia|]); split;
    try (now left); try (right; lra); left; lra.
Qed.

(** C23: the full claim fails: the uniform generator can return 0, and then systematic resampling
    selects a leading zero-weight particle. *)
Theorem C23_zero_weight_refuted :
  exists (u : R) (logits : list ext) (n : nat),
    0 <= u < 1 /\ valid_logits logits /\ (0 < n)%nat /\
    exists i, In i (fst (fst (systematic_resampling tt true u logits (repeat tt (length logits)) n))) /\
      wt logits i = 0.
Proof.
  exists 0, [NInf; Fin 0], 1%nat. split; [lra|].
  assert (V : valid_logits [NInf; Fin 0]).
  { split; [constructor; [now left|constructor; [right; eauto|constructor]]|]. apply Exists_cons_tl, Exists_cons_hd. eauto. }
  split; [exact V|]. split; [lia|]. exists 0%nat. split.
  - unfold systematic_resampling. cbn [fst].
    rewrite (inverse_cdf_unique true _ _ [0%nat] V); [now left|apply systematic_uniforms_sorted|reflexivity|].
    intros k Hk. rewrite systematic_uniforms_length in Hk. replace k with 0%nat by lia. simpl.
    split; [simpl; lia|]. split; [now left|]. left. unfold cdf, wt. simpl. rewrite exp_0. lra.
  - unfold wt. simpl. rewrite exp_0. field.
Qed.
Print Assumptions C23_zero_weight_refuted.
(** C23, what holds: with draws in the open interval (0,1) no resampler selects a zero-weight particle. *)
Theorem C23_zero_weight_partial (cpu : bool) {X} (dX : X) (logits : list ext) (positions : list X) :
  valid_logits logits ->
  (forall u n, 0 < u < 1 -> (0 < n)%nat ->
     forall i, In i (fst (fst (systematic_resampling dX cpu u logits positions n))) ->
       (i < length logits)%nat /\ 0 < wt logits i) /\
  (forall us perm n, length us = S n -> List.Forall (fun u => 0 < u < 1) us -> Permutation perm (seq 0 n) ->
     forall i, In i (fst (fst (multinomial_resampling dX cpu us perm logits positions n))) ->
       (i < length logits)%nat /\ 0 < wt logits i) /\
  (forall vs us perm, let n := length logits in
     length vs = n -> List.Forall (fun v => 0 < v < 1) vs ->
     length us = S n -> List.Forall (fun u => 0 < u < 1) us -> Permutation perm (seq 0 n) ->
     exists out, killing_resampling dX cpu vs us perm logits positions n = Ok out /\
     forall i, In i (fst (fst out)) -> (i < length logits)%nat /\ 0 < wt logits i).
Proof.
  intros H. split; [|split].
  - intros u n Hu Hn i Hi. unfold systematic_resampling in Hi. cbn [fst] in Hi.
    destruct (inverse_cdf_spec cpu _ logits H (systematic_uniforms_sorted u n)) as (A & B).
    rewrite systematic_uniforms_length in A, B. destruct (In_nth _ _ 0%nat Hi) as (k & Hk & <-).
    specialize (B k ltac:(lia)). split; [apply B|].
    eapply inverse_at_pos; [easy| |exact B]. rewrite systematic_uniforms_nth by lia.
    assert (Hn' : 0 < INR n) by (apply lt_0_INR; lia). pose proof (pos_INR k).
    assert (INR k + 1 <= INR n) by (rewrite <- S_INR; apply le_INR; lia).
    split; [apply Rdiv_lt_0_compat; lra|]. apply Rle_div_l; lra.
  - intros us perm n Hl Hu Hp. apply (multinomial_facts cpu dX us perm logits positions n H Hl Hu Hp).
  - intros vs us perm n Lv Hv Hl Hu Hp. unfold killing_resampling. fold n. rewrite Nat.eqb_refl. simpl negb.
    cbv iota. destruct (multinomial_facts cpu dX us perm logits positions n H Hl Hu Hp) as (M1 & M2).
    destruct (multinomial_resampling dX cpu us perm logits positions n) as [[other lo] pos] eqn:E.
    cbn [fst] in M1, M2. eexists. split; [reflexivity|]. cbn [fst]. intros i Hi.
    destruct (In_nth _ _ 0%nat Hi) as (k & Hk & Ek).
    assert (Lm : length (map2 (fun s vo => killing_index logits (fst vo) s (snd vo)) (seq 0 n) (combine vs other)) = n).
    { rewrite map2_length, seq_length, combine_length. lia. }
    rewrite Lm in Hk.
    assert (Ek' : killing_index logits (nth k vs 0) k (nth k other 0%nat) = i).
    { rewrite <- Ek. rewrite (map2_nth_d _ 0%nat (0, 0%nat)).
      - rewrite seq_nth by lia. rewrite combine_nth by lia. reflexivity.
      - rewrite seq_length; lia.
      - rewrite combine_length; lia. }
    rewrite <- Ek'. unfold killing_index. rewrite survived_iff.
    + destruct (Rle_dec (nth k vs 0) (ratio logits k)) as [D|D].
      * split; [exact Hk|]. assert (V : 0 < nth k vs 0 < 1).
        { rewrite Forall_forall in Hv. apply Hv. apply nth_In. lia. }
        destruct (ratio_wt logits H) as (M & HM & ER). rewrite ER in D.
        unfold wt. apply Rdiv_lt_0_compat; [|now apply valid_sum_pos].
        destruct (uw_nonneg (nth k logits NInf)) as [P|P]; [easy|]. rewrite <- P in D.
        unfold Rdiv in D. rewrite Rmult_0_l in D. lra.
      * apply M2. apply nth_In. lia.
    + exact H.
    + exact Hk.
    + assert (V : 0 < nth k vs 0 < 1); [|lra]. rewrite Forall_forall in Hv. apply Hv. apply nth_In. lia.
Qed.
Print Assumptions C23_zero_weight_partial.
Example C23_nontrivial :
  valid_logits demo_logits /\ List.Forall (fun u => 0 < u < 1) [1/2; 1/3; 1/4; 1/5] /\
  Permutation [2;0;1]%nat (seq 0 3).
Proof.
  split; [apply demo_valid|]. split; [repeat constructor; lra|].
  simpl. apply (Permutation_cons_append [0;1]%nat 2%nat).
Qed.

(** C24: systematic resampling gives each particle floor or ceiling of its expected copies. *)
Theorem C24_systematic_counts (cpu : bool) {X} (dX : X) (u : R) (logits : list ext) (positions : list X) (n i : nat) :
  (0 < n)%nat -> valid_logits logits -> (i < length logits)%nat -> 0 < u < 1 ->
  let idx := fst (fst (systematic_resampling dX cpu u logits positions n)) in
  length idx = n /\ Rabs (INR (copies idx i) - INR n * wt logits i) < 1.
Proof.
  intros Hn H Hi Hu idx. split.
  - unfold idx, systematic_resampling; cbn [fst].
    destruct (inverse_cdf_spec cpu _ logits H (systematic_uniforms_sorted u n)) as (A & _).
    now rewrite A, systematic_uniforms_length.
  - now apply systematic_copies_close.
Qed.
Print Assumptions C24_systematic_counts.

(** C25: averaged over the uniform draw the number of copies is n times the weight. *)
Theorem C25_systematic_unbiased (cpu : bool) {X} (dX : X) (logits : list ext) (positions : list X) (n i : nat) :
  (0 < n)%nat -> valid_logits logits -> (i < length logits)%nat ->
  is_RInt (fun u => INR (copies (fst (fst (systematic_resampling dX cpu u logits positions n))) i)) 0 1
          (INR n * wt logits i).
Proof. exact (systematic_unbiased cpu n logits i). Qed.
Print Assumptions C25_systematic_unbiased.

(** C51: a single uniform pushed through inverse_cdf has exactly the law given by the weights. *)
Theorem C51_inverse_cdf_law (cpu : bool) (logits : list ext) (i : nat) :
  valid_logits logits -> (i < length logits)%nat ->
  is_RInt (fun u => if list_eq_dec Nat.eq_dec (inverse_cdf cpu [u] logits) [i] then 1 else 0) 0 1 (wt logits i).
Proof.
  intros H Hi. apply is_RInt_val with (INR 1 * wt logits i); [|simpl; ring].
  apply is_RInt_ext with (fun u => INR (copies (inverse_cdf cpu (systematic_uniforms u 1) logits) i));
    [|apply systematic_unbiased; [lia|easy|easy]].
  intros u _. assert (E : systematic_uniforms u 1 = [u]).
  { unfold systematic_uniforms. simpl. f_equal. field. }
  rewrite E. destruct (inverse_cdf_spec cpu [u] logits H) as (A & _).
  { intros a b Hab. simpl in Hab. replace a with 0%nat by lia. replace b with 0%nat by lia. lra. }
  destruct (inverse_cdf cpu [u] logits) as [|j [|k r]]; simpl in A; try lia.
  unfold copies. simpl. destruct (list_eq_dec Nat.eq_dec [j] [i]) as [F|F], (Nat.eq_dec j i) as [G|G];
    try reflexivity; exfalso; congruence.
Qed.
Print Assumptions C51_inverse_cdf_law.

(** C26: n different from N raises. *)
Theorem C26_killing_wrong_n (cpu : bool) {X} (dX : X) vs us perm (logits : list ext) (positions : list X) n :
  n <> length logits -> killing_resampling dX cpu vs us perm logits positions n = Err AssertionError.
Proof.
  intros H. unfold killing_resampling. now rewrite (proj2 (Nat.eqb_neq _ _) H).
Qed.
Print Assumptions C26_killing_wrong_n.
(** C26: slot s keeps its own particle iff its uniform is at most w_s / max w, otherwise it takes the
    s-th index of the multinomial resampler run on the same weights; all output log weights are 0 and
    positions follow the indices. *)
Theorem C26_killing_survivors (cpu : bool) {X} (dX : X) vs us perm (logits : list ext) (positions : list X) b :
  let N := length logits in
  valid_logits logits -> length positions = N ->
  length vs = N -> List.Forall (fun v => 0 <= v < 1) vs ->
  length us = S N -> List.Forall (fun u => 0 < u < 1) us -> Permutation perm (seq 0 N) ->
  (b < N)%nat -> (forall j, (j < N)%nat -> wt logits j <= wt logits b) ->
  exists idx pos,
    killing_resampling dX cpu vs us perm logits positions N = Ok (idx, repeat (Fin 0) N, pos) /\
    length idx = N /\ length pos = N /\
    (forall s, (s < N)%nat -> nth s idx 0%nat =
       if Rle_dec (nth s vs 0) (wt logits s / wt logits b) then s
       else nth s (fst (fst (multinomial_resampling dX cpu us perm logits positions N))) 0%nat) /\
    nth b idx 0%nat = b /\
    (forall s, (s < N)%nat -> nth s pos dX = nth (nth s idx 0%nat) positions dX).
Proof.
  intros N H Hpos Lv Hv Hl Hu Hp Hb Hmax. unfold killing_resampling. fold N. rewrite Nat.eqb_refl. simpl negb. cbv iota.
  destruct (multinomial_facts cpu dX us perm logits positions N H Hl Hu Hp) as (M1 & M2).
  destruct (multinomial_resampling dX cpu us perm logits positions N) as [[other lo] pos0] eqn:E. cbn [fst] in *.
  set (idx := map2 _ _ _).
  assert (Li : length idx = N).
  { unfold idx. rewrite map2_length, seq_length, combine_length. lia. }
  assert (Ni : forall s, (s < N)%nat -> nth s idx 0%nat =
     if Rle_dec (nth s vs 0) (wt logits s / wt logits b) then s else nth s other 0%nat).
  { intros s Hs. unfold idx. rewrite (map2_nth_d _ 0%nat (0, 0%nat)).
    - rewrite seq_nth by lia. rewrite combine_nth by lia. cbn [fst snd Nat.add]. unfold killing_index.
      rewrite survived_iff; [|easy|easy|].
      + rewrite (ratio_max logits b s) by easy. destruct (Rle_dec _ _); reflexivity.
      + assert (V : 0 <= nth s vs 0 < 1); [|lra]. rewrite Forall_forall in Hv. apply Hv. apply nth_In. lia.
    - rewrite seq_length; lia.
    - rewrite combine_length; lia. }
  assert (Hwb : 0 < wt logits b).
  { destruct (wt_nonneg logits b H) as [P|P]; [easy|]. exfalso.
    pose proof (wt_sum logits H) as S1. fold N in S1. unfold cdf in S1.
    assert (lsum (wt logits) (seq 0 N) = 0); [|lra].
    refine (eq_trans _ (lsum_zero (seq 0 N))). apply lsum_ext. intros j Hj. apply in_seq in Hj.
    pose proof (wt_nonneg logits j H). specialize (Hmax j ltac:(lia)). lra. }
  assert (Ri : forall s, (s < N)%nat -> (nth s idx 0 < N)%nat).
  { intros s Hs. rewrite Ni by easy. destruct (Rle_dec _ _); [easy|]. apply M2. apply nth_In. lia. }
  exists idx, (apply_resampling_indices dX positions idx). split; [reflexivity|]. split; [exact Li|].
  split; [unfold apply_resampling_indices; now rewrite gather_length|]. split; [exact Ni|]. split.
  - rewrite Ni by easy. destruct (Rle_dec _ _) as [D|D]; [reflexivity|]. elim D.
    assert (V : 0 <= nth b vs 0 < 1). { rewrite Forall_forall in Hv. apply Hv. apply nth_In. lia. }
    unfold Rdiv. rewrite Rinv_r by lra. lra.
  - intros s Hs. unfold apply_resampling_indices. apply gather_nth; [lia|]. rewrite Hpos. auto.
Qed.
Print Assumptions C26_killing_survivors.
(** C26: with the replacement index distributed according to the weights (and independent of the
    survival uniform), the expected number of copies of particle m is N times its weight. *)
Theorem C26_killing_unbiased (logits : list ext) (m : nat) :
  valid_logits logits -> (m < length logits)%nat ->
  exists prob : nat -> R,
    (forall s, (s < length logits)%nat ->
       is_RInt (fun v => lsum (fun o => wt logits o * (if Nat.eq_dec (killing_index logits v s o) m then 1 else 0))
                              (seq 0 (length logits))) 0 1 (prob s)) /\
    lsum prob (seq 0 (length logits)) = INR (length logits) * wt logits m.
Proof.
  intros H Hm. exists (fun s => slot_prob logits s m). split.
  - intros s Hs. now apply killing_expectation.
  - now apply killing_total.
Qed.
Print Assumptions C26_killing_unbiased.
Example C26_nontrivial : forall j, (j < length demo_logits)%nat -> wt demo_logits j <= wt demo_logits 1.
Proof.
  destruct demo_weights as (W0 & W1 & W2). intros j Hj. simpl in Hj.
  destruct j as [|[|[|j]]]; rewrite ?W0, ?W1, ?W2; try lra; lia.
Qed.

(** C27: conditional resampling keeps the pivot, in all three schemes. *)
Theorem C27_conditional_pivot (cpu : bool) {X} (dX : X) (logits : list ext) (positions : list X)
        (n pivot_in pivot_out : nat) :
  valid_logits logits -> length positions = length logits ->
  (pivot_in < n)%nat -> (pivot_out < length logits)%nat ->
  let keeps (out : list nat * list ext * list X) :=
    let '(idx, lo, pos) := out in
    length idx = n /\ length pos = n /\ lo = repeat (Fin 0) n /\
    nth pivot_in idx 0%nat = pivot_out /\ nth pivot_in pos dX = nth pivot_out positions dX /\
    (forall i, In i idx -> (i < length logits)%nat) /\
    (forall k, (k < n)%nat -> nth k pos dX = nth (nth k idx 0%nat) positions dX) in
  (forall us perm, length us = S n -> List.Forall (fun u => 0 < u < 1) us -> Permutation perm (seq 0 n) ->
     keeps (multinomial_conditional dX cpu us perm logits positions n pivot_in pivot_out)) /\
  (forall U V W, 0 <= U < 1 -> 0 <= W < 1 ->
     keeps (systematic_conditional dX cpu U V W logits positions n pivot_in pivot_out)) /\
  (forall vs us perm pivot, n = length logits ->
     length vs = n -> List.Forall (fun v => 0 <= v < 1) vs ->
     length us = S n -> List.Forall (fun u => 0 < u < 1) us -> Permutation perm (seq 0 n) ->
     (pivot < n)%nat ->
     exists out, killing_conditional dX cpu vs us perm pivot logits positions n pivot_in pivot_out = Ok out /\
       keeps out).
Proof.
  intros H Hpos Hin Hout keeps.
  assert (K : forall idx, length idx = n -> nth pivot_in idx 0%nat = pivot_out ->
     (forall i, In i idx -> (i < length logits)%nat) ->
     keeps (idx, repeat (Fin 0) n, apply_resampling_indices dX positions idx)).
  { intros idx Li Ni Ri. unfold keeps, apply_resampling_indices.
    assert (G : forall k, (k < n)%nat ->
       nth k (gather positions idx dX) dX = nth (nth k idx 0%nat) positions dX).
    { intros k Hk. apply gather_nth; [lia|]. rewrite Hpos. apply Ri, nth_In. lia. }
    rewrite gather_length. repeat split; auto. rewrite G by easy. now rewrite Ni. }
  split; [|split].
  - intros us perm Hl Hu Hp.
    destruct (multinomial_facts cpu dX us perm logits positions n H Hl Hu Hp) as (M1 & M2).
    unfold multinomial_conditional.
    destruct (multinomial_resampling dX cpu us perm logits positions n) as [[idx lo] pos0] eqn:E. cbn [fst] in *.
    assert (lo = repeat (Fin 0) n) as -> by (unfold multinomial_resampling in E; now injection E as _ <- _).
    apply K.
    + now rewrite set_at_length.
    + apply set_at_same. lia.
    + intros i Hi. apply set_at_In in Hi. destruct Hi as [->|Hi]; [easy|]. now apply M2.
  - intros U V W HU HW. pose proof (systematic_conditional_facts cpu dX U V W logits positions n pivot_in pivot_out H HU HW Hin Hout) as F.
    unfold systematic_conditional in *. cbv zeta in F. destruct F as (F1 & F2 & F3). now apply K.
  - intros vs us perm pivot Hn Lv Hv Hl Hu Hp Hpv. subst n. unfold killing_conditional, killing_resampling.
    rewrite Nat.eqb_refl. simpl negb. cbv iota.
    destruct (multinomial_facts cpu dX us perm logits positions _ H Hl Hu Hp) as (M1 & M2).
    destruct (multinomial_resampling dX cpu us perm logits positions _) as [[other lo] pos0] eqn:E. cbn [fst] in *.
    set (idx0 := map2 _ _ _).
    assert (Li : length idx0 = length logits).
    { unfold idx0. rewrite map2_length, seq_length, combine_length. lia. }
    assert (Ri : forall i, In i idx0 -> (i < length logits)%nat).
    { intros i Hi. destruct (In_nth _ _ 0%nat Hi) as (k & Hk & <-). rewrite Li in Hk. unfold idx0.
      rewrite (map2_nth_d _ 0%nat (0, 0%nat)); [|rewrite seq_length; lia|rewrite combine_length; lia].
      rewrite seq_nth by lia. rewrite combine_nth by lia. cbn [fst snd Nat.add]. unfold killing_index.
      destruct (survived _ _ _); [easy|]. apply M2. apply nth_In. lia. }
    eexists. split; [reflexivity|]. apply K.
    + now rewrite set_at_length, roll_length.
    + apply set_at_same. rewrite roll_length. lia.
    + intros i Hi. apply set_at_In in Hi. destruct Hi as [->|Hi]; [easy|]. apply roll_In in Hi. auto.
Qed.
Print Assumptions C27_conditional_pivot.

(** C28: the offset of conditional systematic resampling has the exact conditional law (CDF at [a]);
    the slot among the pivot's copies is uniform; and the output is the systematic index array for
    that offset (weights listed from the pivot on), shifted so that the chosen slot lands on pivot_in. *)
Theorem C28_offset_law (cpu : bool) (logits : list ext) (n pivot_out : nat) (a : R) :
  valid_logits logits -> (0 < n)%nat -> (pivot_out < length logits)%nat -> 0 < wt logits pivot_out -> 0 <= a <= 1 ->
  exists (g : R -> R) (p : R),
    (forall V, 0 <= V <= 1 ->
       is_RInt (fun U => if Rle_dec (conditional_offset (INR n * wt logits pivot_out) U V) a then 1 else 0) 0 1 (g V)) /\
    is_RInt g 0 1 p /\
    is_RInt (fun u => INR (copies (inverse_cdf cpu (systematic_uniforms u n) (pivot_first logits pivot_out)) 0)
                      / (INR n * wt logits pivot_out)) 0 a p.
Proof.
  intros H Hn Hp Hw Ha. destruct (pivot_first_facts logits pivot_out H Hp) as (F1 & F2 & F3).
  assert (E : wt (pivot_first logits pivot_out) 0 = wt logits pivot_out).
  { rewrite F3 by lia. now rewrite Nat.add_0_r, Nat.mod_small. }
  rewrite <- E in Hw |- *. now apply conditional_offset_law.
Qed.
Print Assumptions C28_offset_law.
Theorem C28_slot_uniform (c k : nat) : (k < c)%nat ->
  is_RInt (fun W => if Nat.eq_dec (Z.to_nat (Int_part (INR c * W))) k then 1 else 0) 0 1 (/ INR c).
Proof. exact (slot_uniform c k). Qed.
Print Assumptions C28_slot_uniform.
Theorem C28_structure (cpu : bool) {X} (dX : X) U V W logits (positions : list X) n pivot_in pivot_out :
  valid_logits logits -> 0 <= U < 1 -> 0 <= W < 1 -> (pivot_in < n)%nat -> (pivot_out < length logits)%nat ->
  let idx := fst (fst (systematic_conditional dX cpu U V W logits positions n pivot_in pivot_out)) in
  let offset := conditional_offset (INR n * wt logits pivot_out) U V in
  let sys := inverse_cdf cpu (systematic_uniforms offset n) (pivot_first logits pivot_out) in
  let slot := Z.to_nat (Int_part (INR (copies sys 0) * W)) in
  (slot < copies sys 0)%nat /\
  forall j, (j < n)%nat ->
    nth ((pivot_in + j) mod n) idx 0%nat = ((pivot_out + nth ((slot + j) mod n) sys 0) mod length logits)%nat.
Proof. exact (systematic_conditional_structure cpu dX U V W logits positions n pivot_in pivot_out). Qed.
Print Assumptions C28_structure.
Theorem C28_pivot_first_weights logits p : valid_logits logits -> (p < length logits)%nat ->
  valid_logits (pivot_first logits p) /\
  forall j, (j < length logits)%nat -> wt (pivot_first logits p) j = wt logits ((p + j) mod length logits).
Proof. intros H Hp. destruct (pivot_first_facts logits p H Hp) as (A & _ & C). now split. Qed.
Print Assumptions C28_pivot_first_weights.

(** C29: the slot weights of conditional killing are a probability vector and are proportional to the
    probability, under unconditional killing, that the slot's parent is the pivot. *)
Theorem C29_killing_slot_weights (logits : list ext) (pivot_out : nat) :
  valid_logits logits -> (pivot_out < length logits)%nat ->
  exists (pw prob : nat -> R),
    killing_pivot_weights logits (length logits) pivot_out = map (fun s => Fin (pw s)) (seq 0 (length logits)) /\
    (forall s, (s < length logits)%nat -> 0 <= pw s) /\
    lsum pw (seq 0 (length logits)) = 1 /\
    (forall s, (s < length logits)%nat ->
       is_RInt (fun v => lsum (fun o => wt logits o * (if Nat.eq_dec (killing_index logits v s o) pivot_out then 1 else 0))
                              (seq 0 (length logits))) 0 1 (prob s)) /\
    (forall s, (s < length logits)%nat -> prob s = INR (length logits) * wt logits pivot_out * pw s).
Proof.
  intros H Hp. destruct (killing_pivot_law logits pivot_out H Hp) as (pw & A & B & C & D).
  exists pw, (fun s => slot_prob logits s pivot_out). repeat split; auto.
  intros s Hs. now apply killing_expectation.
Qed.
Print Assumptions C29_killing_slot_weights.
(** C29: after the slot is drawn, slot [pivot] of the unconditional indices is overwritten and all slots
    are shifted so that it lands on pivot_in. *)
Theorem C29_structure (cpu : bool) {X} (dX : X) vs us perm pivot logits (positions : list X) pivot_in pivot_out idx0 lo pos :
  let N := length logits in
  killing_resampling dX cpu vs us perm logits positions N = Ok (idx0, lo, pos) -> length idx0 = N ->
  (pivot_in < N)%nat -> (pivot < N)%nat ->
  exists idx pos', killing_conditional dX cpu vs us perm pivot logits positions N pivot_in pivot_out
                   = Ok (idx, repeat (Fin 0) N, pos') /\
    nth pivot_in idx 0%nat = pivot_out /\
    forall j, (0 < j < N)%nat -> nth ((pivot_in + j) mod N) idx 0%nat = nth ((pivot + j) mod N) idx0 0%nat.
Proof.
  intros N E L Hin Hpv. unfold killing_conditional. fold N. rewrite E.
  eexists _, _. split; [reflexivity|]. split; [apply set_at_same; rewrite roll_length; lia|].
  intros j Hj. rewrite set_at_other.
  - rewrite roll_nth by (rewrite L; apply Nat.mod_upper_bound; lia). rewrite L. f_equal.
    rewrite <- (Nat2Z.id ((pivot + j) mod N)). f_equal. rewrite !Nat2Z.inj_mod, Zminus_mod_idemp_l. f_equal. lia.
  - intros F. pose proof (Nat.div_mod (pivot_in + j) N ltac:(lia)) as D. rewrite <- F in D.
    assert (j = (N * ((pivot_in + j) / N))%nat) by lia. destruct ((pivot_in + j) / N)%nat; [lia|]. nia.
Qed.
Print Assumptions C29_structure.

(** C30: effective sample size. *)
Theorem C30_ess (logits : list ext) :
  valid_logits logits ->
  exists e, ess logits = Fin e /\ log_ess logits = Fin (ln e) /\
    e = (lsum (wt logits) (seq 0 (length logits))) ^ 2 / lsum (fun i => wt logits i ^ 2) (seq 0 (length logits)) /\
    1 <= e <= INR (length logits) /\
    (e = INR (length logits) <-> forall i j, (i < length logits)%nat -> (j < length logits)%nat -> wt logits i = wt logits j) /\
    (e = 1 <-> exists i, (i < length logits)%nat /\ wt logits i = 1) /\
    (forall c, ess (map (fun l => eadd l (Fin c)) logits) = Fin e).
Proof.
  intros H. exists (ess_spec (map uw logits)). split; [now apply ess_eq|]. split; [now apply log_ess_eq|].
  split; [|split; [now apply ess_bounds|split; [now apply ess_max_iff|split; [now apply ess_one_iff|]]]].
  - pose proof (valid_sum_pos logits H) as HS. pose proof (sumsq_pos logits H) as HQ.
    unfold ess_spec, wt. rewrite lsum_div, !lsum_map.
    rewrite (lsum_ext (fun i => (uw (nth i logits NInf) / lsum uw logits) ^ 2)
                      (fun i => uw (nth i logits NInf) ^ 2 / (lsum uw logits ^ 2))) by (intros; field; lra).
    rewrite lsum_div, <- (lsum_nth_seq uw), <- (lsum_nth_seq (fun e => uw e ^ 2)).
    change (lsum (fun a => uw a) logits) with (lsum uw logits).
    set (A := lsum uw logits) in *. set (B := lsum (fun e => uw e ^ 2) logits) in *. field. lra.
  - intros c. rewrite ess_shift by easy. now apply ess_eq.
Qed.
Print Assumptions C30_ess.
Example C30_nontrivial : exists e, ess demo_logits = Fin e /\ 1 < e < 3.
Proof.
  destruct (C30_ess demo_logits demo_valid) as (e & E & _ & F & _). exists e. split; [easy|].
  destruct demo_weights as (W0 & W1 & W2). simpl in F. rewrite W0, W1, W2 in F. rewrite F. split; lra.
Qed.

(** C31: adaptive resampling. *)
Theorem C31_adaptive_resampling {X Key}
        (func : Key -> list ext -> list X -> nat -> result (list nat * list ext * list X))
        (threshold : R) (key : Key) (logits : list ext) (positions : list X) (n : nat) :
  (n <> length logits -> ess_decorator func threshold key logits positions n = Err AssertionError) /\
  (n = length logits -> valid_logits logits -> 0 < threshold ->
   exists e, ess logits = Fin e /\
     (e < threshold * INR n ->
        ess_decorator func threshold key logits positions n = func key logits positions n) /\
     (threshold * INR n <= e ->
        ess_decorator func threshold key logits positions n = Ok (seq 0 n, logits, positions))).
Proof.
  split.
  - intros H. unfold ess_decorator. now rewrite (proj2 (Nat.eqb_neq _ _) H).
  - intros -> H Ht. exists (ess_spec (map uw logits)). split; [now apply ess_eq|].
    unfold ess_decorator. rewrite Nat.eqb_refl. simpl negb. cbv iota. rewrite adaptive_test by easy.
    destruct (Rlt_dec _ _) as [A|A]; split; intros; try reflexivity; lra.
Qed.
Print Assumptions C31_adaptive_resampling.
