(** Property C68: multinomial resampling draws from the weights. *)
From Coq Require Import Reals List Arith Bool Lia Lra Permutation.
From Coquelicot Require Import Coquelicot.
From Verif Require Import Ext DiscreteSpec Sums ResamplingModel ResamplingSpec ResamplingProofs
  ConditionalProofs SystematicProofs ConditionalLaw IterSpec Iter Spacings MultinomialLaw PropResampling.
Import ListNotations.
Open Scope R_scope.

(** the indices returned by multinomial resampling *)
Definition indices (cpu : bool) (us : list R) (perm : list nat) (logits : list ext) (n : nat) : list nat :=
  fst (fst (multinomial_resampling tt cpu us perm logits (repeat tt (length logits)) n)).
(** they do not depend on the particles *)
Theorem C68_indices {X} (dX : X) cpu us perm logits positions n :
  fst (fst (multinomial_resampling dX cpu us perm logits positions n)) = indices cpu us perm logits n.
Proof. reflexivity. Qed.
Print Assumptions C68_indices.

Lemma indices_perm cpu us perm l n : valid_logits l -> length us = S n -> inside us -> Permutation perm (seq 0 n) ->
  indices cpu us perm l n = map (si cpu l us) perm /\ Permutation (indices cpu us perm l n) (map (si cpu l us) (seq 0 n)).
Proof.
  intros V L I P. assert (E : indices cpu us perm l n = map (si cpu l us) perm) by reflexivity.
  split; [exact E|]. rewrite E. now apply Permutation_map.
Qed.

(** C68: with n+1 independent uniform draws and any permutation, the number of indices that are at most [i] is
    distributed as the number of [n] independent uniforms that are at most w_0 + ... + w_i (binomial). *)
Theorem C68_binomial (cpu : bool) (perm : list nat) (logits : list ext) (n i j : nat) :
  valid_logits logits -> (i < length logits)%nat -> Permutation perm (seq 0 n) ->
  let F us := at_least j (count_le i (indices cpu us perm logits n)) in
  igood (S n) F /\
  imean (S n) F = imean n (fun vs => at_least j (below (cdf (wt logits) (S i)) vs)) /\
  imean (S n) F = tail (cdf (wt logits) (S i)) n j.
Proof.
  intros V Hi P F. destruct (count_law cpu logits V n i j Hi) as (A & B).
  assert (E : forall us, length us = S n -> inside us -> at_least j (count_le i (map (si cpu logits us) (seq 0 n))) = F us).
  { intros us L I. unfold F. f_equal. symmetry. apply (count_le_perm logits). now apply indices_perm. }
  destruct (below_law (cdf (wt logits) (S i)) (cdf_range logits (S i) V ltac:(lia)) n j) as (_ & C).
  split; [apply igood_ext with (1 := E), A|]. rewrite <- (imean_ext _ _ _ E), B, C. now split.
Qed.
Print Assumptions C68_binomial.

(** C68: particle [i] is copied n w_i times on average, and the average of any function over the resampled particles
    estimates its weighted average without bias. *)
Theorem C68_unbiased (cpu : bool) (perm : list nat) (logits : list ext) (n : nat) (f : nat -> R) :
  valid_logits logits -> Permutation perm (seq 0 n) ->
  let F us := lsum f (indices cpu us perm logits n) in
  igood (S n) F /\ imean (S n) F = INR n * lsum (fun i => wt logits i * f i) (seq 0 (length logits)).
Proof.
  intros V P F. destruct (si_sum cpu logits V n f) as (A & B).
  assert (E : forall us, length us = S n -> inside us -> lsum (fun j => f (si cpu logits us j)) (seq 0 n) = F us).
  { intros us L I. unfold F. destruct (indices_perm cpu us perm logits n V L I P) as (_ & Q).
    rewrite (lsum_perm f _ _ Q). now rewrite lsum_map. }
  split; [apply igood_ext with (1 := E), A|]. now rewrite <- (imean_ext _ _ _ E), B.
Qed.
Print Assumptions C68_unbiased.
Theorem C68_expected_copies (cpu : bool) (perm : list nat) (logits : list ext) (n i : nat) :
  valid_logits logits -> (i < length logits)%nat -> Permutation perm (seq 0 n) ->
  let F us := INR (copies (indices cpu us perm logits n) i) in
  igood (S n) F /\ imean (S n) F = INR n * wt logits i.
Proof.
  intros V Hi P F. destruct (C68_unbiased cpu perm logits n (fun k => if Nat.eq_dec k i then 1 else 0) V P) as (A & B).
  assert (E : forall us, length us = S n -> inside us -> lsum (fun k => if Nat.eq_dec k i then 1 else 0) (indices cpu us perm logits n) = F us).
  { intros us _ _. unfold F, copies. generalize (indices cpu us perm logits n). intros idx. induction idx as [|a idx IH]; [reflexivity|].
    cbn [lsum count_occ]. rewrite IH. destruct (Nat.eq_dec a i); [rewrite S_INR|]; ring. }
  split; [apply igood_ext with (1 := E), A|]. rewrite <- (imean_ext _ _ _ E), B. f_equal.
  rewrite <- (lsum_seq_delta (wt logits) (length logits) i Hi). apply lsum_ext. intros k _.
  destruct (Nat.eq_dec k i), (Nat.eqb_spec i k); try congruence; ring.
Qed.
Print Assumptions C68_expected_copies.

(** C68: with a uniformly random permutation every single slot of the result is drawn from the weights. *)
Theorem C68_slot (cpu : bool) (logits : list ext) (n s : nat) (f : nat -> R) :
  valid_logits logits -> (s < n)%nat ->
  (forall perm, Permutation perm (seq 0 n) -> igood (S n) (fun us => f (nth s (indices cpu us perm logits n) 0%nat))) /\
  perm_mean n (fun perm => imean (S n) (fun us => f (nth s (indices cpu us perm logits n) 0%nat)))
  = lsum (fun i => wt logits i * f i) (seq 0 (length logits)).
Proof.
  intros V Hs.
  assert (E : forall perm us, Permutation perm (seq 0 n) -> length us = S n -> inside us ->
    nth s (indices cpu us perm logits n) 0%nat = si cpu logits us (nth s perm 0%nat)).
  { intros p us P L I. destruct (indices_perm cpu us p logits n V L I P) as (E & _). rewrite E.
    rewrite (nth_indep _ 0%nat (si cpu logits us 0)) by (rewrite map_length, (Permutation_length P), seq_length; exact Hs).
    apply map_nth. }
  split.
  - intros p P. assert (Hp : (nth s p 0 < n)%nat).
    { assert (H : In (nth s p 0%nat) (seq 0 n)); [|apply in_seq in H; lia].
      apply (Permutation_in _ P). apply nth_In. rewrite (Permutation_length P), seq_length. exact Hs. }
    apply igood_ext with (2 := proj1 (si_mean cpu logits V n (nth s p 0%nat) f Hp)).
    intros us L I. now rewrite E.
  - rewrite (perm_mean_ext n _ (fun perm => (fun j => imean (S n) (fun us => f (si cpu logits us j))) (nth s perm 0%nat))).
    + rewrite (perm_mean_slot n s (fun j => imean (S n) (fun us => f (si cpu logits us j))) Hs). destruct (si_sum cpu logits V n f) as (_ & B).
      destruct (imean_lsum (S n) (seq 0 n) (fun _ => 1) (fun j us => f (si cpu logits us j))) as (_ & C).
      { intros j Hj. apply in_seq in Hj. now apply si_mean. }
      rewrite (imean_ext _ _ (fun us => lsum (fun j => f (si cpu logits us j)) (seq 0 n))) in C
        by (intros; apply lsum_ext; intros; ring).
      rewrite B in C. rewrite (lsum_ext _ (fun j => 1 * imean (S n) (fun us => f (si cpu logits us j)))) by (intros; ring).
      rewrite <- C. field. apply not_0_INR. lia.
    + intros p P. apply imean_ext. intros us L I. now rewrite E.
Qed.
Print Assumptions C68_slot.
(** the permutations averaged over are all n! permutations *)
Theorem C68_permutations n p : In p (perms (seq 0 n)) <-> Permutation p (seq 0 n).
Proof. split; [apply perms_perm|apply perms_complete]. Qed.
Print Assumptions C68_permutations.
Theorem C68_permutation_count n : length (perms (seq 0 n)) = fact n.
Proof. now rewrite perms_count, seq_length. Qed.
Print Assumptions C68_permutation_count.

(** a case: with weights 1/3, 2/3, 0 both of two indices are 0 with probability 1/9 *)
Example C68_hypotheses_met : valid_logits demo_logits /\ Permutation [1;0]%nat (seq 0 2) /\
  imean 3 (fun us => at_least 2 (count_le 0 (indices true us [1;0]%nat demo_logits 2))) = 1/9.
Proof.
  assert (P : Permutation [1;0]%nat (seq 0 2)) by apply perm_swap.
  split; [apply demo_valid|]. split; [exact P|].
  destruct (C68_binomial true [1;0]%nat demo_logits 2 0 2 demo_valid ltac:(simpl; lia) P) as (_ & _ & E).
  rewrite E. unfold cdf. cbn [seq lsum tail]. destruct demo_weights as (-> & _). lra.
Qed.
