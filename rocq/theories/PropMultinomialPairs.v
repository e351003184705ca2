(** Property C68, second part: two slots of multinomial resampling are independent draws from the weights. *)
From Coq Require Import Reals List Arith Bool Lia Lra Permutation FunctionalExtensionality.
From Coquelicot Require Import Coquelicot.
From Verif Require Import Ext DiscreteSpec Sums ResamplingModel ResamplingSpec ResamplingProofs
  ConditionalProofs SystematicProofs ConditionalLaw IterSpec Iter Spacings MultinomialLaw SpacingPairs MultinomialPairs
  PropResampling PropMultinomial.
Import ListNotations.
Open Scope R_scope.

Lemma slot_index cpu l n perm us s : valid_logits l -> Permutation perm (seq 0 n) -> length us = S n -> inside us -> (s < n)%nat ->
  nth s (indices cpu us perm l n) 0%nat = si cpu l us (nth s perm 0%nat) /\ (nth s perm 0 < n)%nat.
Proof.
  intros V P L I Hs. destruct (indices_perm cpu us perm l n V L I P) as (E & _). rewrite E. split.
  - rewrite (nth_indep _ 0%nat (si cpu l us 0)) by (rewrite map_length, (Permutation_length P), seq_length; exact Hs). apply map_nth.
  - assert (H : In (nth s perm 0%nat) (seq 0 n)); [|apply in_seq in H; lia].
    apply (Permutation_in _ P). apply nth_In. rewrite (Permutation_length P), seq_length. exact Hs.
Qed.
Lemma perm_slot_neq n perm s t : Permutation perm (seq 0 n) -> (s < n)%nat -> (t < n)%nat -> s <> t -> nth s perm 0%nat <> nth t perm 0%nat.
Proof.
  intros P Hs Ht H E. apply H. assert (L : length perm = n) by (rewrite (Permutation_length P); apply seq_length).
  apply (proj1 (NoDup_nth perm 0%nat)); try lia; auto. apply (Permutation_NoDup (Permutation_sym P)). apply seq_NoDup.
Qed.

(** C68: with a uniformly random permutation, two different slots of the result are independent draws from the weights. *)
Theorem C68_two_slots (cpu : bool) (logits : list ext) (n s t : nat) (f : nat -> nat -> R) :
  valid_logits logits -> (s < n)%nat -> (t < n)%nat -> s <> t ->
  let F perm us := f (nth s (indices cpu us perm logits n) 0%nat) (nth t (indices cpu us perm logits n) 0%nat) in
  (forall perm, Permutation perm (seq 0 n) -> igood (S n) (F perm)) /\
  perm_mean n (fun perm => imean (S n) (F perm))
  = lsum (fun i => lsum (fun k => wt logits i * wt logits k * f i k) (seq 0 (length logits))) (seq 0 (length logits)).
Proof.
  intros V Hs Ht H F. destruct (pair_sum cpu logits V n f) as (A & B).
  assert (E : forall perm us, Permutation perm (seq 0 n) -> length us = S n -> inside us ->
    f (si cpu logits us (nth s perm 0%nat)) (si cpu logits us (nth t perm 0%nat)) = F perm us).
  { intros p us P L I. unfold F. destruct (slot_index cpu logits n p us s V P L I Hs) as (-> & _).
    destruct (slot_index cpu logits n p us t V P L I Ht) as (-> & _). reflexivity. }
  assert (R : forall p q, Permutation p (seq 0 n) -> (q < n)%nat -> (nth q p 0 < n)%nat).
  { intros p q P Hq. assert (In (nth q p 0%nat) (seq 0 n)) as HH; [|apply in_seq in HH; lia].
    apply (Permutation_in _ P). apply nth_In. rewrite (Permutation_length P), seq_length. exact Hq. }
  split.
  - intros p P. apply igood_ext with (1 := fun us => E p us P). apply A; auto. now apply (perm_slot_neq n).
  - rewrite (perm_mean_ext n _ (fun perm => (fun a b => imean (S n) (fun us => f (si cpu logits us a) (si cpu logits us b))) (nth s perm 0%nat) (nth t perm 0%nat))).
    + rewrite (perm_mean_two n s t (fun a b => imean (S n) (fun us => f (si cpu logits us a) (si cpu logits us b))) Hs Ht H), B.
      assert (1 < INR n) by (apply (lt_INR 1); lia). field. lra.
    + intros p P. symmetry. apply imean_ext. intros us. now apply E.
Qed.
Print Assumptions C68_two_slots.

(** C68: the exact mean square of a sum over the resampled particles, for every permutation. *)
Lemma square_offsum (g : nat -> R) n : lsum g (seq 0 n) * lsum g (seq 0 n) = lsum (fun j => g j * g j) (seq 0 n) + offsum n (fun j k => g j * g k).
Proof.
  rewrite offsum_full. unfold sq.
  rewrite (lsum_ext (fun p => lsum (fun i => g p * g i) (seq 0 n)) (fun p => g p * lsum g (seq 0 n))) by (intros; apply lsum_scal).
  rewrite lsum_scal_r. ring.
Qed.
Lemma imean_offsum k n (f : nat -> nat -> list R -> R) : (forall a b, (a < n)%nat -> (b < n)%nat -> a <> b -> igood k (f a b)) ->
  igood k (fun us => offsum n (fun a b => f a b us)) /\ imean k (fun us => offsum n (fun a b => f a b us)) = offsum n (fun a b => imean k (f a b)).
Proof.
  intros H.
  set (g := fun a b us => if (a =? b)%nat then 0 else f a b us).
  assert (Hg : forall a b, (a < n)%nat -> (b < n)%nat -> igood k (g a b)).
  { intros a b Ha Hb. unfold g. destruct (Nat.eqb_spec a b); [apply imean_const|now apply H]. }
  assert (In1 : forall a, (a < n)%nat -> igood k (fun us => lsum (fun b => 1 * g a b us) (seq 0 n)) /\
     imean k (fun us => lsum (fun b => 1 * g a b us) (seq 0 n)) = lsum (fun b => 1 * imean k (g a b)) (seq 0 n)).
  { intros a Ha. apply (imean_lsum k (seq 0 n) (fun _ => 1) (fun b us => g a b us)). intros b Hb. apply in_seq in Hb. apply Hg; lia. }
  destruct (imean_lsum k (seq 0 n) (fun _ => 1) (fun a us => lsum (fun b => 1 * g a b us) (seq 0 n))) as (A & B).
  { intros a Ha. apply in_seq in Ha. apply In1. lia. }
  assert (E : forall us : list R, length us = k -> inside us ->
     lsum (fun a => 1 * lsum (fun b => 1 * g a b us) (seq 0 n)) (seq 0 n) = offsum n (fun a b => f a b us)).
  { intros us _ _. unfold offsum. apply lsum_ext. intros a _. rewrite Rmult_1_l. apply lsum_ext. intros b _. unfold g. rewrite Rmult_1_l. reflexivity. }
  split; [apply igood_ext with (1 := E), A|]. rewrite <- (imean_ext _ _ _ E), B. unfold offsum. apply lsum_seq_ext. intros a Ha.
  rewrite Rmult_1_l, (proj2 (In1 a Ha)). apply lsum_ext. intros b _. rewrite Rmult_1_l. unfold g. destruct (a =? b)%nat; [apply imean_const|reflexivity].
Qed.
Theorem C68_mean_square (cpu : bool) (perm : list nat) (logits : list ext) (n : nat) (f : nat -> R) :
  valid_logits logits -> Permutation perm (seq 0 n) -> (0 < n)%nat ->
  let average us := lsum f (indices cpu us perm logits n) / INR n in
  let m := lsum (fun i => wt logits i * f i) (seq 0 (length logits)) in
  let error us := (average us - m) * (average us - m) in
  igood (S n) error /\
  imean (S n) error = (lsum (fun i => wt logits i * (f i * f i)) (seq 0 (length logits)) - m * m) / INR n.
Proof.
  intros V P Hn average m error. pose proof (lt_0_INR n Hn) as PN.
  destruct (si_sum cpu logits V n f) as (A1 & B1). destruct (si_sum cpu logits V n (fun i => f i * f i)) as (A2 & B2).
  destruct (pair_sum cpu logits V n (fun i k => f i * f k)) as (A3 & B3).
  destruct (imean_offsum (S n) n (fun j k us => f (si cpu logits us j) * f (si cpu logits us k)) A3) as (A4 & B4). rewrite B3 in B4. clear A3 B3.
  assert (Sq : lsum (fun a => lsum (fun b => wt logits a * wt logits b * (f a * f b)) (seq 0 (length logits))) (seq 0 (length logits)) = m * m).
  { unfold m at 1. rewrite <- lsum_scal_r. apply lsum_ext. intros a _. unfold m. rewrite <- lsum_scal. apply lsum_ext. intros b _. ring. }
  rewrite Sq in B4.
  destruct (imean_lin (S n) _ _ (/ (INR n * INR n)) (/ (INR n * INR n)) A2 A4) as (A5 & B5).
  destruct (imean_lin (S n) _ (fun _ => 1) (- 2 * m / INR n) (m * m) A1 (proj1 (imean_const (S n) 1))) as (A6 & B6).
  destruct (imean_lin (S n) _ _ 1 1 A5 A6) as (A7 & B7).
  match type of A7 with igood _ ?g => assert (E : forall us, length us = S n -> inside us -> g us = error us) end.
  { intros us L I. cbv beta. unfold error, average. destruct (indices_perm cpu us perm logits n V L I P) as (_ & Q).
    rewrite (lsum_perm f _ _ Q), lsum_map. set (a := lsum (fun j => f (si cpu logits us j)) (seq 0 n)).
    pose proof (square_offsum (fun j => f (si cpu logits us j)) n) as S. cbv beta in S. fold a in S.
    set (o := offsum n (fun j k => f (si cpu logits us j) * f (si cpu logits us k))) in *.
    replace o with (a * a - lsum (fun j => f (si cpu logits us j) * f (si cpu logits us j)) (seq 0 n)) by lra. field. lra. }
  split; [apply igood_ext with (1 := E), A7|]. rewrite <- (imean_ext _ _ _ E), B7, B5, B6, B1, B2, B4, (proj2 (imean_const (S n) 1)).
  fold m. field. lra.
Qed.
Print Assumptions C68_mean_square.

(** C68: variance and covariance of the numbers of copies *)
Theorem C68_copies_covariance (cpu : bool) (perm : list nat) (logits : list ext) (n i k : nat) :
  valid_logits logits -> Permutation perm (seq 0 n) -> (i < length logits)%nat -> (k < length logits)%nat ->
  let F us := INR (copies (indices cpu us perm logits n) i) * INR (copies (indices cpu us perm logits n) k) in
  igood (S n) F /\
  imean (S n) F - (INR n * wt logits i) * (INR n * wt logits k)
  = INR n * wt logits i * ((if (i =? k)%nat then 1 else 0) - wt logits k).
Proof.
  intros V P Hi Hk F. set (d := fun a b => if Nat.eq_dec b a then 1 else 0).
  assert (Cp : forall idx a, INR (copies idx a) = lsum (d a) idx).
  { intros idx a. unfold copies, d. induction idx as [|b idx IH]; [reflexivity|]. cbn [lsum count_occ]. rewrite <- IH.
    destruct (Nat.eq_dec b a); [rewrite S_INR|]; ring. }
  assert (Dl : forall (g : nat -> R) a, (a < length logits)%nat -> lsum (fun b => g b * d a b) (seq 0 (length logits)) = g a).
  { intros g a Ha. rewrite <- (lsum_seq_delta g (length logits) a Ha). apply lsum_ext. intros b _. unfold d.
    destruct (Nat.eq_dec b a), (Nat.eqb_spec a b); try congruence; ring. }
  destruct (si_sum cpu logits V n (fun j => d i j * d k j)) as (A2 & B2).
  destruct (pair_sum cpu logits V n (fun a b => d i a * d k b)) as (A3 & B3).
  destruct (imean_offsum (S n) n (fun j q us => d i (si cpu logits us j) * d k (si cpu logits us q)) A3) as (A4 & B4). rewrite B3 in B4. clear A3 B3.
  assert (Sq : lsum (fun a => lsum (fun b => wt logits a * wt logits b * (d i a * d k b)) (seq 0 (length logits))) (seq 0 (length logits)) = wt logits i * wt logits k).
  { rewrite (lsum_ext _ (fun a => (wt logits a * wt logits k) * d i a)).
    - rewrite (Dl (fun a => wt logits a * wt logits k)) by exact Hi. reflexivity.
    - intros a _. rewrite <- (Dl (fun b => wt logits b) k Hk) at 1. rewrite <- lsum_scal, <- lsum_scal_r. apply lsum_ext. intros b _. ring. }
  rewrite Sq in B4.
  assert (Di : lsum (fun j => wt logits j * (d i j * d k j)) (seq 0 (length logits)) = wt logits i * (if (i =? k)%nat then 1 else 0)).
  { rewrite (lsum_ext _ (fun j => (wt logits j * d k j) * d i j)) by (intros; ring). rewrite (Dl (fun j => wt logits j * d k j)) by exact Hi.
    f_equal. unfold d. destruct (Nat.eq_dec i k), (Nat.eqb_spec i k); congruence. }
  rewrite Di in B2.
  destruct (imean_lin (S n) _ _ 1 1 A2 A4) as (A5 & B5).
  match type of A5 with igood _ ?g => assert (E : forall us, length us = S n -> inside us -> g us = F us) end.
  { intros us L I. cbv beta. unfold F. destruct (indices_perm cpu us perm logits n V L I P) as (_ & Q).
    rewrite !Cp, !(lsum_perm _ _ _ Q), !lsum_map. rewrite offsum_full. unfold sq.
    rewrite (lsum_ext (fun p => lsum (fun i0 => d i (si cpu logits us p) * d k (si cpu logits us i0)) (seq 0 n))
       (fun p => d i (si cpu logits us p) * lsum (fun q => d k (si cpu logits us q)) (seq 0 n))) by (intros; apply lsum_scal).
    rewrite lsum_scal_r. ring. }
  split; [apply igood_ext with (1 := E), A5|]. rewrite <- (imean_ext _ _ _ E), B5, B2, B4. ring.
Qed.
Print Assumptions C68_copies_covariance.

(** a case: weights 1/3, 2/3, 0 and four indices *)
Example C68_pairs_case : valid_logits demo_logits /\ Permutation [2;0;3;1]%nat (seq 0 4) /\
  imean 5 (fun us => INR (copies (indices true us [2;0;3;1]%nat demo_logits 4) 0) * INR (copies (indices true us [2;0;3;1]%nat demo_logits 4) 1)) = 8/3 /\
  perm_mean 4 (fun p => imean 5 (fun us => if Nat.eq_dec (nth 3 (indices true us p demo_logits 4) 0%nat) (nth 1 (indices true us p demo_logits 4) 0%nat) then 1 else 0)) = 5/9.
Proof.
  assert (P : Permutation [2;0;3;1]%nat (seq 0 4)).
  { change (seq 0 4) with ([0;1] ++ 2 :: [3])%nat. apply Permutation_cons_app. simpl. constructor. apply perm_swap. }
  split; [apply demo_valid|]. split; [exact P|]. destruct demo_weights as (W0 & W1 & W2). split.
  - destruct (C68_copies_covariance true [2;0;3;1]%nat demo_logits 4 0 1 demo_valid P ltac:(simpl; lia) ltac:(simpl; lia)) as (_ & E).
    rewrite W0, W1 in E. replace (INR 4) with 4 in E by (simpl; lra). cbn [Nat.eqb] in E. lra.
  - destruct (C68_two_slots true demo_logits 4 3 1 (fun a b => if Nat.eq_dec a b then 1 else 0) demo_valid ltac:(lia) ltac:(lia) ltac:(lia)) as (_ & E).
    cbv zeta in E. rewrite E. change (length demo_logits) with 3%nat. cbn [seq lsum]. rewrite W0, W1, W2.
    repeat (destruct Nat.eq_dec; try lia). lra.
Qed.
