(** The joint law of two indices of multinomial resampling. *)
From Coq Require Import Reals List Arith Bool Lia Lra Permutation.
From Coquelicot Require Import Coquelicot.
From Verif Require Import Ext DiscreteSpec Sums ResamplingModel ResamplingSpec ResamplingProofs
  ConditionalProofs SystematicProofs ConditionalLaw IterSpec Iter Spacings MultinomialLaw SpacingPairs.
Import ListNotations.
Open Scope R_scope.

(** ** Two sorted uniforms *)
Lemma tail2_same x n : forall j k, (j <= k)%nat -> tail2 x x n j k = tail x n k.
Proof.
  induction n; intros j k H; cbn [tail2].
  - destruct k; [destruct j; [reflexivity|lia]|destruct j; reflexivity].
  - rewrite (IHn (j - 1)%nat (k - 1)%nat), (IHn j k) by lia. destruct k; cbn [tail Nat.sub]; [destruct n; simpl; ring|rewrite Nat.sub_0_r; ring].
Qed.
Lemma tail2_diag x y n : forall j k, (k <= j)%nat -> tail2 x y n j k = tail x n j.
Proof.
  induction n; intros j k H; cbn [tail2].
  - destruct j; [destruct k; [reflexivity|lia]|reflexivity].
  - rewrite (IHn (j - 1)%nat (k - 1)%nat), (IHn j k), (IHn j (k - 1)%nat) by lia.
    destruct j; cbn [tail Nat.sub]; [destruct n; simpl; ring|rewrite Nat.sub_0_r; ring].
Qed.
Lemma tail2_zero y n : forall j k, (1 <= j)%nat -> tail2 0 y n j k = 0.
Proof. induction n; intros j k H; cbn [tail2]; [destruct j; [lia|reflexivity]|]. rewrite (IHn j (k - 1)%nat), (IHn j k) by lia. ring. Qed.
Lemma tail2_one x n : forall j k, (k <= n)%nat -> tail2 x 1 n j k = tail x n j.
Proof.
  induction n; intros j k H; cbn [tail2].
  - assert (k = 0)%nat as -> by lia. destruct j; reflexivity.
  - rewrite (IHn (j - 1)%nat (k - 1)%nat), (IHn j (k - 1)%nat) by lia. destruct j; cbn [tail Nat.sub]; [destruct n; simpl; ring|rewrite Nat.sub_0_r; ring].
Qed.
Lemma tail2_beyond x y n : forall j k, (n < k)%nat -> tail2 x y n j k = 0.
Proof. induction n; intros j k H; cbn [tail2]; [destruct j, k; try lia; reflexivity|]. rewrite !IHn by lia. ring. Qed.
Lemma hits_le x y us n j k : length us = S n -> inside us -> (j <= k < n)%nat -> x <= y -> hits y j us * hits x k us = hits x k us.
Proof.
  intros L I H Hxy. destruct (sorted_uniforms_facts us n L I) as (A & B & C). unfold hits.
  assert (nth j (sorted_uniforms us) 0 <= nth k (sorted_uniforms us) 0) by (apply B; lia).
  destruct Rle_dec, Rle_dec; try ring. lra.
Qed.
Lemma hits2_chi2 x y n j k us : length us = S n -> inside us -> (j < k < n)%nat ->
  hits x j us * hits y k us = chi2 x y (S j) (k - j) 0 0 us.
Proof.
  intros L I H. rewrite (hits_chi x n j), (hits_chi y n k) by (auto; lia). unfold chi2, chi.
  replace (S j + (k - j))%nat with (S k) by lia.
  rewrite !Rplus_0_l, !Rmult_0_r, Rminus_0_r, !Rplus_0_l. destruct Rle_dec, Rle_dec; ring.
Qed.
Lemma hits2_law x y n j k : 0 <= x <= y -> y <= 1 -> (j < k < n)%nat ->
  igood (S n) (fun us => hits x j us * hits y k us) /\ imean (S n) (fun us => hits x j us * hits y k us) = tail2 x y n (S j) (S k).
Proof.
  intros Hx Hy H.
  assert (T : forall f v, (forall us, length us = S n -> inside us -> f us = hits x j us * hits y k us) -> igood (S n) f -> imean (S n) f = v ->
    igood (S n) (fun us => hits x j us * hits y k us) /\ imean (S n) (fun us => hits x j us * hits y k us) = v).
  { intros f v E G <-. split; [apply igood_ext with (1 := E), G|]. symmetry. now apply imean_ext. }
  destruct (Req_dec x 0) as [->|X0]; [|destruct (Req_dec y 1) as [->|Y1]; [|destruct (Req_dec x y) as [->|XY]]].
  - rewrite tail2_zero by lia. destruct (hits_law 0 n j ltac:(lra) ltac:(lia)) as (A & B).
    apply (T (fun _ => 0)); [|apply imean_const|apply imean_const].
    intros us L I. destruct (sorted_uniforms_facts us n L I) as (P & _ & C). unfold hits at 1.
    specialize (C (nth j (sorted_uniforms us) 0) ltac:(apply nth_In; lia)). destruct Rle_dec; [lra|ring].
  - rewrite tail2_one by lia. destruct (hits_law x n j ltac:(lra) ltac:(lia)) as (A & B). apply (T (hits x j)); [|exact A|exact B].
    intros us L I. destruct (sorted_uniforms_facts us n L I) as (P & _ & C). unfold hits at 3.
    specialize (C (nth k (sorted_uniforms us) 0) ltac:(apply nth_In; lia)). destruct Rle_dec; [ring|lra].
  - rewrite tail2_same by lia. destruct (hits_law y n k ltac:(lra) ltac:(lia)) as (A & B). apply (T (hits y k)); [|exact A|exact B].
    intros us L I. symmetry. apply (hits_le y y us n); auto; [lia|lra].
  - destruct (chi2_law x y ltac:(lra) ltac:(lra) ltac:(lra) n (S j) (S k) ltac:(lia) ltac:(lia)) as (A & B). cbn [Nat.sub] in A, B.
    apply (T (chi2 x y (S j) (k - j) 0 0)); [|exact A|exact B]. intros us L I. symmetry. apply (hits2_chi2 x y n); auto.
Qed.
Lemma hits2_any x y n j k : 0 <= x <= y -> y <= 1 -> (j < n)%nat -> (k < n)%nat -> j <> k ->
  igood (S n) (fun us => hits x j us * hits y k us) /\ imean (S n) (fun us => hits x j us * hits y k us) = tail2 x y n (S j) (S k).
Proof.
  intros Hx Hy Hj Hk H. destruct (le_lt_dec k j).
  - rewrite tail2_diag by lia. destruct (hits_law x n j ltac:(lra) Hj) as (A & B).
    assert (E : forall us, length us = S n -> inside us -> hits x j us = hits x j us * hits y k us).
    { intros us L I. rewrite Rmult_comm. symmetry. apply (hits_le x y us n); auto; lra. }
    split; [apply igood_ext with (1 := E), A|]. now rewrite <- (imean_ext _ _ _ E).
  - apply hits2_law; auto.
Qed.
(** ordered pairs of different slots *)
Definition offsum (n : nat) (f : nat -> nat -> R) : R := lsum (fun j => lsum (fun k => if (j =? k)%nat then 0 else f j k) (seq 0 n)) (seq 0 n).
Lemma offsum_ext n f g : (forall j k, (j < n)%nat -> (k < n)%nat -> j <> k -> f j k = g j k) -> offsum n f = offsum n g.
Proof.
  intros H. unfold offsum. apply lsum_seq_ext. intros j Hj. apply lsum_seq_ext. intros k Hk. destruct (Nat.eqb_spec j k); auto.
Qed.
Lemma offsum_swap n f : offsum n (fun j k => f k j) = offsum n f.
Proof. unfold offsum. rewrite lsum_swap. apply lsum_ext. intros j _. apply lsum_ext. intros k _. now rewrite Nat.eqb_sym. Qed.
Lemma offsum_full n f : offsum n f = sq n f - lsum (fun j => f j j) (seq 0 n).
Proof.
  unfold offsum, sq. rewrite <- lsum_minus. apply lsum_seq_ext. intros j Hj.
  rewrite <- (lsum_seq_delta (fun k => f j k) n j Hj), <- lsum_minus. apply lsum_ext. intros k _.
  destruct (Nat.eqb_spec j k), (Nat.eq_dec k j); subst; try congruence; try lra.
  all: try (destruct (Nat.eqb_spec k k); [lra|congruence]); try (destruct (Nat.eqb_spec j k); [congruence|lra]).
Qed.
Lemma offsum_lin {A} (l : list A) (c : A -> R) (f : A -> nat -> nat -> R) n :
  offsum n (fun j k => lsum (fun a => c a * f a j k) l) = lsum (fun a => c a * offsum n (f a)) l.
Proof.
  induction l as [|a l IH]; cbn [lsum].
  - unfold offsum. rewrite (lsum_ext _ (fun _ => 0)); [apply lsum_zero|]. intros j _. rewrite (lsum_ext _ (fun _ => 0)); [apply lsum_zero|].
    intros k _. now destruct (j =? k)%nat.
  - rewrite <- IH. unfold offsum. rewrite <- lsum_scal, <- lsum_plus. apply lsum_ext. intros j _.
    rewrite <- lsum_scal, <- lsum_plus. apply lsum_ext. intros k _. destruct (j =? k)%nat; ring.
Qed.
Lemma tail2_sum x y n : sq n (fun j k => tail2 x y n (S j) (S k)) = INR n * (INR n - 1) * (x * y) + INR n * x.
Proof.
  induction n; [unfold sq; simpl; ring|].
  assert (E1 : sq (S n) (fun j k => tail2 x y n (S j) (S k)) = sq n (fun j k => tail2 x y n (S j) (S k))).
  { unfold sq. rewrite lsum_seq_S. rewrite (lsum_ext (fun k => tail2 x y n (S n) (S k)) (fun _ => 0)), lsum_zero, Rplus_0_r by (intros; apply tail2_big; lia).
    apply lsum_ext. intros j _. rewrite lsum_seq_S, tail2_beyond by lia. ring. }
  assert (E2 : sq (S n) (fun j k => tail2 x y n (S j) k) = INR n * x + sq n (fun j k => tail2 x y n (S j) (S k))).
  { rewrite <- E1. unfold sq. rewrite (lsum_ext _ (fun j => tail x n (S j) + lsum (fun k => tail2 x y n (S j) (S k)) (seq 0 (S n)))).
    2:{ intros j _. rewrite lsum_seq_shift, tail2_diag by lia. f_equal. rewrite (lsum_seq_S _ n), (tail2_beyond x y n (S j) (S n)) by lia. ring. }
    rewrite lsum_plus. f_equal. rewrite lsum_seq_S, tail_big, tail_sum by lia. ring. }
  assert (E3 : sq (S n) (fun j k => tail2 x y n j k) = 1 + INR n * y + INR n * x + sq n (fun j k => tail2 x y n (S j) (S k))).
  { transitivity (lsum (fun k => tail2 x y n 0 k) (seq 0 (S n)) + sq (S n) (fun j k => tail2 x y n (S j) k)).
    - unfold sq. rewrite lsum_seq_shift. f_equal. rewrite (lsum_seq_S _ n).
      rewrite (lsum_ext (fun k => tail2 x y n (S n) k) (fun _ => 0)), lsum_zero by (intros; apply tail2_big; lia). ring.
    - rewrite E2. rewrite (lsum_ext _ (fun k => tail y n k)) by (intros; apply tail2_0). rewrite lsum_seq_shift.
      replace (tail y n 0) with 1 by (destruct n; reflexivity). rewrite tail_sum. ring. }
  transitivity (x * sq (S n) (fun j k => tail2 x y n j k) + (y - x) * sq (S n) (fun j k => tail2 x y n (S j) k) + (1 - y) * sq (S n) (fun j k => tail2 x y n (S j) (S k))).
  - rewrite <- (Rmult_1_l (_ + (y - x) * _)), <- sq_lin, <- sq_lin. apply sq_ext. intros j k _ _. cbn [tail2 Nat.sub]. rewrite !Nat.sub_0_r. ring.
  - rewrite E1, E2, E3, IHn, S_INR. ring.
Qed.
Lemma hits2_sum x y n : 0 <= x <= 1 -> 0 <= y <= 1 ->
  (forall j k, (j < n)%nat -> (k < n)%nat -> j <> k -> igood (S n) (fun us => hits x j us * hits y k us)) /\
  offsum n (fun j k => imean (S n) (fun us => hits x j us * hits y k us)) = INR n * (INR n - 1) * (x * y).
Proof.
  assert (W : forall x y, 0 <= x <= y -> y <= 1 ->
    (forall j k, (j < n)%nat -> (k < n)%nat -> j <> k -> igood (S n) (fun us => hits x j us * hits y k us)) /\
    offsum n (fun j k => imean (S n) (fun us => hits x j us * hits y k us)) = INR n * (INR n - 1) * (x * y)).
  { clear x y. intros x y Hx Hy. split; [intros; now apply hits2_any|].
    rewrite (offsum_ext n _ (fun j k => tail2 x y n (S j) (S k))) by (intros; now apply hits2_any).
    rewrite offsum_full, tail2_sum. rewrite (lsum_ext _ (fun j => tail x n (S j))), tail_sum by (intros; apply tail2_diag; lia). ring. }
  intros Hx Hy. destruct (Rle_dec x y) as [L|L]; [apply W; lra|].
  destruct (W y x ltac:(lra) ltac:(lra)) as (A & B).
  assert (C : forall j k (us : list R), length us = S n -> inside us -> hits y k us * hits x j us = hits x j us * hits y k us) by (intros; ring).
  split.
  - intros j k Hj Hk H. apply igood_ext with (1 := C j k). apply A; auto.
  - rewrite <- (Rmult_comm y x), <- B, <- offsum_swap. apply offsum_ext. intros j k _ _ _. apply imean_ext. intros us _ _. ring.
Qed.

(** ** Two indices *)
Section PairIndex.
  Variables (cpu : bool) (l : list ext).
  Hypothesis Hv : valid_logits l.
  Let N := length l.
  Notation si := (si cpu l).
  Definition cc (i : nat) : R := cdf (wt l) i.
  Lemma pair_at n a b : (a < N)%nat -> (b < N)%nat ->
    (forall j k, (j < n)%nat -> (k < n)%nat -> j <> k -> igood (S n) (fun us => ind (si us j =? a)%nat * ind (si us k =? b)%nat)) /\
    offsum n (fun j k => imean (S n) (fun us => ind (si us j =? a)%nat * ind (si us k =? b)%nat)) = INR n * (INR n - 1) * (wt l a * wt l b).
  Proof.
    intros Ha Hb.
    assert (C : forall i, (i <= N)%nat -> 0 <= cc i <= 1) by (intros i Hi; apply cdf_range; auto).
    destruct (hits2_sum (cc (S a)) (cc (S b)) n (C (S a) ltac:(lia)) (C (S b) ltac:(lia))) as (A1 & B1).
    destruct (hits2_sum (cc (S a)) (cc b) n (C (S a) ltac:(lia)) (C b ltac:(lia))) as (A2 & B2).
    destruct (hits2_sum (cc a) (cc (S b)) n (C a ltac:(lia)) (C (S b) ltac:(lia))) as (A3 & B3).
    destruct (hits2_sum (cc a) (cc b) n (C a ltac:(lia)) (C b ltac:(lia))) as (A4 & B4).
    set (ps := [(1, (S a, S b)); (-1, (S a, b)); (-1, (a, S b)); (1, (a, b))]).
    assert (E : forall j k us, (j < n)%nat -> (k < n)%nat -> length us = S n -> inside us ->
      lsum (fun p => fst p * (hits (cc (fst (snd p))) j us * hits (cc (snd (snd p))) k us)) ps = ind (si us j =? a)%nat * ind (si us k =? b)%nat).
    { intros j k us Hj Hk L I. rewrite (si_eq cpu l Hv us n j a), (si_eq cpu l Hv us n k b) by auto. unfold ps, cc. cbn [lsum fst snd]. ring. }
    assert (G : forall j k, (j < n)%nat -> (k < n)%nat -> j <> k -> forall p, In p ps ->
      igood (S n) (fun us => hits (cc (fst (snd p))) j us * hits (cc (snd (snd p))) k us)).
    { intros j k Hj Hk H p [<-|[<-|[<-|[<-|[]]]]]; cbn [fst snd]; auto. }
    split.
    - intros j k Hj Hk H. apply igood_ext with (1 := fun us => E j k us Hj Hk).
      apply (imean_lsum (S n) ps fst (fun p us => hits (cc (fst (snd p))) j us * hits (cc (snd (snd p))) k us)). now apply G.
    - rewrite (offsum_ext n _ (fun j k => lsum (fun p => fst p * imean (S n) (fun us => hits (cc (fst (snd p))) j us * hits (cc (snd (snd p))) k us)) ps)).
      + rewrite (offsum_lin ps fst (fun p j k => imean (S n) (fun us => hits (cc (fst (snd p))) j us * hits (cc (snd (snd p))) k us))).
        unfold ps. cbn [lsum fst snd]. rewrite B1, B2, B3, B4. unfold cc. rewrite !cdf_S. ring.
      + intros j k Hj Hk H. rewrite <- (imean_ext _ _ _ (fun us => E j k us Hj Hk)).
        apply (imean_lsum (S n) ps fst (fun p us => hits (cc (fst (snd p))) j us * hits (cc (snd (snd p))) k us)). now apply G.
  Qed.
  Lemma delta_ind (f : nat -> R) a : (a < N)%nat -> lsum (fun i => f i * ind (a =? i)%nat) (seq 0 N) = f a.
  Proof.
    intros Ha. rewrite <- (lsum_seq_delta f N a Ha). apply lsum_ext. intros i _. unfold ind. rewrite (Nat.eqb_sym a i).
    destruct (Nat.eqb_spec i a), (Nat.eqb_spec a i); subst; try congruence; ring.
  Qed.
  Lemma pair_sum n (f : nat -> nat -> R) :
    (forall j k, (j < n)%nat -> (k < n)%nat -> j <> k -> igood (S n) (fun us => f (si us j) (si us k))) /\
    offsum n (fun j k => imean (S n) (fun us => f (si us j) (si us k)))
    = INR n * (INR n - 1) * lsum (fun a => lsum (fun b => wt l a * wt l b * f a b) (seq 0 N)) (seq 0 N).
  Proof.
    set (ps := list_prod (seq 0 N) (seq 0 N)).
    assert (Sum : forall g : nat -> nat -> R, lsum (fun p => g (fst p) (snd p)) ps = lsum (fun a => lsum (fun b => g a b) (seq 0 N)) (seq 0 N)).
    { intros g. unfold ps. generalize (seq 0 N) at 1 4. intros l1. induction l1 as [|a l1 IH]; [reflexivity|].
      cbn [list_prod]. rewrite lsum_app, lsum_map. cbn [lsum fst snd]. now rewrite IH. }
    assert (In2 : forall p, In p ps -> (fst p < N)%nat /\ (snd p < N)%nat).
    { intros [a b] H. apply in_prod_iff in H. rewrite !in_seq in H. cbn [fst snd]. lia. }
    assert (E : forall j k us, (j < n)%nat -> (k < n)%nat -> length us = S n -> inside us ->
      lsum (fun p => f (fst p) (snd p) * (ind (si us j =? fst p)%nat * ind (si us k =? snd p)%nat)) ps = f (si us j) (si us k)).
    { intros j k us Hj Hk L I. rewrite (Sum (fun a b => f a b * (ind (si us j =? a)%nat * ind (si us k =? b)%nat))).
      rewrite (lsum_ext _ (fun a => f a (si us k) * ind (si us j =? a)%nat)).
      - apply (delta_ind (fun a => f a (si us k))). apply (si_facts cpu l Hv us n j L I Hj).
      - intros a _. rewrite <- (delta_ind (fun b => f a b) (si us k)) by (apply (si_facts cpu l Hv us n k L I Hk)).
        rewrite <- lsum_scal_r. apply lsum_ext. intros b _. ring. }
    assert (G : forall j k, (j < n)%nat -> (k < n)%nat -> j <> k -> forall p, In p ps ->
      igood (S n) (fun us => ind (si us j =? fst p)%nat * ind (si us k =? snd p)%nat)).
    { intros j k Hj Hk H p Hp. destruct (In2 p Hp). now apply pair_at. }
    split.
    - intros j k Hj Hk H. apply igood_ext with (1 := fun us => E j k us Hj Hk).
      apply (imean_lsum (S n) ps (fun p => f (fst p) (snd p)) (fun p us => ind (si us j =? fst p)%nat * ind (si us k =? snd p)%nat)). now apply G.
    - rewrite (offsum_ext n _ (fun j k => lsum (fun p => f (fst p) (snd p) * imean (S n) (fun us => ind (si us j =? fst p)%nat * ind (si us k =? snd p)%nat)) ps)).
      + rewrite (offsum_lin ps (fun p => f (fst p) (snd p)) (fun p j k => imean (S n) (fun us => ind (si us j =? fst p)%nat * ind (si us k =? snd p)%nat))).
        rewrite (lsum_ext _ (fun p => INR n * (INR n - 1) * (wt l (fst p) * wt l (snd p) * f (fst p) (snd p)))).
        * rewrite lsum_scal, (Sum (fun a b => wt l a * wt l b * f a b)). reflexivity.
        * intros p Hp. destruct (In2 p Hp). rewrite (proj2 (pair_at n (fst p) (snd p) ltac:(auto) ltac:(auto))). ring.
      + intros j k Hj Hk H. rewrite <- (imean_ext _ _ _ (fun us => E j k us Hj Hk)).
        apply (imean_lsum (S n) ps (fun p => f (fst p) (snd p)) (fun p us => ind (si us j =? fst p)%nat * ind (si us k =? snd p)%nat)). now apply G.
  Qed.
End PairIndex.

(** ** Two slots of a random permutation *)
Fixpoint loff {A} (f : A -> A -> R) (l : list A) : R :=
  match l with [] => 0 | a :: r => lsum (fun b => f a b + f b a) r + loff f r end.
Lemma inserts_two {A} (a d : A) (f : A -> A -> R) p : forall s t, (s < t <= length p)%nat ->
  lsum (fun q => f (nth s q d) (nth t q d)) (inserts a p) =
  INR s * f (nth (s - 1) p d) (nth (t - 1) p d) + f a (nth (t - 1) p d) + INR (t - s - 1) * f (nth s p d) (nth (t - 1) p d)
  + f (nth s p d) a + INR (length p - t) * f (nth s p d) (nth t p d).
Proof.
  induction p as [|b p IH]; intros s t Hs; cbn [length] in Hs; [lia|]. cbn [inserts lsum length]. rewrite lsum_map.
  destruct t as [|t]; [lia|]. destruct s as [|s]; cbn [nth].
  - rewrite (inserts_nth a d p (fun c => f b c) t) by lia. replace (S t - 1)%nat with t by lia.
    replace (S (length p) - S t)%nat with (length p - t)%nat by lia. replace (S t - 0 - 1)%nat with t by lia.
    destruct t as [|t]; [simpl; ring|]. cbn [nth]. replace (S t - 1)%nat with t by lia. simpl (INR 0). ring.
  - rewrite IH by lia. replace (S t - 1)%nat with t by lia. replace (S s - 1)%nat with s by lia.
    replace (S (length p) - S t)%nat with (length p - t)%nat by lia. replace (S t - S s - 1)%nat with (t - s - 1)%nat by lia.
    rewrite S_INR. destruct t as [|t]; [lia|]. cbn [nth]. replace (S t - 1)%nat with t by lia.
    destruct s as [|s]; [simpl; ring|]. cbn [nth]. replace (S s - 1)%nat with s by lia. ring.
Qed.
Lemma perms_two {A} (d : A) (f : A -> A -> R) (l : list A) : forall s t, (s < t < length l)%nat ->
  lsum (fun p => f (nth s p d) (nth t p d)) (perms l) = INR (fact (length l - 2)) * loff f l.
Proof.
  induction l as [|a l IH]; intros s t H; cbn [length] in H; [lia|]. cbn [perms loff length].
  rewrite lsum_flat_map.
  set (m := length l) in *.
  rewrite (lsum_ext _ (fun p => INR s * f (nth (s - 1) p d) (nth (t - 1) p d) + (f a (nth (t - 1) p d) + (INR (t - s - 1) * f (nth s p d) (nth (t - 1) p d)
    + (f (nth s p d) a + INR (m - t) * f (nth s p d) (nth t p d)))))).
  2:{ intros p Hp. pose proof (Permutation_length (perms_perm l p Hp)) as E. rewrite inserts_two by (fold m in E; lia). rewrite E. fold m. ring. }
  rewrite !lsum_plus, !lsum_scal.
  rewrite (perms_nth d (fun c => f a c) l) by (fold m; lia). rewrite (perms_nth d (fun c => f c a) l) by (fold m; lia). fold m.
  assert (P : forall (c : nat) s t, (c = 0 \/ s < t < m)%nat ->
    INR c * lsum (fun p => f (nth s p d) (nth t p d)) (perms l) = INR c * (INR (fact (m - 2)) * loff f l)).
  { intros c s' t' [->|Hc]; [simpl; ring|]. now rewrite IH. }
  rewrite (P s (s - 1)%nat (t - 1)%nat) by lia. rewrite (P (t - s - 1)%nat s (t - 1)%nat) by lia. rewrite (P (m - t)%nat s t) by lia.
  replace (S m - 2)%nat with (m - 1)%nat by lia.
  assert (F : (m <= 1)%nat \/ INR (fact (m - 1)) = INR (m - 1) * INR (fact (m - 2))).
  { destruct (le_lt_dec m 1); [now left|right]. replace (m - 1)%nat with (S (m - 2)) by lia. rewrite fact_simpl, mult_INR. reflexivity. }
  assert (C : INR s + INR (t - s - 1) + INR (m - t) = INR (m - 1)) by (rewrite <- !plus_INR; f_equal; lia).
  transitivity (INR (fact (m - 1)) * (lsum (f a) l + lsum (fun b => f b a) l) + (INR s + INR (t - s - 1) + INR (m - t)) * (INR (fact (m - 2)) * loff f l)).
  { change (fun c => f a c) with (f a). ring. }
  rewrite C. destruct F as [F|F]; [|rewrite F; ring].
  assert (m = 1)%nat by lia. destruct l as [|b [|]]; simpl in m; try (unfold m in *; simpl in *; lia). simpl. ring.
Qed.
Lemma loff_swap {A} (f : A -> A -> R) l : loff (fun a b => f b a) l = loff f l.
Proof. induction l as [|a l IH]; [reflexivity|]. cbn [loff]. rewrite IH. f_equal. apply lsum_ext. intros; ring. Qed.
Lemma loff_shift (f : nat -> nat -> R) n a : loff f (seq (S a) n) = loff (fun i j => f (S i) (S j)) (seq a n).
Proof.
  revert a. induction n; intros a; [reflexivity|]. cbn [seq loff]. rewrite IHn. f_equal. rewrite <- seq_shift. apply lsum_map.
Qed.
Lemma offsum_loff n : forall f, offsum n f = loff f (seq 0 n).
Proof.
  induction n; intros f; [reflexivity|]. cbn [seq loff]. rewrite loff_shift, <- IHn, <- seq_shift, lsum_map.
  unfold offsum. rewrite lsum_seq_shift, (lsum_seq_shift _ n).
  assert (E : lsum (fun j => lsum (fun k => if (S j =? k)%nat then 0 else f (S j) k) (seq 0 (S n))) (seq 0 n)
    = lsum (fun j => f (S j) 0%nat + lsum (fun k => if (j =? k)%nat then 0 else f (S j) (S k)) (seq 0 n)) (seq 0 n)).
  { apply lsum_ext. intros j _. now rewrite lsum_seq_shift. }
  rewrite E, lsum_plus, lsum_plus. cbn [Nat.eqb]. ring.
Qed.
Lemma perm_mean_two n s t (f : nat -> nat -> R) : (s < n)%nat -> (t < n)%nat -> s <> t ->
  perm_mean n (fun p => f (nth s p 0%nat) (nth t p 0%nat)) = offsum n f / (INR n * (INR n - 1)).
Proof.
  intros Hs Ht H. assert (W : forall s t (f : nat -> nat -> R), (s < t < n)%nat ->
    perm_mean n (fun p => f (nth s p 0%nat) (nth t p 0%nat)) = offsum n f / (INR n * (INR n - 1))).
  { clear. intros s t f H. unfold perm_mean. rewrite (perms_two 0%nat f (seq 0 n) s t) by (rewrite seq_length; lia).
    rewrite seq_length, <- offsum_loff. destruct n as [|[|n]]; try lia. cbn [Nat.sub]. rewrite Nat.sub_0_r.
    rewrite (fact_simpl (S n)), (fact_simpl n), !mult_INR. rewrite (S_INR (S n)).
    assert (INR (S n) <> 0) by (apply not_0_INR; lia). assert (INR (S n) + 1 <> 0) by (pose proof (pos_INR (S n)); lra).
    pose proof (INR_fact_neq_0 n). field. repeat split; try assumption. lra. }
  destruct (lt_dec s t); [apply W; lia|]. rewrite <- offsum_swap. apply (W t s (fun a b => f b a)). lia.
Qed.
