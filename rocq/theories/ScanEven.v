(** The even outputs of an associative scan are one combination away from the preceding output. *)
From Coq Require Import List Arith Lia.
From Verif Require Import ScanModel ScanProofs.
Import ListNotations.

Lemma assoc_scan_even {A} (f : A -> A -> A) l k e :
  nth_error l (2 * k + 2) = Some e ->
  exists p, nth_error (assoc_scan f l) (2 * k + 1) = Some p /\ nth_error (assoc_scan f l) (2 * k + 2) = Some (f p e).
Proof.
  intros He. assert (Hlt : 2 * k + 2 < length l) by (apply nth_error_Some; congruence).
  rewrite assoc_scan_eq. destruct (Nat.ltb_spec (length l) 2) as [H|H]; [lia|]. cbv zeta.
  set (o := assoc_scan f _).
  assert (Ho : length o = Nat.div2 (length l)) by (unfold o; rewrite assoc_scan_length; apply reduced_length).
  assert (Hk : k < length o).
  { rewrite Ho. pose proof (Nat.div2_odd (length l)). destruct (Nat.odd (length l)); simpl in *; lia. }
  destruct (nth_error o k) as [p|] eqn:Ep; [|apply nth_error_None in Ep; lia].
  set (ev := if Nat.even (length l) then removelast o else o).
  assert (Hev : nth_error ev k = Some p).
  { unfold ev. destruct (Nat.even (length l)) eqn:E; auto. rewrite removelast_nth; auto.
    rewrite Ho. apply even_div2 in E. lia. }
  assert (Hel : length ev = if Nat.even (length l) then length o - 1 else length o)
    by (unfold ev; destruct (Nat.even (length l)); auto; apply removelast_length).
  set (tail := map2 f ev (evens (skipn 2 l))).
  assert (Htl : length tail = Nat.div2 (S (length l)) - 1).
  { unfold tail. rewrite map2_length, Hel, evens_length, skipn_length, Ho.
    destruct (Nat.even (length l)) eqn:E.
    - pose proof (even_div2 _ E). set (d := Nat.div2 (length l)) in *.
      rewrite H0. replace (S (2 * d - 2)) with (S (2 * (d - 1))) by lia.
      rewrite !Nat.div2_succ_double. lia.
    - pose proof (odd_div2 _ E). set (d := Nat.div2 (length l)) in *.
      rewrite H0. replace (S (2 * d + 1 - 2)) with (2 * d) by lia. replace (S (2 * d + 1)) with (2 * S d) by lia.
      rewrite !Nat.div2_double. lia. }
  destruct l as [|a l']; [simpl in *; lia|]. cbn [firstn app].
  assert (Hlen : length o <= length (a :: tail) <= S (length o)).
  { cbn [length]. rewrite Htl, Ho.
    destruct (Nat.even (length (a :: l'))) eqn:E.
    - pose proof (even_div2 _ E). set (d := Nat.div2 (length (a :: l'))) in *.
      rewrite H0. rewrite !Nat.div2_succ_double. lia.
    - pose proof (odd_div2 _ E). set (d := Nat.div2 (length (a :: l'))) in *.
      rewrite H0. replace (S (2 * d + 1)) with (2 * S d) by lia.
      rewrite !Nat.div2_double. lia. }
  exists p. destruct (interleave_nth (a :: tail) o k Hlen) as [_ ->]. split; auto.
  replace (2 * k + 2) with (2 * S k) by lia.
  destruct (interleave_nth (a :: tail) o (S k) Hlen) as [-> _]. cbn [nth_error].
  unfold tail. apply map2_nth. exists p, e. repeat split; auto.
  rewrite evens_nth, skipn_nth. rewrite <- He. f_equal. lia.
Qed.

(** The odd outputs are the outputs of the scan of the pairwise products. *)
Lemma assoc_scan_odd {A} (f : A -> A -> A) l k :
  2 <= length l -> 2 * k + 1 < length l ->
  nth_error (assoc_scan f l) (2 * k + 1) = nth_error (assoc_scan f (map2 f (evens (removelast l)) (odds l))) k.
Proof.
  intros H2 Hlt. rewrite (assoc_scan_eq f l). destruct (Nat.ltb_spec (length l) 2) as [H|H]; [lia|]. cbv zeta.
  set (o := assoc_scan f _).
  assert (Ho : length o = Nat.div2 (length l)) by (unfold o; rewrite assoc_scan_length; apply reduced_length).
  set (ev := if Nat.even (length l) then removelast o else o).
  assert (Hel : length ev = if Nat.even (length l) then length o - 1 else length o)
    by (unfold ev; destruct (Nat.even (length l)); auto; apply removelast_length).
  set (tail := map2 f ev (evens (skipn 2 l))).
  assert (Htl : length tail = Nat.div2 (S (length l)) - 1).
  { unfold tail. rewrite map2_length, Hel, evens_length, skipn_length, Ho.
    destruct (Nat.even (length l)) eqn:E.
    - pose proof (even_div2 _ E). set (d := Nat.div2 (length l)) in *.
      rewrite H0. replace (S (2 * d - 2)) with (S (2 * (d - 1))) by lia.
      rewrite !Nat.div2_succ_double. lia.
    - pose proof (odd_div2 _ E). set (d := Nat.div2 (length l)) in *.
      rewrite H0. replace (S (2 * d + 1 - 2)) with (2 * d) by lia. replace (S (2 * d + 1)) with (2 * S d) by lia.
      rewrite !Nat.div2_double. lia. }
  destruct l as [|a l']; [simpl in *; lia|]. cbn [firstn app].
  assert (Hlen : length o <= length (a :: tail) <= S (length o)).
  { cbn [length]. rewrite Htl, Ho.
    destruct (Nat.even (length (a :: l'))) eqn:E.
    - pose proof (even_div2 _ E). set (d := Nat.div2 (length (a :: l'))) in *.
      rewrite H0. rewrite !Nat.div2_succ_double. lia.
    - pose proof (odd_div2 _ E). set (d := Nat.div2 (length (a :: l'))) in *.
      rewrite H0. replace (S (2 * d + 1)) with (2 * S d) by lia.
      rewrite !Nat.div2_double. lia. }
  apply (interleave_nth (a :: tail) o k Hlen).
Qed.

(** One combination away from the output at [scan_prev]: the left operand at time t = 2^v (2 m + 1) - 1. *)
Lemma assoc_scan_first {A} (f : A -> A -> A) a l : exists r, assoc_scan f (a :: l) = a :: r.
Proof.
  rewrite assoc_scan_eq. destruct (Nat.ltb_spec (length (a :: l)) 2) as [H|H]; [now exists l|].
  cbv zeta. cbn [firstn app]. destruct (assoc_scan f _); cbn [interleave]; eexists; reflexivity.
Qed.
Lemma assoc_scan_left {A} (f : A -> A -> A) v : forall m l, 1 <= m -> 2 ^ v * (2 * m + 1) - 1 < length l ->
  exists p e, nth_error (assoc_scan f l) (2 ^ v * (2 * m) - 1) = Some p /\
              nth_error (assoc_scan f l) (2 ^ v * (2 * m + 1) - 1) = Some (f p e).
Proof.
  induction v as [|v IH]; intros m l Hm Hl.
  - cbn [Nat.pow] in *. replace (1 * (2 * m + 1) - 1) with (2 * (m - 1) + 2) in * by lia.
    replace (1 * (2 * m) - 1) with (2 * (m - 1) + 1) by lia.
    destruct (nth_error l (2 * (m - 1) + 2)) as [e|] eqn:E; [|apply nth_error_None in E; lia].
    destruct (assoc_scan_even f l (m - 1) e E) as (p & H1 & H2). now exists p, e.
  - rewrite Nat.pow_succ_r' in *. assert (Hp : 1 <= 2 ^ v) by (pose proof (Nat.pow_nonzero 2 v); lia).
    replace (2 * 2 ^ v * (2 * m + 1) - 1) with (2 * (2 ^ v * (2 * m + 1) - 1) + 1) in * by nia.
    replace (2 * 2 ^ v * (2 * m) - 1) with (2 * (2 ^ v * (2 * m) - 1) + 1) by nia.
    rewrite !assoc_scan_odd by nia. apply IH; [exact Hm|].
    rewrite reduced_length. pose proof (Nat.div2_odd (length l)). destruct (Nat.odd (length l)); simpl in *; lia.
Qed.
Lemma assoc_scan_left_power {A} (f : A -> A -> A) v : forall l, 2 ^ (S v) - 1 < length l ->
  exists p e, nth_error (assoc_scan f l) (2 ^ v - 1) = Some p /\
              nth_error (assoc_scan f l) (2 ^ (S v) - 1) = Some (f p e).
Proof.
  induction v as [|v IH]; intros l Hl.
  - change (2 ^ 1 - 1) with (2 * 0 + 1) in *. change (2 ^ 0 - 1) with 0. rewrite (assoc_scan_odd f l 0) by lia.
    destruct l as [|a [|b l]]; cbn [length] in Hl; try lia. exists a, b. split.
    + destruct (assoc_scan_first f a (b :: l)) as (r & ->). reflexivity.
    + replace (map2 f (evens (removelast (a :: b :: l))) (odds (a :: b :: l)))
        with (f a b :: map2 f (evens (removelast l)) (odds l)).
      * destruct (assoc_scan_first f (f a b) (map2 f (evens (removelast l)) (odds l))) as (r & ->). reflexivity.
      * destruct l as [|c l]; reflexivity.
  - rewrite (Nat.pow_succ_r' 2 (S v)) in *. assert (Hp : 1 <= 2 ^ v) by (pose proof (Nat.pow_nonzero 2 v); lia).
    assert (Hq : 1 <= 2 ^ S v) by (pose proof (Nat.pow_nonzero 2 (S v)); lia).
    replace (2 * 2 ^ S v - 1) with (2 * (2 ^ S v - 1) + 1) in * by lia.
    assert (Hr : 2 ^ S v - 1 < length (map2 f (evens (removelast l)) (odds l))).
    2: { destruct (IH _ Hr) as (p & e & H1 & H2). exists p, e.
         assert (E : 2 ^ S v - 1 = 2 * (2 ^ v - 1) + 1) by (rewrite Nat.pow_succ_r'; lia).
         split; [rewrite E|]; rewrite assoc_scan_odd by lia; assumption. }
    rewrite reduced_length. pose proof (Nat.div2_odd (length l)). destruct (Nat.odd (length l)); simpl in *; lia.
Qed.
(** every time t has one of the two forms *)
Lemma two_adic t : 1 <= t -> exists v m, t = 2 ^ v * (2 * m + 1).
Proof.
  induction t as [t IH] using lt_wf_ind. intros Ht. destruct (Nat.Even_or_Odd t) as [[k ->]|[k ->]].
  - destruct (IH k) as (v & m & ->); try lia. exists (S v), m. rewrite Nat.pow_succ_r'. lia.
  - exists 0, k. simpl. lia.
Qed.

(** The time of the left operand of output t, where t + 1 = 2^v (2 m + 1). *)
Definition prev_of (v m : nat) : nat := if m =? 0 then 2 ^ (v - 1) - 1 else 2 ^ v * (2 * m) - 1.
Definition time_of (v m : nat) : nat := 2 ^ v * (2 * m + 1) - 1.
Lemma assoc_scan_prev {A} (f : A -> A -> A) l t : 1 <= t -> t < length l ->
  exists v m p e, t = time_of v m /\ prev_of v m < t /\
    nth_error (assoc_scan f l) (prev_of v m) = Some p /\ nth_error (assoc_scan f l) t = Some (f p e).
Proof.
  intros H1 H2. destruct (two_adic (S t)) as (v & m & E); [lia|]. exists v, m.
  assert (Hp : 1 <= 2 ^ v) by (pose proof (Nat.pow_nonzero 2 v); lia).
  assert (Et : t = time_of v m) by (unfold time_of; lia). unfold prev_of. destruct m as [|m].
  - destruct v as [|v]; [simpl in E; lia|]. cbn [Nat.eqb]. replace (S v - 1) with v by lia.
    destruct (assoc_scan_left_power f v l) as (p & e & A1 & A2); [lia|].
    exists p, e. replace t with (2 ^ S v - 1) at 2 3 by lia. rewrite Nat.pow_succ_r' in *. repeat split; auto; lia.
  - cbn [Nat.eqb]. destruct (assoc_scan_left f v (S m) l) as (p & e & A1 & A2); [lia|lia|].
    exists p, e. replace t with (2 ^ v * (2 * S m + 1) - 1) at 2 3 by lia. repeat split; auto; lia.
Qed.

(** Interval rule for the even/odd scan that only asks for combinations whose left operand starts at an
    even position and whose right operand starts at an even position, except for pairs of single elements. *)
Theorem assoc_scan_interval_pairs {A} (f : A -> A -> A) (P : nat -> nat -> A -> Prop) l :
  (forall i j k x y, i < j -> j < k -> k <= length l -> Nat.Even i -> Nat.Even j \/ (j = S i /\ k = S j) ->
     P i j x -> P j k y -> P i k (f x y)) ->
  (forall i x, nth_error l i = Some x -> P i (S i) x) ->
  forall t y, nth_error (assoc_scan f l) t = Some y -> P 0 (S t) y.
Proof.
  intros Hc He t y Hy. assert (Ht : t < length l) by (rewrite <- (assoc_scan_length f l); apply nth_error_Some; congruence).
  assert (Hodd : forall k z, nth_error (assoc_scan f l) (2 * k + 1) = Some z -> P 0 (2 * k + 2) z).
  { intros k z Hz.
    assert (Hk : 2 * k + 1 < length l) by (rewrite <- (assoc_scan_length f l); apply nth_error_Some; congruence).
    rewrite assoc_scan_odd in Hz by lia. replace (2 * k + 2) with (2 * S k) by lia.
    apply (assoc_scan_interval f (fun a b => P (2 * a) (2 * b)) (map2 f (evens (removelast l)) (odds l))); auto.
    - intros a b c u v Hab Hbc Hcl. rewrite reduced_length in Hcl.
      pose proof (Nat.div2_odd (length l)). apply Hc; try lia; [exists a; lia|left; exists b; lia].
    - intros a u Hu. apply map2_nth in Hu. destruct Hu as (p & q & Hp & Hq & ->).
      rewrite evens_nth in Hp. apply removelast_nth_some in Hp. destruct Hp as [Hp Hlt].
      rewrite odds_nth in Hq. apply (Hc _ (2 * a + 1)); try lia.
      + exists a; lia.
      + replace (2 * a + 1) with (S (2 * a)) by lia. auto.
      + replace (2 * S a) with (S (2 * a + 1)) by lia. auto. }
  destruct (Nat.Even_or_Odd t) as [[k ->]|[k ->]]; [|replace (S (2 * k + 1)) with (2 * k + 2) by lia; auto].
  destruct k as [|k].
  - destruct l as [|a l]; [simpl in Ht; lia|]. destruct (assoc_scan_first f a l) as (r & E). rewrite E in Hy.
    injection Hy as <-. apply He. reflexivity.
  - replace (2 * S k) with (2 * k + 2) in * by lia.
    destruct (nth_error l (2 * k + 2)) as [e|] eqn:E; [|apply nth_error_None in E; lia].
    destruct (assoc_scan_even f l k e E) as (p & H1 & H2). rewrite H2 in Hy. injection Hy as <-.
    apply (Hc _ (2 * k + 2)); try lia; [now exists 0|left; exists (k + 1); lia|auto|auto].
Qed.
(** Weaker form that also covers the sequential scan. *)
Theorem assoc_scan_interval_even {A} (f : A -> A -> A) (P : nat -> nat -> A -> Prop) l :
  (forall i j k x y, i < j -> j < k -> k <= length l -> Nat.Even i -> Nat.Even j \/ k = S j ->
     P i j x -> P j k y -> P i k (f x y)) ->
  (forall i x, nth_error l i = Some x -> P i (S i) x) ->
  forall t y, nth_error (assoc_scan f l) t = Some y -> P 0 (S t) y.
Proof.
  intros Hc He. apply assoc_scan_interval_pairs; auto.
  intros i j k x y Hij Hjk Hk Hi Hj. apply Hc; auto. destruct Hj as [|[]]; auto.
Qed.
