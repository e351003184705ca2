(** The interval rule of the forward driver restricted to combinations that the even/odd scan and the
    sequential scan actually perform: the left operand starts at an even position; the right one too, or it
    is a single element. *)
From Coq Require Import List Arith Lia.
From Verif Require Import ScanModel ScanProofs ScanEven DriverSpec DriverProofs.
Import ListNotations.

Lemma scan_interval_even {A} (f : A -> A -> A) (P : nat -> nat -> A -> Prop) e l :
  (forall i j k x y, i < j -> j < k -> k <= length (e :: l) -> Nat.Even i -> Nat.Even j \/ k = S j ->
     P i j x -> P j k y -> P i k (f x y)) ->
  (forall i x, nth_error (e :: l) i = Some x -> P i (S i) x) ->
  forall t y, nth_error (e :: scan_states f e l) t = Some y -> P 0 (S t) y.
Proof.
  intros Hc He. induction t as [|t IH]; intros y Hy.
  - simpl in Hy. injection Hy as <-. apply He. reflexivity.
  - assert (Ht : t < length l).
    { assert (S t < length (e :: scan_states f e l)) by (apply nth_error_Some; congruence).
      simpl in H. rewrite scan_states_length in H. lia. }
    destruct (nth_error l t) as [x|] eqn:Ex; [|apply nth_error_None in Ex; lia].
    destruct (scan_states_nth f l e t x Ex) as (p & y' & Hp & Hy' & ->).
    cbn [Nat.add] in Hy'. rewrite Hy' in Hy. injection Hy as <-.
    apply (Hc _ (S t)); try lia; [simpl; lia | now exists 0 | now apply IH |].
    apply He. exact Ex.
Qed.

Lemma filter_interval_even {Inp Key St} (split : Key -> nat -> list Key) (obj : Filter Inp Key St)
      (P : nat -> nat -> St -> Prop) (inputs : list Inp) (parallel : bool) (key : option Key) :
  split_ok split -> inputs <> [] ->
  (forall i j k x y, i < j -> j < k -> k <= length inputs -> Nat.Even i -> Nat.Even j \/ k = S j ->
     P i j x -> P j k y -> P i k (filter_combine obj x y)) ->
  (forall x k, nth_error inputs 0 = Some x -> P 0 1 (init_prepare obj x k)) ->
  (forall t x k, nth_error inputs (S t) = Some x -> P (S t) (S (S t)) (filter_prepare obj x k)) ->
  exists states, filter split obj inputs parallel key = Ok states /\
    length states = length inputs /\
    forall t s, nth_error states t = Some s -> P 0 (S t) s.
Proof.
  intros Hs. destruct inputs as [|x0 xs]; [congruence|]. intros _ Hc H0 H1.
  unfold filter. set (n := length (x0 :: xs)).
  destruct (prepare_keys_cons split Hs key n ltac:(unfold n; simpl; lia)) as (ks & -> & Hlk & Hks).
  set (e0 := init_prepare obj x0 _).
  set (l := map2 (filter_prepare obj) xs ks).
  assert (Hll : length l = length xs).
  { unfold l. rewrite map2_length. unfold n in Hlk. simpl in Hlk. lia. }
  assert (Hel : forall i x, nth_error (e0 :: l) i = Some x -> P i (S i) x).
  { intros [|i] x Hx; simpl in Hx.
    - injection Hx as <-. apply H0. reflexivity.
    - unfold l in Hx. apply map2_nth in Hx. destruct Hx as (a & b & Ha & Hb & ->). apply H1. exact Ha. }
  assert (Hcl : forall i j k x y, i < j -> j < k -> k <= length (e0 :: l) -> Nat.Even i -> Nat.Even j \/ k = S j ->
                     P i j x -> P j k y -> P i k (filter_combine obj x y)).
  { intros i j k x y Hij Hjk Hk. apply Hc; auto. simpl in *. lia. }
  destruct parallel.
  - eexists; split; [reflexivity|]. split.
    + rewrite assoc_scan_length. unfold n. cbn [length]. fold l. lia.
    + apply assoc_scan_interval_even; auto.
  - eexists; split; [reflexivity|].
    rewrite <- (scan_states_map (filter_combine obj) (fun xk => filter_prepare obj (fst xk) (snd xk))).
    rewrite <- map2_combine. fold l. split.
    + unfold n. cbn [length]. rewrite scan_states_length. lia.
    + apply scan_interval_even; auto.
Qed.

(** parallel mode only *)
Lemma filter_interval_pairs {Inp Key St} (split : Key -> nat -> list Key) (obj : Filter Inp Key St)
      (P : nat -> nat -> St -> Prop) (inputs : list Inp) (key : option Key) :
  split_ok split -> inputs <> [] ->
  (forall i j k x y, i < j -> j < k -> k <= length inputs -> Nat.Even i -> Nat.Even j \/ (j = S i /\ k = S j) ->
     P i j x -> P j k y -> P i k (filter_combine obj x y)) ->
  (forall x k, nth_error inputs 0 = Some x -> P 0 1 (init_prepare obj x k)) ->
  (forall t x k, nth_error inputs (S t) = Some x -> P (S t) (S (S t)) (filter_prepare obj x k)) ->
  exists states, filter split obj inputs true key = Ok states /\
    length states = length inputs /\
    forall t s, nth_error states t = Some s -> P 0 (S t) s.
Proof.
  intros Hs. destruct inputs as [|x0 xs]; [congruence|]. intros _ Hc H0 H1.
  unfold filter. set (n := length (x0 :: xs)).
  destruct (prepare_keys_cons split Hs key n ltac:(unfold n; simpl; lia)) as (ks & -> & Hlk & Hks).
  set (e0 := init_prepare obj x0 _).
  set (l := map2 (filter_prepare obj) xs ks).
  assert (Hll : length l = length xs).
  { unfold l. rewrite map2_length. unfold n in Hlk. simpl in Hlk. lia. }
  assert (Hel : forall i x, nth_error (e0 :: l) i = Some x -> P i (S i) x).
  { intros [|i] x Hx; simpl in Hx.
    - injection Hx as <-. apply H0. reflexivity.
    - unfold l in Hx. apply map2_nth in Hx. destruct Hx as (a & b & Ha & Hb & ->). apply H1. exact Ha. }
  assert (Hcl : forall i j k x y, i < j -> j < k -> k <= length (e0 :: l) -> Nat.Even i -> Nat.Even j \/ (j = S i /\ k = S j) ->
                     P i j x -> P j k y -> P i k (filter_combine obj x y)).
  { intros i j k x y Hij Hjk Hk. apply Hc; auto. simpl in *. lia. }
  eexists; split; [reflexivity|]. split.
  - rewrite assoc_scan_length. unfold n. cbn [length]. fold l. lia.
  - apply assoc_scan_interval_pairs; auto.
Qed.
