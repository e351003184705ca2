(** Proofs about the scan primitives and the drivers. *)
From Coq Require Import List Arith Lia Bool.
From Verif Require Import ScanModel.
Import ListNotations.

Lemma list_ind2 {A} (P : list A -> Prop) :
  P [] -> (forall a, P [a]) -> (forall a b l, P l -> P (a :: b :: l)) -> forall l, P l.
Proof.
  intros H0 H1 H2.
  assert (Hb : forall l, P l /\ forall a, P (a :: l)).
  { induction l as [|x l [IH1 IH2]]; split; auto. }
  intros l; apply Hb.
Qed.

Lemma evens_nth {A} (l : list A) : forall i, nth_error (evens l) i = nth_error l (2 * i).
Proof.
  induction l as [| a | a b l IH] using list_ind2; intros i.
  - destruct i; simpl; auto.
  - destruct i as [|i]; simpl; auto. replace (i + S (i + 0)) with (S (2 * i)) by lia. simpl. now destruct i.
  - destruct i as [|i]; simpl; auto. rewrite IH.
    now replace (i + S (i + 0)) with (S (2 * i)) by lia.
Qed.

Lemma odds_nth {A} (l : list A) i : nth_error (odds l) i = nth_error l (2 * i + 1).
Proof.
  unfold odds. rewrite evens_nth. destruct l; simpl.
  - destruct (i + (i + 0)); destruct (i + (i + 0) + 1); auto.
  - now replace (i + (i + 0) + 1) with (S (i + (i + 0))) by lia.
Qed.

Lemma evens_length {A} (l : list A) : length (evens l) = Nat.div2 (S (length l)).
Proof.
  induction l as [| a | a b l IH] using list_ind2; simpl; auto.
Qed.

Lemma odds_length {A} (l : list A) : length (odds l) = Nat.div2 (length l).
Proof. unfold odds. rewrite evens_length. destruct l; simpl; auto. Qed.

Lemma map2_length {A B C} (f : A -> B -> C) : forall l m,
  length (map2 f l m) = Nat.min (length l) (length m).
Proof. induction l; destruct m; simpl; auto. Qed.

Lemma map2_nth {A B C} (f : A -> B -> C) : forall l m i c,
  nth_error (map2 f l m) i = Some c <->
  exists a b, nth_error l i = Some a /\ nth_error m i = Some b /\ c = f a b.
Proof.
  induction l as [|a l IH]; destruct m as [|b m]; intros [|i] c; simpl;
    try (split; [discriminate | intros (x & y & H1 & H2 & _); discriminate]).
  - split; [intros [= <-]; eauto | intros (x & y & [= <-] & [= <-] & ->); auto].
  - apply IH.
Qed.

Lemma removelast_nth {A} (l : list A) : forall i,
  S i < length l -> nth_error (removelast l) i = nth_error l i.
Proof.
  induction l as [|a l IH]; simpl; intros i Hi; [lia|].
  destruct l as [|b l]; simpl in *; [lia|].
  destruct i; simpl; auto. apply IH. lia.
Qed.

Lemma removelast_length {A} (l : list A) : length (removelast l) = length l - 1.
Proof. induction l as [|a [|b l] IH]; simpl in *; auto. rewrite IH. lia. Qed.

Lemma removelast_nth_some {A} (l : list A) i a :
  nth_error (removelast l) i = Some a -> nth_error l i = Some a /\ S i < length l.
Proof.
  intros H.
  assert (Hi : i < length (removelast l)) by (apply nth_error_Some; congruence).
  rewrite removelast_length in Hi.
  rewrite removelast_nth in H by lia. split; auto. lia.
Qed.

Lemma skipn_nth {A} n (l : list A) : forall i, nth_error (skipn n l) i = nth_error l (n + i).
Proof. revert l; induction n; destruct l; simpl; auto. intros; now destruct i. Qed.

Lemma interleave_nth {A} : forall (a b : list A) i,
  length b <= length a <= S (length b) ->
  nth_error (interleave a b) (2 * i) = nth_error a i /\
  nth_error (interleave a b) (2 * i + 1) = nth_error b i.
Proof.
  induction a as [|x a IH]; intros b i Hl; destruct b as [|y b]; simpl in Hl; try lia.
  - simpl. split; [|]; destruct i; simpl; auto; try (now destruct (i + S (i + 0))).
  - assert (a = []) by (destruct a; simpl in *; auto; lia). subst.
    simpl. destruct i; simpl; split; auto.
    + replace (i + S (i + 0)) with (S (i + i)) by lia. simpl. now destruct i.
    + now destruct (i + S (i + 0) + 1).
  - destruct i as [|i].
    + simpl; auto.
    + specialize (IH b i ltac:(lia)). destruct IH as [IH1 IH2].
      replace (2 * S i) with (S (S (2 * i))) by lia.
      simpl interleave. cbn [nth_error].
      replace (S (S (2 * i)) + 1) with (S (S (2 * i + 1))) by lia. cbn [nth_error]. auto.
Qed.

Lemma interleave_length {A} : forall (a b : list A),
  length (interleave a b) = length a + length b.
Proof. induction a as [|x a IH]; destruct b; simpl; auto. rewrite IH. lia. Qed.

(** ** The even/odd scan *)
Lemma div2_le n : Nat.div2 n <= n.
Proof. induction n using lt_wf_ind; destruct n as [|[|n]]; simpl; auto. specialize (H n); lia. Qed.

Lemma even_div2 n : Nat.even n = true -> n = 2 * Nat.div2 n.
Proof. intros H. apply Nat.even_spec in H. apply Nat.Even_double in H. rewrite H at 1. unfold Nat.double. lia. Qed.
Lemma odd_div2 n : Nat.even n = false -> n = 2 * Nat.div2 n + 1.
Proof.
  intros H. assert (Ho : Nat.odd n = true) by (unfold Nat.odd; now rewrite H).
  apply Nat.odd_spec in Ho. apply Nat.Odd_double in Ho. rewrite Ho at 1. unfold Nat.double. lia.
Qed.

Lemma reduced_length {A} (f : A -> A -> A) (l : list A) :
  length (map2 f (evens (removelast l)) (odds l)) = Nat.div2 (length l).
Proof.
  rewrite map2_length, evens_length, odds_length, removelast_length.
  destruct (length l) as [|n]; simpl; auto.
  replace (n - 0) with n by lia. apply Nat.min_id.
Qed.

Lemma assoc_scan_fuel_length {A} (f : A -> A -> A) : forall fuel l,
  length (assoc_scan_fuel fuel f l) = length l.
Proof.
  induction fuel as [|n IH]; intros l; auto.
  cbn [assoc_scan_fuel].
  destruct (length l <? 2) eqn:H2; auto.
  apply Nat.ltb_ge in H2.
  cbv zeta.
  rewrite interleave_length, app_length, IH, reduced_length.
  assert (Hf : length (firstn 1 l) = 1) by (destruct l; simpl in *; auto; lia).
  rewrite Hf.
  destruct (Nat.even (length l)) eqn:He;
    rewrite map2_length, evens_length, skipn_length.
  - rewrite removelast_length, IH, reduced_length.
    apply even_div2 in He. set (d := Nat.div2 (length l)) in *.
    replace (S (length l - 2)) with (S (2 * (d - 1))) by lia.
    rewrite Nat.div2_succ_double. lia.
  - rewrite IH, reduced_length. apply odd_div2 in He.
    set (d := Nat.div2 (length l)) in *.
    replace (S (length l - 2)) with (2 * d) by lia. rewrite Nat.div2_double. lia.
Qed.

Lemma assoc_scan_fuel_interval {A} (f : A -> A -> A) : forall fuel (P : nat -> nat -> A -> Prop) l,
  length l <= fuel ->
  (forall i j k x y, i < j -> j < k -> k <= length l -> P i j x -> P j k y -> P i k (f x y)) ->
  (forall i x, nth_error l i = Some x -> P i (S i) x) ->
  forall t y, nth_error (assoc_scan_fuel fuel f l) t = Some y -> P 0 (S t) y.
Proof.
  induction fuel as [|n IH]; intros P l Hfuel Hcomb Hel t y Hy.
  { destruct l; simpl in *; [|lia]. now destruct t. }
  cbn [assoc_scan_fuel] in Hy.
  destruct (length l <? 2) eqn:H2.
  { apply Nat.ltb_lt in H2.
    assert (Ht : t < length l) by (apply nth_error_Some; congruence).
    assert (t = 0) by lia. subst. auto. }
  apply Nat.ltb_ge in H2. cbv zeta in Hy.
  set (red := map2 f (evens (removelast l)) (odds l)) in *.
  assert (Hredlen : length red = Nat.div2 (length l)) by apply reduced_length.
  pose proof (div2_le (length l)) as Hdle.
  assert (Hd : 2 * Nat.div2 (length l) <= length l).
  { destruct (Nat.even (length l)) eqn:He; [apply even_div2 in He | apply odd_div2 in He]; lia. }
  assert (Hodd : forall i x, nth_error (assoc_scan_fuel n f red) i = Some x -> P 0 (2 * i + 2) x).
  { intros i x Hx.
    specialize (IH (fun a b => P (2 * a) (2 * b)) red).
    replace (2 * i + 2) with (2 * S i) by lia.
    apply (IH ltac:(rewrite Hredlen; destruct (length l) as [|[|m]]; simpl; try lia;
                    pose proof (div2_le m); lia)); auto.
    - intros a b c u v Hab Hbc Hc. rewrite Hredlen in Hc. apply Hcomb; lia.
    - intros a u Hu. apply map2_nth in Hu. destruct Hu as (p & q & Hp & Hq & ->).
      rewrite evens_nth in Hp. apply removelast_nth_some in Hp. destruct Hp as [Hp Hlt].
      rewrite odds_nth in Hq.
      apply (Hcomb _ (2 * a + 1)); try lia.
      + replace (2 * a + 1) with (S (2 * a)) by lia. auto.
      + replace (2 * S a) with (S (2 * a + 1)) by lia. auto. }
  set (o := assoc_scan_fuel n f red) in *.
  assert (Holen : length o = Nat.div2 (length l)) by (unfold o; rewrite assoc_scan_fuel_length; auto).
  set (ev := if Nat.even (length l) then _ else _) in Hy.
  assert (Hev : forall i x, nth_error ev i = Some x -> P 0 (2 * i + 3) x).
  { intros i x Hx.
    assert (Hx' : exists a b, nth_error o i = Some a /\ nth_error (evens (skipn 2 l)) i = Some b
                              /\ x = f a b).
    { unfold ev in Hx. destruct (Nat.even (length l)); apply map2_nth in Hx;
        destruct Hx as (a & b & Ha & Hb & ->); exists a, b; repeat split; auto.
      apply removelast_nth_some in Ha; tauto. }
    destruct Hx' as (a & b & Ha & Hb & ->).
    rewrite evens_nth, skipn_nth in Hb.
    assert (Hlt : 2 + 2 * i < length l) by (apply nth_error_Some; congruence).
    apply (Hcomb _ (2 * i + 2)); try lia.
    - apply Hodd; auto.
    - replace (2 * i + 3) with (S (2 + 2 * i)) by lia.
      replace (2 * i + 2) with (2 + 2 * i) by lia. auto. }
  assert (Hevlen : length ev = length l - 1 - Nat.div2 (length l)).
  { unfold ev. destruct (Nat.even (length l)) eqn:He;
      rewrite map2_length, evens_length, skipn_length.
    - rewrite removelast_length, Holen. apply even_div2 in He.
      set (d := Nat.div2 (length l)) in *.
      replace (S (length l - 2)) with (S (2 * (d - 1))) by lia.
      rewrite Nat.div2_succ_double. lia.
    - rewrite Holen. apply odd_div2 in He. set (d := Nat.div2 (length l)) in *.
      replace (S (length l - 2)) with (2 * d) by lia. rewrite Nat.div2_double. lia. }
  destruct l as [|e0 l']; [simpl in *; lia|].
  cbn [firstn app] in Hy.
  assert (Hil : length o <= length (e0 :: ev) <= S (length o)).
  { cbn [length] in *. rewrite Holen, Hevlen.
    destruct (Nat.even (S (length l'))) eqn:He; [apply even_div2 in He | apply odd_div2 in He];
      cbn [length] in *; lia. }
  destruct (Nat.even t) eqn:Het.
  - apply even_div2 in Het. rewrite Het in Hy |- *. set (i := Nat.div2 t) in *.
    rewrite (proj1 (interleave_nth _ _ i Hil)) in Hy.
    destruct i as [|i].
    + simpl in Hy. injection Hy as <-. apply Hel. reflexivity.
    + simpl in Hy. apply Hev in Hy. now replace (S (2 * S i)) with (2 * i + 3) by lia.
  - apply odd_div2 in Het. rewrite Het in Hy |- *. set (i := Nat.div2 t) in *.
    rewrite (proj2 (interleave_nth _ _ i Hil)) in Hy.
    apply Hodd in Hy. now replace (S (2 * i + 1)) with (2 * i + 2) by lia.
Qed.

(** Interval theorem: every family of predicates indexed by intervals of positions and preserved by
    the operator holds of every output on its prefix. *)
Theorem assoc_scan_interval {A} (f : A -> A -> A) (P : nat -> nat -> A -> Prop) l :
  (forall i j k x y, i < j -> j < k -> k <= length l -> P i j x -> P j k y -> P i k (f x y)) ->
  (forall i x, nth_error l i = Some x -> P i (S i) x) ->
  forall t y, nth_error (assoc_scan f l) t = Some y -> P 0 (S t) y.
Proof. intros; eapply assoc_scan_fuel_interval; eauto. Qed.

Lemma assoc_scan_length {A} (f : A -> A -> A) l : length (assoc_scan f l) = length l.
Proof. apply assoc_scan_fuel_length. Qed.

Lemma assoc_scan_fuel_irrel {A} (f : A -> A -> A) : forall n m l,
  length l <= n -> length l <= m -> assoc_scan_fuel n f l = assoc_scan_fuel m f l.
Proof.
  induction n as [|n IH]; intros m l Hn Hm.
  - destruct l; simpl in *; [|lia]. now destruct m.
  - destruct m as [|m]; [destruct l; simpl in *; [auto|lia]|].
    cbn [assoc_scan_fuel]. destruct (length l <? 2) eqn:H2; auto.
    apply Nat.ltb_ge in H2. cbv zeta.
    assert (Hr : assoc_scan_fuel n f (map2 f (evens (removelast l)) (odds l)) =
                 assoc_scan_fuel m f (map2 f (evens (removelast l)) (odds l))).
    { apply IH; rewrite reduced_length; destruct (length l) as [|[|k]]; simpl; try lia;
        pose proof (div2_le k); lia. }
    now rewrite Hr.
Qed.

(** The recursion equation of JAX's [_scan], without fuel. *)
Lemma assoc_scan_eq {A} (f : A -> A -> A) l :
  assoc_scan f l =
  if length l <? 2 then l
  else
    let odd_elems := assoc_scan f (map2 f (evens (removelast l)) (odds l)) in
    let even_tail := map2 f (if Nat.even (length l) then removelast odd_elems else odd_elems)
                            (evens (skipn 2 l)) in
    interleave (firstn 1 l ++ even_tail) odd_elems.
Proof.
  unfold assoc_scan at 1. destruct (length l) as [|n] eqn:Hl; [reflexivity|].
  cbn [assoc_scan_fuel]. rewrite Hl. destruct (S n <? 2) eqn:H2; auto.
  apply Nat.ltb_ge in H2.
  cbv zeta. unfold assoc_scan. rewrite (assoc_scan_fuel_irrel f n (length (map2 f (evens (removelast l)) (odds l)))).
  - now destruct (Nat.even (S n)).
  - rewrite reduced_length, Hl. destruct n as [|n]; [lia|]. simpl. pose proof (div2_le n). lia.
  - lia.
Qed.

(** ** Sequential scan *)
Lemma scan_states_length {S X} (body : S -> X -> S) : forall xs s, length (scan_states body s xs) = length xs.
Proof. induction xs; simpl; auto. Qed.

Lemma scan_states_nth {S X} (body : S -> X -> S) : forall xs s t x,
  nth_error xs t = Some x ->
  exists p y, nth_error (s :: scan_states body s xs) t = Some p /\
              nth_error (s :: scan_states body s xs) (1 + t) = Some y /\ y = body p x.
Proof.
  induction xs as [|x0 xs IH]; intros s t x Ht; [now destruct t|].
  destruct t as [|t]; simpl in Ht.
  - injection Ht as ->. exists s, (body s x). simpl. auto.
  - destruct (IH (body s x0) t x Ht) as (p & y & H1 & H2 & H3). exists p, y. simpl in *. auto.
Qed.

Lemma scan_states_fold {S X} (body : S -> X -> S) : forall xs s t y,
  nth_error (s :: scan_states body s xs) t = Some y -> y = fold_left body (firstn t xs) s.
Proof.
  induction xs as [|x0 xs IH]; intros s t y Ht.
  - destruct t as [|[|t]]; simpl in *; congruence.
  - destruct t as [|t]; [simpl in *; congruence|].
    cbn [scan_states nth_error] in Ht. cbn [firstn fold_left]. apply IH. exact Ht.
Qed.

Lemma scan_states_total {S X} (body : S -> X -> S) xs s t :
  t <= length xs -> nth_error (s :: scan_states body s xs) t = Some (fold_left body (firstn t xs) s).
Proof.
  intros Ht.
  destruct (nth_error (s :: scan_states body s xs) t) eqn:E.
  - f_equal. eapply scan_states_fold; eauto.
  - apply nth_error_None in E. simpl in E. rewrite scan_states_length in E. lia.
Qed.

Lemma scan_states_app {S X} (body : S -> X -> S) : forall xs ys s,
  scan_states body s (xs ++ ys) =
  scan_states body s xs ++ scan_states body (fold_left body xs s) ys.
Proof. induction xs; intros; simpl; auto. f_equal. apply IHxs. Qed.

Lemma skipn_skipn' {A} n m (l : list A) : skipn n (skipn m l) = skipn (m + n) l.
Proof. revert l; induction m; destruct l; simpl; auto. now rewrite skipn_nil. Qed.

Lemma Forall2_nth_error' {A B} (R : A -> B -> Prop) : forall l m,
  length l = length m ->
  (forall t x y, nth_error l t = Some x -> nth_error m t = Some y -> R x y) ->
  Forall2 R l m.
Proof.
  induction l as [|a l IH]; destruct m as [|b m]; simpl; intros Hl H; try discriminate; constructor.
  - apply (H 0); auto.
  - apply IH; [lia|]. intros t x y. apply (H (S t)).
Qed.

(** ** Associativity up to an equivalence on a closed domain *)
Section Assoc.
  Context {A : Type} (f : A -> A -> A) (D : A -> Prop) (E : A -> A -> Prop).
  Hypothesis E_refl : forall x, D x -> E x x.
  Hypothesis E_trans : forall x y z, D x -> D y -> D z -> E x y -> E y z -> E x z.
  Hypothesis E_sym : forall x y, D x -> D y -> E x y -> E y x.
  Hypothesis f_D : forall x y, D x -> D y -> D (f x y).
  Hypothesis f_E : forall x x' y y', D x -> D x' -> D y -> D y' -> E x x' -> E y y' -> E (f x y) (f x' y').
  Hypothesis f_assoc : forall x y z, D x -> D y -> D z -> E (f (f x y) z) (f x (f y z)).

  Lemma fold_D : forall l x, D x -> Forall D l -> D (fold_left f l x).
  Proof using All. induction l; intros x Hx Hl; simpl; auto. inversion Hl; subst. apply IHl; auto. Qed.

  Lemma fold_E : forall l x y, D x -> D y -> Forall D l -> E x y -> E (fold_left f l x) (fold_left f l y).
  Proof using All.
    induction l; intros x y Hx Hy Hl He; simpl; auto. inversion Hl; subst.
    apply IHl; auto.
  Qed.

  Lemma fold_push : forall l x y, D x -> D y -> Forall D l ->
    E (fold_left f l (f x y)) (f x (fold_left f l y)).
  Proof using All.
    induction l as [|z l IH]; intros x y Hx Hy Hl; simpl; auto.
    inversion Hl; subst.
    apply (E_trans _ (fold_left f l (f x (f y z)))); auto 6 using fold_D, fold_E.
  Qed.

  Lemma slice_nth {B} (l : list B) i x : nth_error l i = Some x -> firstn 1 (skipn i l) = [x].
  Proof. revert i; induction l; destruct i; simpl; intros H; try discriminate; [now injection H as ->|now apply IHl]. Qed.

  Lemma Forall_firstn' (l : list A) n : Forall D l -> Forall D (firstn n l).
  Proof. intros H. revert n; induction H; intros [|n]; simpl; constructor; auto. Qed.
  Lemma Forall_skipn' (l : list A) n : Forall D l -> Forall D (skipn n l).
  Proof. intros H. revert n; induction H; intros [|n]; simpl; auto. Qed.

  (** Product of the slice [i, k) of [l]. *)
  Definition is_prod (l : list A) (i k : nat) (x : A) : Prop :=
    D x /\ exists a r, firstn (k - i) (skipn i l) = a :: r /\ E x (fold_left f r a).

  Theorem assoc_scan_seq : forall e l,
    Forall D (e :: l) ->
    Forall2 (fun p s => E p s) (assoc_scan f (e :: l)) (e :: scan_states f e l).
  Proof using All.
    intros e l HD.
    assert (Hint : forall t y, nth_error (assoc_scan f (e :: l)) t = Some y -> is_prod (e :: l) 0 (S t) y).
    { apply (assoc_scan_interval f (is_prod (e :: l))).
      - intros i j k x y Hij Hjk Hk (Dx & a & r & Ha & Ex) (Dy & b & s & Hb & Ey).
        split; [auto|].
        assert (Hsl : firstn (k - i) (skipn i (e :: l)) = (a :: r) ++ (b :: s)).
        { replace (k - i) with ((j - i) + (k - j)) by lia.
          rewrite <- Ha, <- Hb.
          rewrite <- (firstn_skipn (j - i) (skipn i (e :: l))) at 1.
          rewrite firstn_app, firstn_firstn.
          replace (Nat.min (j - i + (k - j)) (j - i)) with (j - i) by lia.
          f_equal.
          rewrite firstn_length, skipn_length.
          replace (j - i + (k - j) - Nat.min (j - i) (length (e :: l) - i)) with (k - j) by lia.
          f_equal.
          rewrite skipn_skipn'. f_equal. lia. }
        rewrite Hsl. exists a, (r ++ b :: s). split; [reflexivity|].
        rewrite fold_left_app. cbn [fold_left].
        assert (Hall : Forall D ((a :: r) ++ b :: s)).
        { rewrite <- Hsl. now apply Forall_firstn', Forall_skipn'. }
        apply Forall_app in Hall. destruct Hall as [Har Hbs].
        inversion Har; inversion Hbs; subst.
        assert (D (fold_left f r a)) by auto using fold_D.
        assert (D (fold_left f s b)) by auto using fold_D.
        apply (E_trans _ (f (fold_left f r a) (fold_left f s b))); auto 6 using fold_D.
        apply E_sym; auto using fold_D. apply fold_push; auto.
      - intros i x Hx. split.
        + rewrite Forall_forall in HD. apply HD. eapply nth_error_In; eauto.
        + exists x, []. replace (S i - i) with 1 by lia. rewrite (slice_nth _ _ _ Hx).
          split; auto. simpl. apply E_refl. rewrite Forall_forall in HD. apply HD. eapply nth_error_In; eauto. }
    inversion HD as [|? ? De Dl]; subst.
    apply Forall2_nth_error'.
    - rewrite assoc_scan_length. simpl. now rewrite scan_states_length.
    - intros t p s Hp Hs. destruct (Hint t p Hp) as (Dp & a & r & Ha & Ep).
      apply scan_states_fold in Hs. subst s.
      replace (S t - 0) with (S t) in Ha by lia. simpl in Ha. injection Ha as <- <-. exact Ep.
  Qed.
End Assoc.

(** Exact associativity. *)
Corollary assoc_scan_seq_eq {A} (f : A -> A -> A) e l :
  (forall x y z, f (f x y) z = f x (f y z)) ->
  assoc_scan f (e :: l) = e :: scan_states f e l.
Proof.
  intros Ha.
  assert (H : Forall2 (fun p s => p = s) (assoc_scan f (e :: l)) (e :: scan_states f e l)).
  { apply (assoc_scan_seq f (fun _ => True)); intros; subst; auto; try congruence.
    clear. induction (e :: l); auto. }
  induction H; subst; f_equal; auto.
Qed.
