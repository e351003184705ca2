(** Depth and work of the even/odd scan and of the sequential scan, on formulas (WorkSpec.v). *)
From Coq Require Import List Arith Lia Bool.
From Verif Require Import ScanModel ScanProofs DriverSpec DriverProofs WorkSpec PropFloat.
Import ListNotations.

(** ** Lower bounds that hold for any way of combining the elements *)
Lemma leaves_pow e : length (leaves e) <= 2 ^ depth e.
Proof.
  induction e as [t | a IHa b IHb]; simpl; [lia|]. rewrite app_length.
  pose proof (Nat.pow_le_mono_r 2 (depth a) (Nat.max (depth a) (depth b)) ltac:(lia) ltac:(lia)).
  pose proof (Nat.pow_le_mono_r 2 (depth b) (Nat.max (depth a) (depth b)) ltac:(lia) ltac:(lia)).
  lia.
Qed.

Lemma leaves_log e n : length (leaves e) = n -> Nat.log2_up n <= depth e.
Proof.
  intros H. pose proof (leaves_pow e) as Hp. rewrite H in Hp.
  apply (Nat.le_trans _ (Nat.log2_up (2 ^ depth e))); [now apply Nat.log2_up_le_mono|].
  now rewrite Nat.log2_up_pow2 by lia.
Qed.

(** Formulas with pairwise different numbers of leaves, all but the one-leaf ones being calls. *)
Lemma calls_lower (calls es : list term) n :
  length es = n -> computed_by calls es ->
  (forall t, t < n -> exists e, In e es /\ length (leaves e) = S t) ->
  n - 1 <= length calls.
Proof.
  intros Hl Hc Hall.
  assert (Hincl : incl (map S (seq 1 (n - 1))) (map (fun e => length (leaves e)) calls)).
  { intros k Hk. apply in_map_iff in Hk. destruct Hk as (t & <- & Ht). apply in_seq in Ht.
    destruct (Hall t ltac:(lia)) as (e & He & Hle).
    apply in_map_iff. exists e. split; [exact Hle|].
    apply (Hc e He). destruct e as [u | a b]; simpl in *; [lia|]. now left. }
  apply NoDup_incl_length in Hincl.
  - rewrite !map_length, seq_length in Hincl. exact Hincl.
  - apply FinFun.Injective_map_NoDup; [intros x y H; lia | apply seq_NoDup].
Qed.

Lemma forward_calls_lower calls es n : forward_terms n es -> computed_by calls es -> n - 1 <= length calls.
Proof.
  intros [Hl He] Hc. apply (calls_lower calls es n Hl Hc). intros t Ht.
  destruct (nth_error es t) as [e|] eqn:E; [|apply nth_error_None in E; lia].
  exists e. split; [now apply nth_error_In in E|]. rewrite (He _ _ E). apply seq_length.
Qed.

Lemma backward_calls_lower calls es n : backward_terms n es -> computed_by calls es -> n - 1 <= length calls.
Proof.
  intros [Hl He] Hc. apply (calls_lower calls es n Hl Hc). intros t Ht.
  destruct (nth_error es (n - 1 - t)) as [e|] eqn:E; [|apply nth_error_None in E; lia].
  exists e. split; [now apply nth_error_In in E|]. rewrite (He _ _ E), seq_length. lia.
Qed.

(** ** The even/odd scan *)
Section Scan.
  Variable g : term -> term -> term.
  Hypothesis g_depth : forall a b, depth (g a b) = S (Nat.max (depth a) (depth b)).
  Hypothesis g_combs : forall a b, incl (combs (g a b)) (g a b :: combs a ++ combs b).

  Lemma in_removelast {A} (l : list A) x : In x (removelast l) -> In x l.
  Proof. induction l as [|a [|b l] IH]; simpl in *; intros H; tauto. Qed.
  Lemma in_evens {A} (l : list A) x : In x (evens l) -> In x l.
  Proof. induction l as [|a|a b l IH] using list_ind2; simpl; intros H; tauto. Qed.
  Lemma in_skipn {A} n (l : list A) x : In x (skipn n l) -> In x l.
  Proof. intros H. rewrite <- (firstn_skipn n l). apply in_or_app. now right. Qed.
  Lemma in_firstn {A} n (l : list A) x : In x (firstn n l) -> In x l.
  Proof. intros H. rewrite <- (firstn_skipn n l). apply in_or_app. now left. Qed.
  Lemma in_odds {A} (l : list A) x : In x (odds l) -> In x l.
  Proof. unfold odds. intros H. apply in_evens in H. destruct l; simpl in *; auto. Qed.
  Lemma in_map2 {A B C} (f : A -> B -> C) : forall l m x, In x (map2 f l m) ->
    exists a b, In a l /\ In b m /\ x = f a b.
  Proof.
    induction l as [|a l IH]; destruct m as [|b m]; simpl; intros x H; try tauto.
    destruct H as [<-|H]; [exists a, b; auto|]. destruct (IH _ _ H) as (a' & b' & Ha & Hb & ->). exists a', b'; auto.
  Qed.
  Lemma in_interleave {A} : forall (a b : list A) x, In x (interleave a b) -> In x a \/ In x b.
  Proof.
    induction a as [|y a IH]; destruct b as [|z b]; simpl; intros x H; auto.
    destruct H as [<-|[<-|H]]; auto. destruct (IH _ _ H); auto.
  Qed.

  Lemma log2_div2 n : 2 <= n -> Nat.log2 n = S (Nat.log2 (Nat.div2 n)).
  Proof.
    intros Hn. rewrite Nat.div2_div. assert (H1 : 1 <= n / 2) by (apply Nat.div_le_lower_bound; lia).
    apply (Nat.log2_unique n); [lia|].
    destruct (Nat.log2_spec (n / 2) ltac:(lia)) as [Ha Hb].
    pose proof (Nat.div_mod n 2 ltac:(lia)). pose proof (Nat.mod_upper_bound n 2 ltac:(lia)).
    simpl in *. lia.
  Qed.

  Lemma assoc_scan_depth : forall n l d, length l = n ->
    (forall x, In x l -> depth x <= d) ->
    forall y, In y (assoc_scan g l) -> depth y <= d + 2 * Nat.log2 n.
  Proof using g_depth.
    induction n as [n IH] using lt_wf_ind. intros l d Hn Hd y Hy.
    rewrite assoc_scan_eq in Hy. rewrite Hn in Hy.
    destruct (n <? 2) eqn:E; [apply Nat.ltb_lt in E; specialize (Hd _ Hy); lia|].
    apply Nat.ltb_ge in E. cbv zeta in Hy.
    set (red := map2 g (evens (removelast l)) (odds l)) in Hy.
    assert (Hred : forall x, In x red -> depth x <= S d).
    { intros x Hx. apply in_map2 in Hx. destruct Hx as (a & b & Ha & Hb & ->). rewrite g_depth.
      apply in_evens, in_removelast, Hd in Ha. apply in_odds, Hd in Hb. lia. }
    assert (Hlr : length red = Nat.div2 n) by (unfold red; now rewrite reduced_length, Hn).
    assert (Hlt : Nat.div2 n < n) by (apply Nat.lt_div2; lia).
    pose proof (IH (Nat.div2 n) Hlt red (S d) Hlr Hred) as HI.
    rewrite (log2_div2 n E).
    apply in_interleave in Hy. destruct Hy as [Hy|Hy]; [|apply HI in Hy; lia].
    apply in_app_or in Hy. destruct Hy as [Hy|Hy]; [apply in_firstn, Hd in Hy; lia|].
    apply in_map2 in Hy. destruct Hy as (a & b & Ha & Hb & ->). rewrite g_depth.
    assert (Ha' : In a (assoc_scan g red)) by (destruct (Nat.even n); auto; now apply in_removelast).
    apply HI in Ha'. apply in_evens, in_skipn, Hd in Hb. lia.
  Qed.

  Lemma assoc_scan_work : forall n l K, length l = n -> computed_by K l ->
    exists K', length K' + Nat.log2 n + 2 <= 2 * n + (if n =? 0 then 2 else 0) /\ computed_by (K' ++ K) (assoc_scan g l).
  Proof using g_combs.
    induction n as [n IH] using lt_wf_ind. intros l K Hn HK.
    rewrite assoc_scan_eq. rewrite Hn.
    destruct (n <? 2) eqn:E.
    { apply Nat.ltb_lt in E. exists []. split; [|exact HK]. destruct n as [|[|n]]; simpl; lia. }
    apply Nat.ltb_ge in E. cbv zeta.
    set (red := map2 g (evens (removelast l)) (odds l)).
    assert (Hlr : length red = Nat.div2 n) by (unfold red; now rewrite reduced_length, Hn).
    assert (Hlt : Nat.div2 n < n) by (apply Nat.lt_div2; lia).
    assert (Hpos : 1 <= Nat.div2 n) by (rewrite Nat.div2_div; apply Nat.div_le_lower_bound; lia).
    assert (Hred : computed_by (red ++ K) red).
    { intros x Hx c Hc. pose proof Hx as Hx0. unfold red in Hx. apply in_map2 in Hx. destruct Hx as (a & b & Ha & Hb & ->).
      apply g_combs in Hc. destruct Hc as [<-|Hc]; [apply in_or_app; now left|]. apply in_or_app; right.
      apply in_evens, in_removelast in Ha. apply in_odds in Hb. apply in_app_or in Hc.
      destruct Hc as [Hc|Hc]; [now apply (HK a) | now apply (HK b)]. }
    destruct (IH (Nat.div2 n) Hlt red (red ++ K) Hlr Hred) as (K1 & HK1 & HC1).
    set (o := assoc_scan g red) in *.
    set (ev := map2 g _ _).
    assert (Hlev : length ev <= Nat.div2 (S (n - 2))).
    { unfold ev. rewrite map2_length, (evens_length (skipn 2 l)), skipn_length, Hn. lia. }
    exists (ev ++ K1 ++ red). split.
    - rewrite !app_length, Hlr, (log2_div2 n E).
      destruct (Nat.eqb_spec (Nat.div2 n) 0) as [E0|E0]; [lia|].
      assert (Hsum : Nat.div2 (S (n - 2)) + Nat.div2 n + 1 <= n).
      { replace (S (n - 2)) with (n - 1) by lia. rewrite !Nat.div2_div.
        pose proof (Nat.div_mod n 2 ltac:(lia)). pose proof (Nat.div_mod (n - 1) 2 ltac:(lia)).
        pose proof (Nat.mod_upper_bound n 2 ltac:(lia)).
        destruct (Nat.eq_dec (n mod 2) 0); lia. }
      destruct (Nat.eqb_spec n 0); [lia|].
      assert (2 * Nat.div2 n <= n) by (rewrite Nat.div2_div; pose proof (Nat.div_mod n 2 ltac:(lia)); lia).
      lia.
    - intros y Hy c Hc.
      assert (Ho : forall z, In z o -> incl (combs z) ((ev ++ K1 ++ red) ++ K)).
      { intros z Hz c' Hc'. apply (HC1 z Hz) in Hc'. rewrite !in_app_iff in *. tauto. }
      apply in_interleave in Hy. destruct Hy as [Hy|Hy]; [|now apply (Ho y)].
      apply in_app_or in Hy. destruct Hy as [Hy|Hy].
      + apply in_firstn in Hy. apply (HK y) in Hc; [|exact Hy]. rewrite !in_app_iff. tauto.
      + pose proof Hy as Hy0. unfold ev in Hy. apply in_map2 in Hy. destruct Hy as (a & b & Ha & Hb & ->).
        apply g_combs in Hc. destruct Hc as [<-|Hc]; [rewrite !in_app_iff; tauto|].
        apply in_app_or in Hc. destruct Hc as [Hc|Hc].
        * apply (Ho a); [|exact Hc]. destruct (Nat.even n); auto; now apply in_removelast.
        * apply in_evens, in_skipn in Hb. apply (HK b Hb) in Hc. rewrite !in_app_iff. tauto.
  Qed.

  (** ** The sequential scan over elements that need no combination *)
  Lemma scan_depth e xs : depth e = 0 -> (forall x, In x xs -> depth x = 0) ->
    forall t y, nth_error (e :: scan_states g e xs) t = Some y -> depth y = t.
  Proof using g_depth.
    intros He Hx. induction t as [|t IH]; intros y Hy; [simpl in Hy; congruence|].
    destruct (nth_error xs t) as [x|] eqn:Ex.
    - destruct (scan_states_nth g xs e t x Ex) as (p & y' & Hp & Hy' & ->).
      cbn [Nat.add] in Hy'. rewrite Hy' in Hy. injection Hy as <-.
      rewrite g_depth, (IH p Hp), (Hx x); [lia|]. now apply nth_error_In in Ex.
    - apply nth_error_None in Ex.
      assert (S t < length (e :: scan_states g e xs)) by (apply nth_error_Some; congruence).
      simpl in H. rewrite scan_states_length in H. lia.
  Qed.

  Lemma scan_work : forall xs e K, combs e = [] \/ incl (combs e) K -> (forall x, In x xs -> combs x = []) ->
    computed_by (scan_states g e xs ++ K) (e :: scan_states g e xs).
  Proof using g_combs.
    induction xs as [|x xs IH]; intros e K He Hx y Hy c Hc.
    - destruct Hy as [<-|[]]. simpl. destruct He as [He|He]; [rewrite He in Hc; destruct Hc | now apply He].
    - simpl in Hy. destruct Hy as [<-|Hy].
      + apply in_or_app; right. destruct He as [He|He]; [rewrite He in Hc; destruct Hc | now apply He].
      + simpl.
        assert (Hg : incl (combs (g e x)) (g e x :: K)).
        { intros c' Hc'. apply g_combs in Hc'. destruct Hc' as [<-|Hc']; [now left|]. right.
          rewrite (Hx x (or_introl eq_refl)), app_nil_r in Hc'.
          destruct He as [He|He]; [rewrite He in Hc'; destruct Hc' | now apply He]. }
        assert (Hin : In c (scan_states g (g e x) xs ++ (g e x :: K))).
        { apply (IH (g e x) (g e x :: K) (or_intror Hg)) with y; auto.
          intros z Hz. apply Hx. now right. }
        apply in_app_or in Hin. destruct Hin as [Hin|[Hin|Hin]].
        * right. apply in_or_app. now left.
        * now left.
        * right. apply in_or_app. now right.
  Qed.
End Scan.

Lemma scan_states_hom {A B} (h : A -> B) (f : A -> A -> A) (g : B -> B -> B) :
  (forall a b, g (h a) (h b) = h (f a b)) ->
  forall xs s, scan_states g (h s) (map h xs) = map h (scan_states f s xs).
Proof. intros H. induction xs as [|x xs IH]; intros s; simpl; auto. rewrite H, IH. reflexivity. Qed.

Lemma prep_elements {A} (f : A -> A -> A) (d : A) (l : list A) :
  map (eval f d l) (map Prep (seq 0 (length l))) = l.
Proof.
  rewrite map_map. simpl. apply nth_ext with d d; [now rewrite map_length, seq_length|].
  intros i Hi. rewrite map_length, seq_length in Hi.
  rewrite nth_indep with (d' := nth 0 l d) by now rewrite map_length, seq_length.
  change (nth 0 l d) with ((fun t => nth t l d) 0). rewrite map_nth, seq_nth; auto.
Qed.
