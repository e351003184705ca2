(** Proofs about [filter] and [smoother] (ScanModel.v) against DriverSpec.v. *)
From Coq Require Import List Arith Lia Bool.
From Verif Require Import ScanModel ScanProofs DriverSpec.
Import ListNotations.

Section P.
  Context {Inp Key FSt SSt : Type}.
  Variable split : Key -> nat -> list Key.
  Hypothesis Hsplit : split_ok split.

  Lemma prepare_keys_length key n : length (prepare_keys split key n) = n.
  Proof using Hsplit.
    destruct key; simpl; [rewrite map_length; apply Hsplit | apply repeat_length].
  Qed.

  Lemma prepare_keys_nth key n t :
    t < n -> nth_error (prepare_keys split key n) t = Some (child_key split key n t).
  Proof using Hsplit.
    intros Ht. destruct key as [k|]; simpl.
    - rewrite nth_error_map. destruct (nth_error (split k n) t) eqn:E; auto.
      apply nth_error_None in E. rewrite Hsplit in E. lia.
    - clear Hsplit. revert t Ht. induction n; intros [|t] Ht; simpl; try lia; auto. apply IHn. lia.
  Qed.

  Lemma prepare_keys_cons key n :
    0 < n -> exists ks, prepare_keys split key n = child_key split key n 0 :: ks /\ length ks = n - 1 /\
      forall t, S t < n -> nth_error ks t = Some (child_key split key n (S t)).
  Proof using Hsplit.
    intros Hn. pose proof (prepare_keys_length key n) as Hl.
    pose proof (prepare_keys_nth key n) as Hnth.
    destruct (prepare_keys split key n) as [|k0 ks] eqn:E; simpl in Hl; [lia|].
    exists ks. repeat split; [|lia|].
    - specialize (Hnth 0 Hn). simpl in Hnth. congruence.
    - intros t Ht. apply (Hnth (S t) Ht).
  Qed.

  Lemma nth_error_combine {A B} : forall (l : list A) (m : list B) t a b,
    nth_error l t = Some a -> nth_error m t = Some b -> nth_error (combine l m) t = Some (a, b).
  Proof. induction l; destruct m; intros [|t]; simpl; intros; try discriminate; auto; congruence. Qed.

  Lemma nth_error_combine_inv {A B} : forall (l : list A) (m : list B) t a b,
    nth_error (combine l m) t = Some (a, b) -> nth_error l t = Some a /\ nth_error m t = Some b.
  Proof.
    induction l; destruct m; intros [|t] a' b'; simpl; intros; try discriminate; auto.
    injection H as <- <-; auto.
  Qed.

  Lemma filter_sequential (obj : Filter Inp Key FSt) inputs key :
    inputs <> [] ->
    exists states, filter split obj inputs false key = Ok states /\
      forward_run obj inputs (child_key split key (length inputs)) states.
  Proof using Hsplit.
    destruct inputs as [|x0 xs]; [congruence|]. intros _.
    unfold filter. set (n := length (x0 :: xs)).
    destruct (prepare_keys_cons key n ltac:(unfold n; simpl; lia)) as (ks & -> & Hlk & Hks).
    eexists; split; [reflexivity|].
    assert (Hlc : length (combine xs ks) = length xs) by (rewrite combine_length; unfold n in *; simpl in *; lia).
    repeat split.
    - cbn [length]. rewrite scan_states_length. now rewrite Hlc.
    - intros x [= <-]. reflexivity.
    - intros t x s Hx Hs.
      assert (Ht : t < length xs) by (cbn in Hx; apply nth_error_Some; congruence).
      cbn [nth_error] in Hx.
      assert (Hk : nth_error ks t = Some (child_key split key n (S t))) by (apply Hks; unfold n; simpl; lia).
      pose proof (nth_error_combine _ _ _ _ _ Hx Hk) as Hc.
      destruct (scan_states_nth (fun prev xk => filter_combine obj prev (filter_prepare obj (fst xk) (snd xk)))
                  _ (init_prepare obj x0 (child_key split key n 0)) _ _ Hc) as (p & y & Hp & Hy & ->).
      rewrite Hp in Hs. injection Hs as <-. exact Hy.
  Qed.

  Lemma forward_run_unique (obj : Filter Inp Key FSt) inputs keys s1 s2 :
    forward_run obj inputs keys s1 -> forward_run obj inputs keys s2 -> s1 = s2.
  Proof.
    intros (L1 & I1 & R1) (L2 & I2 & R2).
    assert (H : forall t, t < length inputs -> nth_error s1 t = nth_error s2 t).
    { induction t as [|t IH]; intros Ht.
      - destruct (nth_error inputs 0) as [x|] eqn:E; [|apply nth_error_None in E; lia].
        now rewrite (I1 x eq_refl), (I2 x eq_refl).
      - destruct (nth_error inputs (S t)) as [x|] eqn:E; [|apply nth_error_None in E; lia].
        specialize (IH ltac:(lia)).
        destruct (nth_error s1 t) as [s|] eqn:E1; [|apply nth_error_None in E1; lia].
        rewrite (R1 t x s), (R2 t x s); auto. }
    clear I1 R1 I2 R2. rewrite <- L1 in H. assert (HL : length s1 = length s2) by lia. clear L1 L2.
    revert s2 H HL. induction s1 as [|a s1 IH]; destruct s2 as [|b s2]; simpl; intros H HL; try lia; auto.
    f_equal.
    - specialize (H 0 ltac:(lia)). simpl in H. congruence.
    - apply IH; [|lia]. intros t Ht. apply (H (S t)). lia.
  Qed.

  Lemma forward_run_causal (obj : Filter Inp Key FSt) i1 i2 keys s1 s2 t :
    forward_run obj i1 keys s1 -> forward_run obj i2 keys s2 ->
    firstn (S t) i1 = firstn (S t) i2 ->
    forall u, u <= t -> nth_error s1 u = nth_error s2 u.
  Proof.
    intros (L1 & I1 & R1) (L2 & I2 & R2) Hpre.
    assert (Hn : forall u, u <= t -> nth_error i1 u = nth_error i2 u).
    { intros u Hu. rewrite <- (firstn_skipn (S t) i1), <- (firstn_skipn (S t) i2), Hpre.
      destruct (le_lt_dec (length (firstn (S t) i2)) u) as [Hle|Hlt].
      - rewrite firstn_length in Hle.
        assert (length i2 <= u) by lia.
        assert (Hs : skipn (S t) i2 = []) by (apply skipn_all2; lia).
        assert (Hl1 : length i1 <= S t).
        { assert (length (firstn (S t) i1) = length (firstn (S t) i2)) by congruence.
          rewrite !firstn_length in *. lia. }
        rewrite Hs, skipn_all2 by lia. reflexivity.
      - now rewrite !nth_error_app1. }
    induction u as [|u IH]; intros Hu.
    - destruct (nth_error i1 0) as [x|] eqn:E.
      + rewrite (I1 x eq_refl), (I2 x); auto. rewrite <- Hn; auto with arith.
      + pose proof E as E2. rewrite Hn in E2 by lia.
        apply nth_error_None in E, E2.
        rewrite (proj2 (nth_error_None s1 0)), (proj2 (nth_error_None s2 0)); auto; lia.
    - specialize (IH ltac:(lia)).
      destruct (nth_error i1 (S u)) as [x|] eqn:E.
      + assert (Hlt : S u < length i1) by (apply nth_error_Some; congruence).
        destruct (nth_error s1 u) as [s|] eqn:E1; [|apply nth_error_None in E1; lia].
        rewrite (R1 u x s), (R2 u x s); auto. rewrite <- Hn; auto.
      + pose proof E as E2. rewrite Hn in E2 by lia.
        apply nth_error_None in E, E2.
        rewrite (proj2 (nth_error_None s1 (S u))), (proj2 (nth_error_None s2 (S u))); auto; lia.
  Qed.

  Lemma map2_combine {A B C} (f : A -> B -> C) : forall l m,
    map2 f l m = map (fun p => f (fst p) (snd p)) (combine l m).
  Proof. induction l; destruct m; simpl; auto. now rewrite IHl. Qed.

  Lemma scan_states_map {S X Y} (body : S -> Y -> S) (g : X -> Y) : forall xs s,
    scan_states body s (map g xs) = scan_states (fun s x => body s (g x)) s xs.
  Proof. induction xs; intros; simpl; auto. now rewrite IHxs. Qed.

  Lemma assoc_scan_seq' {A} (f : A -> A -> A) D E e l :
    assoc_upto f D E -> D e -> Forall D l ->
    Forall2 E (assoc_scan f (e :: l)) (e :: scan_states f e l).
  Proof.
    intros [H1 H2 H3 H4 H5 H6] De Dl. apply (assoc_scan_seq f D E); auto.
  Qed.

  Lemma filter_parallel (obj : Filter Inp Key FSt) (D : FSt -> Prop) (E : FSt -> FSt -> Prop) inputs key :
    inputs <> [] ->
    assoc_upto (filter_combine obj) D E ->
    (forall x k, nth_error inputs 0 = Some x -> D (init_prepare obj x k)) ->
    (forall t x k, nth_error inputs (S t) = Some x -> D (filter_prepare obj x k)) ->
    exists ps ss, filter split obj inputs true key = Ok ps /\
                  filter split obj inputs false key = Ok ss /\ Forall2 E ps ss.
  Proof using Hsplit.
    destruct inputs as [|x0 xs]; [congruence|]. intros _ Hau Hinit Hprep.
    unfold filter. set (n := length (x0 :: xs)).
    destruct (prepare_keys_cons key n ltac:(unfold n; simpl; lia)) as (ks & -> & Hlk & Hks).
    do 2 eexists; split; [reflexivity|]. split; [reflexivity|].
    rewrite map2_combine.
    rewrite <- (scan_states_map (filter_combine obj) (fun xk => filter_prepare obj (fst xk) (snd xk))).
    apply assoc_scan_seq' with D; auto.
    - apply Forall_forall. intros s Hs. apply in_map_iff in Hs. destruct Hs as ([x k] & <- & Hin).
      apply in_combine_l in Hin. apply In_nth_error in Hin. destruct Hin as [t Ht].
      simpl. apply (Hprep t). exact Ht.
  Qed.

  (** ** Smoother *)
  Variable dummy_like : Inp -> Inp.
  Variable inputs_of : FSt -> Inp.

  Lemma nth_error_rev {A} (l : list A) t :
    t < length l -> nth_error (rev l) t = nth_error l (length l - 1 - t).
  Proof.
    intros Ht. destruct l as [|d l]; [simpl in Ht; lia|].
    rewrite !(nth_error_nth' _ d) by (rewrite ?rev_length; lia).
    f_equal. rewrite rev_nth by auto. f_equal. lia.
  Qed.

  Lemma scan_rev_nth {S X} (body : S -> X -> S) fin xs t x :
    nth_error xs t = Some x ->
    exists n, nth_error (scan_states_rev body fin xs ++ [fin]) (1 + t) = Some n /\
              nth_error (scan_states_rev body fin xs ++ [fin]) t = Some (body n x).
  Proof.
    intros Hx.
    assert (Ht : t < length xs) by (apply nth_error_Some; congruence).
    unfold scan_states_rev.
    set (st := scan_states body fin (rev xs)).
    assert (Hl : length st = length xs) by (unfold st; rewrite scan_states_length, rev_length; auto).
    assert (He : rev st ++ [fin] = rev (fin :: st)) by reflexivity.
    rewrite He.
    assert (Hr : nth_error (rev xs) (length xs - 1 - t) = Some x).
    { rewrite nth_error_rev by lia. now replace (length xs - 1 - (length xs - 1 - t)) with t by lia. }
    destruct (scan_states_nth body (rev xs) fin _ _ Hr) as (p & y & Hp & Hy & ->).
    fold st in Hp, Hy.
    exists p. rewrite !nth_error_rev by (simpl; lia).
    cbn [length]. rewrite Hl.
    replace (Datatypes.S (length xs) - 1 - (1 + t)) with (length xs - 1 - t) by lia.
    replace (Datatypes.S (length xs) - 1 - t) with (1 + (length xs - 1 - t)) by lia.
    auto.
  Qed.

  Lemma last_nth_error {A} (l : list A) d a :
    nth_error l (length l - 1) = Some a -> last l d = a.
  Proof.
    revert d. induction l as [|b l IH]; intros d H; [now destruct (length (@nil A) - 1)|].
    destruct l as [|c l]; [simpl in *; congruence|].
    change (last (b :: c :: l) d) with (last (c :: l) d). apply IH.
    simpl in *. now rewrite Nat.sub_0_r in *.
  Qed.

  Lemma smoother_sequential (obj : Smoother Inp Key FSt SSt) fstates trans x0 inputs key :
    trans <> [] ->
    length fstates = S (length trans) ->
    nth_error trans 0 = Some x0 ->
    (inputs = trans \/ exists x, inputs = x :: trans) ->
    exists states,
      smoother split dummy_like inputs_of obj fstates (Some inputs) false key = Ok states /\
      backward_run obj fstates trans (dummy_like x0) (child_key split key (S (length trans))) states.
  Proof using Hsplit.
    intros Hne Hlf Hx0 Hin. unfold smoother.
    destruct fstates as [|f0 fs]; [discriminate|].
    set (fstates := f0 :: fs) in *.
    assert (HT : length fstates - 1 = length trans) by lia.
    assert (Hck : (if length inputs =? length fstates - 1 + 1 then Ok (tl inputs)
                   else if length inputs =? length fstates - 1 then Ok inputs else Err ValueError)
                  = Ok trans).
    { rewrite HT. destruct Hin as [->|[x ->]].
      - replace (length trans =? length trans + 1) with false by (symmetry; apply Nat.eqb_neq; lia).
        now rewrite Nat.eqb_refl.
      - cbn [length]. rewrite Nat.add_1_r, Nat.eqb_refl. reflexivity. }
    rewrite Hck. clear Hck Hin inputs.
    rewrite HT, Nat.add_1_r.
    destruct (prepare_keys_cons key (S (length trans)) ltac:(lia)) as (ks & -> & Hlk & Hks).
    destruct trans as [|x1 trans']; [congruence|]. simpl in Hx0. injection Hx0 as ->.
    set (trans := x0 :: trans') in *.
    eexists; split; [reflexivity|].
    set (fin := convert_filter_to_smoother_state _ _ _ _).
    assert (Hlc : length (combine (combine (removelast fstates) trans) ks) = length trans).
    { rewrite !combine_length, removelast_length. lia. }
    unfold backward_run. split; [auto|]. split; [|split].
    - rewrite app_length. unfold scan_states_rev. rewrite rev_length, scan_states_length, rev_length, Hlc.
      simpl; lia.
    - intros fT HfT. rewrite nth_error_app2.
      + unfold scan_states_rev. rewrite rev_length, scan_states_length, rev_length, Hlc, Nat.sub_diag.
        simpl. unfold fin. do 2 f_equal.
        apply last_nth_error. rewrite HT. exact HfT.
      + unfold scan_states_rev. rewrite rev_length, scan_states_length, rev_length, Hlc. lia.
    - intros t f x nx Hf Hx Hn.
      assert (Ht : t < length trans) by (apply nth_error_Some; congruence).
      assert (Hf' : nth_error (removelast fstates) t = Some f).
      { rewrite removelast_nth; auto. rewrite Hlf. lia. }
      specialize (Hks t ltac:(lia)).
      pose proof (nth_error_combine _ _ _ _ _ (nth_error_combine _ _ _ _ _ Hf' Hx) Hks) as Hc.
      match goal with |- nth_error (scan_states_rev ?b _ _ ++ _) _ = _ =>
        destruct (scan_rev_nth b fin _ _ _ Hc) as (p & Hp & Hy) end.
      simpl in Hp, Hn. rewrite Hp in Hn. injection Hn as ->. exact Hy.
  Qed.

  Lemma smoother_bad_length (obj : Smoother Inp Key FSt SSt) fstates inputs parallel key :
    fstates <> [] -> length inputs <> length fstates -> S (length inputs) <> length fstates ->
    smoother split dummy_like inputs_of obj fstates (Some inputs) parallel key = Err ValueError.
  Proof.
    intros Hne H1 H2. unfold smoother. destruct fstates as [|f0 fs]; [congruence|].
    cbn [length] in *.
    destruct (Nat.eqb_spec (length inputs) (S (length fs) - 1 + 1)); [lia|].
    destruct (Nat.eqb_spec (length inputs) (S (length fs) - 1)); [lia|]. reflexivity.
  Qed.

  Lemma smoother_default_inputs (obj : Smoother Inp Key FSt SSt) fstates parallel key :
    smoother split dummy_like inputs_of obj fstates None parallel key =
    smoother split dummy_like inputs_of obj fstates (Some (map inputs_of fstates)) parallel key.
  Proof. reflexivity. Qed.

  Lemma smoother_drop_first (obj : Smoother Inp Key FSt SSt) fstates x trans parallel key :
    length fstates = S (length trans) ->
    smoother split dummy_like inputs_of obj fstates (Some (x :: trans)) parallel key =
    smoother split dummy_like inputs_of obj fstates (Some trans) parallel key.
  Proof.
    intros Hl. unfold smoother. destruct fstates as [|f0 fs]; [auto|].
    rewrite Hl. cbn [length]. replace (S (length trans) - 1 + 1) with (S (length trans)) by lia.
    rewrite Nat.eqb_refl.
    replace (length trans =? S (length trans)) with false by (symmetry; apply Nat.eqb_neq; lia).
    replace (S (length trans) - 1) with (length trans) by lia.
    rewrite Nat.eqb_refl. reflexivity.
  Qed.

  Lemma backward_run_unique (obj : Smoother Inp Key FSt SSt) fstates trans d keys s1 s2 :
    backward_run obj fstates trans d keys s1 -> backward_run obj fstates trans d keys s2 -> s1 = s2.
  Proof.
    intros (Lf & L1 & I1 & R1) (_ & L2 & I2 & R2).
    set (T := length trans) in *.
    assert (H : forall u, u <= T -> nth_error s1 (T - u) = nth_error s2 (T - u)).
    { induction u as [|u IH]; intros Hu.
      - rewrite Nat.sub_0_r.
        destruct (nth_error fstates T) as [f|] eqn:E; [|apply nth_error_None in E; lia].
        rewrite (I1 f eq_refl), (I2 f eq_refl). reflexivity.
      - specialize (IH ltac:(lia)).
        replace (T - u) with (S (T - S u)) in IH by lia.
        destruct (nth_error fstates (T - S u)) as [f|] eqn:E; [|apply nth_error_None in E; lia].
        destruct (nth_error trans (T - S u)) as [x|] eqn:Ex; [|apply nth_error_None in Ex; lia].
        destruct (nth_error s1 (S (T - S u))) as [n|] eqn:En; [|apply nth_error_None in En; lia].
        rewrite (R1 _ f x n), (R2 _ f x n); auto. }
    assert (H' : forall t, t <= T -> nth_error s1 t = nth_error s2 t).
    { intros t Ht. replace t with (T - (T - t)) by lia. apply H. lia. }
    clear - H' L1 L2.
    assert (HL : length s1 = length s2) by lia.
    assert (H : forall t, t < length s1 -> nth_error s1 t = nth_error s2 t) by (intros; apply H'; lia).
    clear H' L1 L2. revert s2 HL H.
    induction s1 as [|a s1 IH]; destruct s2 as [|b s2]; simpl; intros HL H; try lia; auto.
    f_equal.
    - specialize (H 0 ltac:(lia)). simpl in H. congruence.
    - apply IH; [lia|]. intros t Ht. apply (H (S t)). lia.
  Qed.

  Lemma Forall2_rev' {A B} (R : A -> B -> Prop) l m : Forall2 R l m -> Forall2 R (rev l) (rev m).
  Proof. induction 1; simpl; auto. apply Forall2_app; auto. Qed.

  Lemma smoother_parallel (obj : Smoother Inp Key FSt SSt) (D : SSt -> Prop) (E : SSt -> SSt -> Prop)
        fstates trans key :
    trans <> [] ->
    length fstates = S (length trans) ->
    assoc_upto (smoother_combine obj) D E ->
    (forall f x k, nth_error fstates (length trans) = Some f ->
       D (convert_filter_to_smoother_state obj f x k)) ->
    (forall t f x k, nth_error fstates t = Some f -> nth_error trans t = Some x ->
       D (smoother_prepare obj f x k)) ->
    exists ps ss,
      smoother split dummy_like inputs_of obj fstates (Some trans) true key = Ok ps /\
      smoother split dummy_like inputs_of obj fstates (Some trans) false key = Ok ss /\
      Forall2 E ps ss.
  Proof using Hsplit.
    intros Hne Hlf Hau Hconv Hprep. unfold smoother.
    destruct fstates as [|f0 fs]; [discriminate|].
    set (fstates := f0 :: fs) in *.
    assert (HT : length fstates - 1 = length trans) by lia.
    rewrite HT.
    replace (length trans =? length trans + 1) with false by (symmetry; apply Nat.eqb_neq; lia).
    rewrite Nat.eqb_refl, Nat.add_1_r.
    destruct (prepare_keys_cons key (S (length trans)) ltac:(lia)) as (ks & -> & Hlk & Hks).
    destruct trans as [|x0 trans']; [congruence|].
    set (trans := x0 :: trans') in *.
    do 2 eexists; split; [reflexivity|]. split; [reflexivity|].
    set (fin := convert_filter_to_smoother_state _ _ _ _).
    rewrite map2_combine.
    set (L := combine _ ks).
    unfold assoc_scan_rev, scan_states_rev.
    set (g := fun current next => smoother_combine obj next current).
    set (pr := fun x => smoother_prepare obj (fst (fst x)) (snd (fst x)) (snd x)).
    change (map _ L) with (map pr L).
    rewrite rev_app_distr. simpl.
    change (Forall2 E (rev (assoc_scan g (fin :: rev (map pr L))))
              (rev (fin :: scan_states (fun next x => g next (pr x)) fin (rev L)))).
    apply Forall2_rev'. rewrite <- map_rev, <- (scan_states_map g pr).
    apply assoc_scan_seq' with D.
    - destruct Hau as [H1 H2 H3 H4 H5 H6]. constructor; unfold g; auto.
    - unfold fin.
      destruct (nth_error fstates (length trans)) as [fT|] eqn:EfT; [|apply nth_error_None in EfT; lia].
      rewrite (last_nth_error fstates f0 fT) by (rewrite HT; exact EfT).
      apply Hconv; auto.
    - apply Forall_forall. intros s Hs. apply in_map_iff in Hs. destruct Hs as ([[f x] k] & <- & Hs).
      apply in_rev in Hs. unfold L in Hs. apply In_nth_error in Hs. destruct Hs as [t Ht].
      apply nth_error_combine_inv in Ht. destruct Ht as [Ht _].
      apply nth_error_combine_inv in Ht. destruct Ht as [Hf Hx].
      apply removelast_nth_some in Hf. destruct Hf as [Hf _]. unfold pr. simpl. eauto.
  Qed.
End P.

Lemma filter_parallel_eq {Inp Key St} (split : Key -> nat -> list Key) (obj : Filter Inp Key St)
      (inputs : list Inp) (key : option Key) :
  split_ok split ->
  (forall x y z, filter_combine obj (filter_combine obj x y) z
                 = filter_combine obj x (filter_combine obj y z)) ->
  filter split obj inputs true key = filter split obj inputs false key.
Proof.
  intros Hs Ha. destruct inputs as [|x0 xs]; [reflexivity|].
  destruct (filter_parallel split Hs obj (fun _ => True) eq (x0 :: xs) key) as (ps & ss & -> & -> & H);
    auto; try discriminate.
  - constructor; intros; subst; auto.
  - f_equal. induction H; subst; f_equal; auto.
Qed.

Lemma firstn_nth_ext {A} (l m : list A) : forall t n1 n2,
  length l = n1 -> length m = n2 -> n1 = n2 ->
  (forall u, u <= t -> nth_error l u = nth_error m u) -> firstn (S t) l = firstn (S t) m.
Proof.
  revert m. induction l as [|a l IH]; destruct m as [|b m]; intros t n1 n2 H1 H2 H12 H;
    simpl in *; subst; try discriminate; auto.
  pose proof (H 0 ltac:(lia)) as H0. simpl in H0. injection H0 as ->. f_equal.
  destruct t as [|t]; [reflexivity|].
  eapply IH; auto. intros u Hu. apply (H (S u)). lia.
Qed.

(** ** Interval rules for the drivers: any interval-indexed family of predicates preserved by the
    combine holds of every output, in both modes. *)
Lemma scan_interval {A} (f : A -> A -> A) (P : nat -> nat -> A -> Prop) e l :
  (forall i j k x y, i < j -> j < k -> k <= length (e :: l) -> P i j x -> P j k y -> P i k (f x y)) ->
  (forall i x, nth_error (e :: l) i = Some x -> P i (S i) x) ->
  forall t y, nth_error (e :: scan_states f e l) t = Some y -> P 0 (S t) y.
Proof.
  intros Hc He. induction t as [|t IH]; intros y Hy.
  - simpl in Hy. injection Hy as <-. apply He. reflexivity.
  - assert (Ht : t < length l).
    { assert (S t < length (e :: scan_states f e l)) by (apply nth_error_Some; congruence).
      simpl in H. rewrite scan_states_length in H. lia. }
    destruct (nth_error l t) as [x|] eqn:Ex; [|apply nth_error_None in Ex; lia].
    destruct (scan_states_nth f l e t x Ex) as (p & y' & Hp & Hy' & ->).
    cbn [Nat.add] in Hy'. rewrite Hy' in Hy. injection Hy as <-.
    apply (Hc _ (S t)); try lia; [simpl; lia | now apply IH |].
    apply He. exact Ex.
Qed.

Lemma filter_interval {Inp Key St} (split : Key -> nat -> list Key) (obj : Filter Inp Key St)
      (P : nat -> nat -> St -> Prop) (inputs : list Inp) (parallel : bool) (key : option Key) :
  split_ok split -> inputs <> [] ->
  (forall i j k x y, i < j -> j < k -> k <= length inputs -> P i j x -> P j k y ->
                     P i k (filter_combine obj x y)) ->
  (forall x k, nth_error inputs 0 = Some x -> P 0 1 (init_prepare obj x k)) ->
  (forall t x k, nth_error inputs (S t) = Some x -> P (S t) (S (S t)) (filter_prepare obj x k)) ->
  exists states, filter split obj inputs parallel key = Ok states /\
    length states = length inputs /\
    forall t s, nth_error states t = Some s -> P 0 (S t) s.
Proof.
  intros Hs. destruct inputs as [|x0 xs]; [congruence|]. intros _ Hc H0 H1.
  unfold filter. set (n := length (x0 :: xs)).
  destruct (prepare_keys_cons split Hs key n ltac:(unfold n; simpl; lia)) as (ks & -> & Hlk & Hks).
  set (e0 := init_prepare obj x0 _).
  set (l := map2 (filter_prepare obj) xs ks).
  assert (Hll : length l = length xs).
  { unfold l. rewrite map2_length. unfold n in Hlk. simpl in Hlk. lia. }
  assert (Hel : forall i x, nth_error (e0 :: l) i = Some x -> P i (S i) x).
  { intros [|i] x Hx; simpl in Hx.
    - injection Hx as <-. apply H0. reflexivity.
    - unfold l in Hx. apply map2_nth in Hx. destruct Hx as (a & b & Ha & Hb & ->). apply H1. exact Ha. }
  assert (Hcl : forall i j k x y, i < j -> j < k -> k <= length (e0 :: l) -> P i j x -> P j k y ->
                     P i k (filter_combine obj x y)).
  { intros i j k x y Hij Hjk Hk. apply Hc; auto. simpl in *. lia. }
  destruct parallel.
  - eexists; split; [reflexivity|]. split.
    + rewrite assoc_scan_length. unfold n. cbn [length]. fold l. lia.
    + apply assoc_scan_interval; auto.
  - eexists; split; [reflexivity|].
    rewrite <- (scan_states_map (filter_combine obj) (fun xk => filter_prepare obj (fst xk) (snd xk))).
    rewrite <- map2_combine. fold l. split.
    + unfold n. cbn [length]. rewrite scan_states_length. lia.
    + apply scan_interval; auto.
Qed.

Lemma smoother_interval {Inp Key FSt SSt} (split : Key -> nat -> list Key)
      (dummy_like : Inp -> Inp) (inputs_of : FSt -> Inp) (obj : Smoother Inp Key FSt SSt)
      (P : nat -> nat -> SSt -> Prop) (fstates : list FSt) (trans : list Inp)
      (parallel : bool) (key : option Key) :
  let T := length trans in
  split_ok split -> trans <> [] -> length fstates = S T ->
  (forall i j k x y, i < j -> j < k -> k <= S T -> P i j x -> P j k y ->
                     P i k (smoother_combine obj x y)) ->
  (forall f x k, nth_error fstates T = Some f ->
     P T (S T) (convert_filter_to_smoother_state obj f x k)) ->
  (forall t f x k, nth_error fstates t = Some f -> nth_error trans t = Some x ->
     P t (S t) (smoother_prepare obj f x k)) ->
  exists states,
    smoother split dummy_like inputs_of obj fstates (Some trans) parallel key = Ok states /\
    length states = S T /\
    forall t s, nth_error states t = Some s -> P t (S T) s.
Proof.
  intros T Hs Hne Hlf Hc Hconv Hprep. unfold smoother.
  destruct fstates as [|f0 fs]; [discriminate|].
  set (fstates := f0 :: fs) in *.
  assert (HT : length fstates - 1 = length trans) by (unfold T in *; lia).
  rewrite HT.
  replace (length trans =? length trans + 1) with false by (symmetry; apply Nat.eqb_neq; lia).
  rewrite Nat.eqb_refl, Nat.add_1_r.
  destruct (prepare_keys_cons split Hs key (S (length trans)) ltac:(lia)) as (ks & -> & Hlk & Hks).
  destruct trans as [|x0 trans']; [congruence|].
  set (trans := x0 :: trans') in *.
  set (fin := convert_filter_to_smoother_state _ _ _ _).
  set (g := fun current next => smoother_combine obj next current).
  set (pr := fun x : FSt * Inp * option Key => smoother_prepare obj (fst (fst x)) (snd (fst x)) (snd x)).
  set (L := combine (combine (removelast fstates) trans) ks).
  assert (HlL : length L = T).
  { unfold L. rewrite !combine_length, removelast_length. fold T in HT, Hlk |- *. lia. }
  set (Q := fun i k s => P (S T - k) (S T - i) s).
  assert (HQc : forall i j k x y, i < j -> j < k -> k <= length (fin :: map pr (rev L)) ->
              Q i j x -> Q j k y -> Q i k (g x y)).
  { intros i j k x y Hij Hjk Hk Hx Hy. simpl in Hk. rewrite map_length, rev_length, HlL in Hk.
    unfold Q, g in *. apply (Hc _ (S T - j)); auto; lia. }
  assert (HQe : forall i x, nth_error (fin :: map pr (rev L)) i = Some x -> Q i (S i) x).
  { intros [|i] x Hx; simpl in Hx.
    - injection Hx as <-. unfold Q. replace (S T - 1) with T by lia. replace (S T - 0) with (S T) by lia.
      unfold fin.
      destruct (nth_error fstates T) as [fT|] eqn:EfT; [|apply nth_error_None in EfT; lia].
      rewrite (last_nth_error fstates f0 fT) by (rewrite HT; exact EfT). now apply Hconv.
    - rewrite nth_error_map in Hx.
      destruct (nth_error (rev L) i) as [y|] eqn:Ey; [|discriminate]. simpl in Hx. injection Hx as <-.
      assert (Hi : i < length (rev L)) by (apply nth_error_Some; congruence).
      rewrite rev_length in Hi.
      rewrite nth_error_rev in Ey by auto. rewrite HlL in *.
      unfold Q. replace (S T - S i) with (S (T - 1 - i)) by lia.
      replace (S T - S (S i)) with (T - 1 - i) by lia.
      destruct y as [[f x] k]. unfold L in Ey.
      apply nth_error_combine_inv in Ey. destruct Ey as [Ey _].
      apply nth_error_combine_inv in Ey. destruct Ey as [Hf Hx].
      apply removelast_nth_some in Hf. destruct Hf as [Hf _]. unfold pr. simpl. eauto. }
  assert (Hfinal : forall sts, length sts = S T ->
            (forall t y, nth_error sts t = Some y -> Q 0 (S t) y) ->
            length (rev sts) = S T /\ forall t s, nth_error (rev sts) t = Some s -> P t (S T) s).
  { intros sts Hl HQ. split; [now rewrite rev_length|].
    intros t s Hts. assert (Ht : t < length (rev sts)) by (apply nth_error_Some; congruence).
    rewrite rev_length in Ht. rewrite nth_error_rev in Hts by auto.
    apply HQ in Hts. unfold Q in Hts. rewrite Hl in Hts.
    replace (S T - S (S T - 1 - t)) with t in Hts by lia.
    now replace (S T - 0) with (S T) in Hts by lia. }
  destruct parallel.
  - eexists; split; [reflexivity|]. unfold assoc_scan_rev.
    rewrite map2_combine. rewrite rev_app_distr. cbn [rev app].
    fold L. change (map _ L) with (map pr L). rewrite <- map_rev.
    apply Hfinal.
    + rewrite assoc_scan_length. simpl. now rewrite map_length, rev_length, HlL.
    + apply assoc_scan_interval; auto.
  - eexists; split; [reflexivity|]. unfold scan_states_rev.
    change (rev ?a ++ [fin]) with (rev (fin :: a)).
    fold L.
    change (scan_states _ fin (rev L)) with (scan_states (fun s x => g s (pr x)) fin (rev L)).
    rewrite <- (scan_states_map g pr).
    apply Hfinal.
    + simpl. now rewrite scan_states_length, map_length, rev_length, HlL.
    + apply scan_interval; auto.
Qed.
