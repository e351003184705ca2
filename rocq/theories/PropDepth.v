(** C85: depth and work of the drivers: temporal parallelisation takes logarithmic time. *)
From Coq Require Import List Arith Lia Bool.
From Verif Require Import ScanModel ScanProofs DriverSpec DriverProofs WorkSpec ScanDepth PropFloat.
Import ListNotations.

(** The elements prepared from the inputs, one per time step, with the keys of the steps. *)
Definition forward_elements {In Key St} (obj : Filter In Key St) (keys : nat -> option Key) (inputs : list In)
           (prepared : list St) : Prop :=
  length prepared = length inputs /\
  (forall x, nth_error inputs 0 = Some x -> nth_error prepared 0 = Some (init_prepare obj x (keys 0))) /\
  (forall t x, nth_error inputs (S t) = Some x ->
     nth_error prepared (S t) = Some (filter_prepare obj x (keys (S t)))).

Definition backward_elements {In Key FSt SSt} (obj : Smoother In Key FSt SSt) (keys : nat -> option Key)
           (fstates : list FSt) (trans : list In) (dummy : In) (prepared : list SSt) : Prop :=
  length prepared = S (length trans) /\
  (forall f, nth_error fstates (length trans) = Some f ->
     nth_error prepared (length trans) = Some (convert_filter_to_smoother_state obj f dummy (keys 0))) /\
  (forall t f x, nth_error fstates t = Some f -> nth_error trans t = Some x ->
     nth_error prepared t = Some (smoother_prepare obj f x (keys (S t)))).

(** ** The formulas of the four passes *)
Lemma scan_forward_terms n : 0 < n ->
  forward_terms n (assoc_scan Comb (map Prep (seq 0 n))) /\
  forward_terms n (Prep 0 :: scan_states Comb (Prep 0) (map Prep (seq 1 (n - 1)))).
Proof.
  intros Hn.
  assert (Hc : forall i j k x y, i < j -> j < k -> leaves x = seq i (j - i) -> leaves y = seq j (k - j) ->
                 leaves (Comb x y) = seq i (k - i)).
  { intros i j k x y Hij Hjk Hx Hy. simpl. rewrite Hx, Hy.
    replace (seq j) with (seq (i + (j - i))) by (f_equal; lia).
    rewrite <- seq_app. f_equal. lia. }
  assert (Hseq : seq 0 n = 0 :: seq 1 (n - 1)) by (destruct n; [lia|]; simpl; now rewrite Nat.sub_0_r).
  assert (He : forall i x, nth_error (map Prep (seq 0 n)) i = Some x -> leaves x = seq i (S i - i)).
  { intros i x Hx. rewrite nth_error_map in Hx. destruct (nth_error (seq 0 n) i) as [k|] eqn:E; [|discriminate].
    simpl in Hx. injection Hx as <-. apply nth_error_nth with (d := 0) in E as E'.
    assert (i < n) by (rewrite <- (seq_length n 0); apply nth_error_Some; congruence).
    rewrite seq_nth in E' by auto. subst k. replace (S i - i) with 1 by lia. reflexivity. }
  split; split.
  - rewrite assoc_scan_length, map_length. apply seq_length.
  - intros t e Ht.
    pose proof (assoc_scan_interval Comb (fun i j x => leaves x = seq i (j - i)) (map Prep (seq 0 n))) as H.
    rewrite (H ltac:(intros; eapply Hc; eauto) He t e Ht). f_equal.
  - simpl. rewrite scan_states_length, map_length, seq_length. lia.
  - intros t e Ht.
    pose proof (scan_interval Comb (fun i j x => leaves x = seq i (j - i)) (Prep 0) (map Prep (seq 1 (n - 1)))) as H.
    rewrite (H ltac:(intros; eapply Hc; eauto) ltac:(rewrite Hseq in He; exact He) t e Ht). f_equal.
Qed.

Definition rcomb a b := Comb b a.

Lemma scan_backward_terms n : 0 < n ->
  backward_terms n (rev (assoc_scan rcomb (rev (map Prep (seq 0 n))))) /\
  backward_terms n (rev (Prep (n - 1) :: scan_states rcomb (Prep (n - 1)) (rev (map Prep (seq 0 (n - 1)))))).
Proof.
  intros Hn.
  set (P := fun i j x => i < j <= n -> leaves x = seq (n - j) (j - i)).
  assert (Hc : forall i j k x y, i < j -> j < k -> k <= n -> P i j x -> P j k y -> P i k (rcomb x y)).
  { intros i j k x y Hij Hjk Hk Hx Hy _. unfold rcomb. simpl. rewrite (Hx ltac:(lia)), (Hy ltac:(lia)).
    replace (n - j) with (n - k + (k - j)) by lia.
    rewrite <- seq_app. f_equal. lia. }
  assert (Hseq : rev (map Prep (seq 0 n)) = Prep (n - 1) :: rev (map Prep (seq 0 (n - 1)))).
  { destruct n; [lia|]. rewrite seq_S, map_app, rev_app_distr. simpl. now rewrite Nat.sub_0_r. }
  assert (He : forall i x, nth_error (rev (map Prep (seq 0 n))) i = Some x -> P i (S i) x).
  { intros i x Hx Hi. rewrite nth_error_rev in Hx by (rewrite map_length, seq_length; lia).
    rewrite nth_error_map, map_length, seq_length in Hx.
    destruct (nth_error (seq 0 n) (n - 1 - i)) as [k|] eqn:E; [|discriminate].
    simpl in Hx. injection Hx as <-. apply nth_error_nth with (d := 0) in E as E'.
    rewrite seq_nth in E' by lia. subst k. replace (S i - i) with 1 by lia. simpl. f_equal. lia. }
  assert (Hfin : forall sts, length sts = n -> (forall t y, nth_error sts t = Some y -> P 0 (S t) y) ->
            backward_terms n (rev sts)).
  { intros sts Hl HP. split; [now rewrite rev_length|]. intros t e Ht.
    assert (Htn : t < n) by (rewrite <- Hl, <- rev_length; apply nth_error_Some; congruence).
    rewrite nth_error_rev in Ht by lia. apply HP in Ht. rewrite Hl in Ht.
    rewrite (Ht ltac:(lia)). f_equal; lia. }
  split; apply Hfin.
  - rewrite assoc_scan_length, rev_length, map_length. apply seq_length.
  - apply assoc_scan_interval; [|exact He]. intros i j k x y. rewrite rev_length, map_length, seq_length. apply Hc.
  - simpl. rewrite scan_states_length, rev_length, map_length, seq_length. lia.
  - apply scan_interval; [|rewrite Hseq in He; exact He].
    intros i j k x y. simpl. rewrite rev_length, map_length, seq_length.
    intros. apply (Hc i j); auto. lia.
Qed.

Lemma comb_props : (forall a b, depth (Comb a b) = S (Nat.max (depth a) (depth b))) /\
                   (forall a b, incl (combs (Comb a b)) (Comb a b :: combs a ++ combs b)).
Proof. split; [reflexivity|]. intros a b. apply incl_refl. Qed.
Lemma rcomb_props : (forall a b, depth (rcomb a b) = S (Nat.max (depth a) (depth b))) /\
                    (forall a b, incl (combs (rcomb a b)) (rcomb a b :: combs a ++ combs b)).
Proof.
  split; [intros a b; unfold rcomb; simpl; lia|]. intros a b c. unfold rcomb. cbn [combs In].
  rewrite !in_app_iff. tauto.
Qed.
Lemma prep_depth n e : In e (map Prep (seq 0 n)) -> depth e = 0 /\ combs e = [].
Proof. intros H. apply in_map_iff in H. destruct H as (t & <- & _). auto. Qed.
Lemma prep_depth' n e : In e (rev (map Prep (seq 0 n))) -> depth e = 0 /\ combs e = [].
Proof. intros H. apply in_rev in H. now apply prep_depth in H. Qed.

(** ** The drivers compute these formulas, whatever the object *)
Lemma filter_formulas {Inp Key St} (split : Key -> nat -> list Key) (obj : Filter Inp Key St) inputs key d n :
  split_ok split -> length inputs = n -> 0 < n ->
  exists prepared, forward_elements obj (child_key split key n) inputs prepared /\
    filter split obj inputs true key =
      Ok (map (eval (filter_combine obj) d prepared) (assoc_scan Comb (map Prep (seq 0 n)))) /\
    filter split obj inputs false key =
      Ok (map (eval (filter_combine obj) d prepared)
              (Prep 0 :: scan_states Comb (Prep 0) (map Prep (seq 1 (n - 1))))).
Proof.
  intros Hs Hn Hpos. destruct inputs as [|x0 xs]; [simpl in Hn; lia|].
  unfold filter. rewrite Hn.
  destruct (prepare_keys_cons split Hs key n Hpos) as (ks & -> & Hlk & Hks).
  set (e0 := init_prepare obj x0 _). set (l := map2 (filter_prepare obj) xs ks).
  assert (Hll : length (e0 :: l) = n) by (unfold l; simpl in *; rewrite map2_length; lia).
  exists (e0 :: l). split; [|split].
  - split; [now rewrite Hll|]. split; [intros x [= <-]; reflexivity|].
    intros t x Hx. simpl in *. apply map2_nth. exists x, (child_key split key n (S t)).
    repeat split; auto. apply Hks. assert (t < length xs) by (apply nth_error_Some; congruence). lia.
  - rewrite <- (assoc_scan_hom _ Comb (filter_combine obj)) by reflexivity.
    rewrite <- Hll, prep_elements. reflexivity.
  - rewrite <- (scan_states_map (filter_combine obj) (fun xk => filter_prepare obj (fst xk) (snd xk))).
    rewrite <- map2_combine. fold l.
    cbn [map]. rewrite <- (scan_states_hom _ Comb (filter_combine obj)) by reflexivity.
    pose proof (prep_elements (filter_combine obj) d (e0 :: l)) as Hp. rewrite Hll in Hp.
    replace (seq 0 n) with (0 :: seq 1 (n - 1)) in Hp by (destruct n; [lia|]; simpl; now rewrite Nat.sub_0_r).
    cbn [map] in Hp. injection Hp as Hp. rewrite Hp. reflexivity.
Qed.

Lemma smoother_formulas {Inp Key FSt SSt} (split : Key -> nat -> list Key) (dummy_like : Inp -> Inp)
      (inputs_of : FSt -> Inp) (obj : Smoother Inp Key FSt SSt) fstates trans key d n x0 :
  split_ok split -> nth_error trans 0 = Some x0 -> length trans = n - 1 -> length fstates = n ->
  exists prepared, backward_elements obj (child_key split key n) fstates trans (dummy_like x0) prepared /\
    smoother split dummy_like inputs_of obj fstates (Some trans) true key =
      Ok (map (eval (smoother_combine obj) d prepared) (rev (assoc_scan rcomb (rev (map Prep (seq 0 n)))))) /\
    smoother split dummy_like inputs_of obj fstates (Some trans) false key =
      Ok (map (eval (smoother_combine obj) d prepared)
              (rev (Prep (n - 1) :: scan_states rcomb (Prep (n - 1)) (rev (map Prep (seq 0 (n - 1))))))).
Proof.
  intros Hs Hx0 Hlt Hlf. unfold smoother.
  destruct trans as [|x0' trans']; [discriminate|]. injection Hx0 as ->.
  set (trans := x0 :: trans') in *.
  assert (Hn : 2 <= n) by (unfold trans in Hlt; simpl in Hlt; lia).
  destruct fstates as [|f0 fs]; [simpl in Hlf; lia|]. set (fstates := f0 :: fs) in *.
  rewrite Hlf, Hlt.
  replace (n - 1 =? n - 1 + 1) with false by (symmetry; apply Nat.eqb_neq; lia).
  rewrite Nat.eqb_refl. replace (n - 1 + 1) with n by lia.
  destruct (prepare_keys_cons split Hs key n ltac:(lia)) as (ks & -> & Hlk & Hks).
  unfold trans at 1 4. fold trans.
  set (fin := convert_filter_to_smoother_state _ _ _ _).
  set (g := fun current next => smoother_combine obj next current).
  set (pr := fun x : FSt * Inp * option Key => smoother_prepare obj (fst (fst x)) (snd (fst x)) (snd x)).
  set (L := combine (combine (removelast fstates) trans) ks).
  assert (HlL : length (map pr L) = n - 1).
  { unfold L. rewrite map_length, !combine_length, removelast_length. lia. }
  assert (Hlp : length (map pr L ++ [fin]) = n) by (rewrite app_length, HlL; simpl; lia).
  set (prepared := map pr L ++ [fin]) in *.
  set (h := eval (smoother_combine obj) d prepared).
  assert (Hh : forall a b, g (h a) (h b) = h (rcomb a b)) by reflexivity.
  pose proof (prep_elements (smoother_combine obj) d prepared) as Hp. rewrite Hlp in Hp.
  change (map h (map Prep (seq 0 n)) = prepared) in Hp.
  exists prepared. split; [|split].
  - split; [unfold prepared in *; rewrite Hlp, Hlt; lia|]. split.
    + intros f Hf. rewrite Hlt in *. unfold prepared. rewrite nth_error_app2 by lia.
      rewrite HlL, Nat.sub_diag. simpl. unfold fin.
      now rewrite (last_nth_error fstates f0 f) by (rewrite Hlf; exact Hf).
    + intros t f x Hf Hx.
      assert (t < n - 1) by (rewrite <- Hlt; apply nth_error_Some; congruence).
      unfold prepared. rewrite nth_error_app1 by lia. rewrite nth_error_map.
      assert (HL : nth_error L t = Some (f, x, child_key split key n (S t))).
      { unfold L. apply nth_error_combine; [apply nth_error_combine; auto|apply Hks; lia].
        rewrite removelast_nth by lia. exact Hf. }
      rewrite HL. reflexivity.
  - f_equal. unfold assoc_scan_rev. rewrite map2_combine.
    change (map _ (combine (combine (removelast fstates) trans) ks)) with (map pr L). fold prepared.
    rewrite map_rev. f_equal. rewrite <- (assoc_scan_hom h rcomb g Hh). rewrite map_rev, Hp. reflexivity.
  - f_equal. unfold scan_states_rev. change (rev ?a ++ [fin]) with (rev (fin :: a)). fold L.
    change (scan_states _ fin (rev L)) with (scan_states (fun s x => g s (pr x)) fin (rev L)).
    rewrite <- (scan_states_map g pr). rewrite map_rev. rewrite map_rev. f_equal. cbn [map].
    rewrite <- (scan_states_hom h rcomb g Hh), map_rev.
    replace (seq 0 n) with (seq 0 (n - 1) ++ [n - 1]) in Hp
      by (rewrite <- seq_S; f_equal; lia).
    rewrite !map_app in Hp. cbn [map] in Hp. unfold prepared in Hp.
    apply app_inj_tail in Hp. destruct Hp as [Hp1 Hp2]. fold h. rewrite Hp1, Hp2. reflexivity.
Qed.

(** ** C85 *)
Theorem C85_filter (n : nat) : 0 < n -> exists par sequ,
  (* parallel: logarithmic time, at most twice the work *)
  forward_terms n par /\ (forall e, In e par -> depth e <= 2 * Nat.log2 n) /\
  (exists calls, computed_by calls par /\ length calls + Nat.log2 n + 2 <= 2 * n) /\
  (* sequential: linear time, minimal work *)
  forward_terms n sequ /\ (forall t e, nth_error sequ t = Some e -> depth e = t) /\
  (exists calls, computed_by calls sequ /\ length calls = n - 1) /\
  (* these formulas give the states for every object, all inputs and every key *)
  forall Inp Key St (split : Key -> nat -> list Key) (obj : Filter Inp Key St) inputs key d,
    split_ok split -> length inputs = n ->
    exists prepared, forward_elements obj (child_key split key n) inputs prepared /\
      filter split obj inputs true key = Ok (map (eval (filter_combine obj) d prepared) par) /\
      filter split obj inputs false key = Ok (map (eval (filter_combine obj) d prepared) sequ).
Proof.
  intros Hn. destruct comb_props as [Hd Hc].
  exists (assoc_scan Comb (map Prep (seq 0 n))), (Prep 0 :: scan_states Comb (Prep 0) (map Prep (seq 1 (n - 1)))).
  destruct (scan_forward_terms n Hn) as [H1 H2].
  split; [exact H1|]. split.
  { intros e He. apply (assoc_scan_depth Comb Hd n (map Prep (seq 0 n)) 0); auto.
    - rewrite map_length. apply seq_length.
    - intros x Hx. apply prep_depth in Hx. lia. }
  split.
  { destruct (assoc_scan_work Comb Hc n (map Prep (seq 0 n)) []) as (K & HK & HC).
    - rewrite map_length. apply seq_length.
    - intros e He. destruct (prep_depth n e He) as [_ ->]. intros x [].
    - exists K. rewrite app_nil_r in HC. split; [exact HC|]. destruct (Nat.eqb_spec n 0); lia. }
  assert (Hin : forall x, In x (map Prep (seq 1 (n - 1))) -> depth x = 0 /\ combs x = []).
  { intros x Hx. apply in_map_iff in Hx. destruct Hx as (t & <- & _). auto. }
  split; [exact H2|]. split.
  { apply (scan_depth Comb Hd); [reflexivity|]. intros x Hx. now apply Hin. }
  split.
  { eexists. split.
    - apply (scan_work Comb Hc (map Prep (seq 1 (n - 1))) (Prep 0) []); [now left|]. intros x Hx. now apply Hin.
    - rewrite app_nil_r, scan_states_length, map_length. apply seq_length. }
  intros. now apply filter_formulas.
Qed.

Theorem C85_smoother (n : nat) : 2 <= n -> exists par sequ,
  backward_terms n par /\ (forall e, In e par -> depth e <= 2 * Nat.log2 n) /\
  (exists calls, computed_by calls par /\ length calls + Nat.log2 n + 2 <= 2 * n) /\
  backward_terms n sequ /\ (forall t e, nth_error sequ t = Some e -> depth e = n - 1 - t) /\
  (exists calls, computed_by calls sequ /\ length calls = n - 1) /\
  forall Inp Key FSt SSt (split : Key -> nat -> list Key) (dummy_like : Inp -> Inp) (inputs_of : FSt -> Inp)
         (obj : Smoother Inp Key FSt SSt) fstates trans key d x0,
    split_ok split -> length fstates = n -> length trans = n - 1 -> nth_error trans 0 = Some x0 ->
    exists prepared, backward_elements obj (child_key split key n) fstates trans (dummy_like x0) prepared /\
      smoother split dummy_like inputs_of obj fstates (Some trans) true key
        = Ok (map (eval (smoother_combine obj) d prepared) par) /\
      smoother split dummy_like inputs_of obj fstates (Some trans) false key
        = Ok (map (eval (smoother_combine obj) d prepared) sequ).
Proof.
  intros Hn. destruct rcomb_props as [Hd Hc].
  exists (rev (assoc_scan rcomb (rev (map Prep (seq 0 n))))),
    (rev (Prep (n - 1) :: scan_states rcomb (Prep (n - 1)) (rev (map Prep (seq 0 (n - 1)))))).
  destruct (scan_backward_terms n ltac:(lia)) as [H1 H2].
  split; [exact H1|]. split.
  { intros e He. apply in_rev in He. apply (assoc_scan_depth rcomb Hd n (rev (map Prep (seq 0 n))) 0); auto.
    - rewrite rev_length, map_length. apply seq_length.
    - intros x Hx. apply prep_depth' in Hx. lia. }
  split.
  { destruct (assoc_scan_work rcomb Hc n (rev (map Prep (seq 0 n))) []) as (K & HK & HC).
    - rewrite rev_length, map_length. apply seq_length.
    - intros e He. destruct (prep_depth' n e He) as [_ ->]. intros x [].
    - exists K. rewrite app_nil_r in HC. split; [|destruct (Nat.eqb_spec n 0); lia].
      intros e He. apply in_rev in He. now apply HC. }
  split; [exact H2|]. split.
  { intros t e Ht.
    set (sts := Prep (n - 1) :: _) in *.
    assert (Hls : length sts = n).
    { unfold sts. simpl. rewrite scan_states_length, rev_length, map_length, seq_length. lia. }
    assert (Htn : t < n) by (rewrite <- Hls, <- rev_length; apply nth_error_Some; congruence).
    rewrite nth_error_rev, Hls in Ht by lia.
    apply (scan_depth rcomb Hd) in Ht; auto. intros x Hx. now apply prep_depth' in Hx. }
  split.
  { pose proof (scan_work rcomb Hc (rev (map Prep (seq 0 (n - 1)))) (Prep (n - 1)) []) as HW.
    eexists. split.
    - intros e He. apply in_rev in He. apply HW; auto. intros x Hx. now apply prep_depth' in Hx.
    - rewrite app_nil_r, scan_states_length, rev_length, map_length. apply seq_length. }
  intros. now apply smoother_formulas.
Qed.

(** No way of combining the elements is faster than logarithmic or makes fewer than n-1 combinations,
    so the parallel pass is within a factor of two of the optimum in both, and the sequential pass
    makes the fewest combinations possible. *)
Theorem C85_optimal (n : nat) (es : list term) :
  0 < n -> forward_terms n es \/ backward_terms n es ->
  (exists e, In e es /\ Nat.log2_up n <= depth e) /\
  (forall calls, computed_by calls es -> n - 1 <= length calls).
Proof.
  intros Hn H. split.
  - destruct H as [[Hl He]|[Hl He]].
    + destruct (nth_error es (n - 1)) as [e|] eqn:E; [|apply nth_error_None in E; lia].
      exists e. split; [now apply nth_error_In in E|]. apply leaves_log. rewrite (He _ _ E), seq_length. lia.
    + destruct (nth_error es 0) as [e|] eqn:E; [|apply nth_error_None in E; lia].
      exists e. split; [now apply nth_error_In in E|]. apply leaves_log. rewrite (He _ _ E), seq_length. lia.
  - intros calls Hc. destruct H as [H|H]; [now apply forward_calls_lower with es | now apply backward_calls_lower with es].
Qed.

(** Five elements: the object whose states are the formulas shows what the drivers compute. *)
Definition formula_filter : Filter nat unit term :=
  {| init_prepare := fun t _ => Prep t; filter_prepare := fun t _ => Prep t; filter_combine := Comb |}.
Example C85_case :
  filter (fun _ n => repeat tt n) formula_filter [0; 1; 2; 3; 4] true None =
  Ok [Prep 0; Comb (Prep 0) (Prep 1); Comb (Comb (Prep 0) (Prep 1)) (Prep 2);
      Comb (Comb (Prep 0) (Prep 1)) (Comb (Prep 2) (Prep 3));
      Comb (Comb (Comb (Prep 0) (Prep 1)) (Comb (Prep 2) (Prep 3))) (Prep 4)] /\
  split_ok (fun (_ : unit) n => repeat tt n) /\
  2 * Nat.log2 1000 = 18.
Proof. split; [reflexivity|]. split; [intros k n; apply repeat_length | reflexivity]. Qed.

Print Assumptions C85_filter.
Print Assumptions C85_smoother.
Print Assumptions C85_optimal.
