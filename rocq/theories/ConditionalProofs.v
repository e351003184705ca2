(** Conditional systematic resampling: the pivot is kept, and the law of the offset. *)
From Coq Require Import Reals List Arith ZArith Bool Lia Lra Permutation.
From Coquelicot Require Import Coquelicot.
From Verif Require Import Ext ScanModel ScanProofs DiscreteSpec Sums ResamplingModel ResamplingSpec
  ResamplingProofs SystematicProofs.
Import ListNotations.
Open Scope R_scope.

(** ** roll, set_at, gather *)
Lemma roll_length {A} (d : A) l s : length (roll d l s) = length l.
Proof. unfold roll. now rewrite map_length, seq_length. Qed.
Lemma roll_nth {A} (d : A) l s i : (i < length l)%nat ->
  nth i (roll d l s) d = nth (Z.to_nat ((Z.of_nat i - s) mod Z.of_nat (length l))) l d.
Proof.
  intros H. unfold roll. set (f := fun i => nth (Z.to_nat ((Z.of_nat i - s) mod Z.of_nat (length l))) l d).
  rewrite (nth_indep _ d (f 0%nat)) by (now rewrite map_length, seq_length).
  rewrite map_nth, seq_nth by easy. reflexivity.
Qed.
Lemma roll_index l s i : (0 < l)%nat -> (Z.to_nat ((Z.of_nat i - s) mod Z.of_nat l) < l)%nat.
Proof.
  intros H. pose proof (Z.mod_pos_bound (Z.of_nat i - s) (Z.of_nat l) ltac:(lia)). lia.
Qed.
Lemma roll_In {A} (d : A) l s x : In x (roll d l s) -> In x l.
Proof.
  unfold roll. intros H. apply in_map_iff in H. destruct H as (i & <- & Hi). apply in_seq in Hi.
  apply nth_In. apply roll_index. lia.
Qed.
(** every element of the list is found in the rolled list *)
Lemma roll_In_rev {A} (d : A) l s x : In x l -> In x (roll d l s).
Proof.
  intros H. destruct (In_nth l x d H) as (k & Hk & <-).
  assert (E : nth (Z.to_nat ((Z.of_nat k + s) mod Z.of_nat (length l))) (roll d l s) d = nth k l d).
  { assert (L : (0 < Z.of_nat (length l))%Z) by lia.
    pose proof (Z.mod_pos_bound (Z.of_nat k + s) _ L).
    rewrite roll_nth by lia. rewrite Z2Nat.id by lia.
    rewrite Zminus_mod_idemp_l. replace (Z.of_nat k + s - s)%Z with (Z.of_nat k) by ring.
    rewrite Z.mod_small by lia. now rewrite Nat2Z.id. }
  rewrite <- E. apply nth_In. rewrite roll_length.
  pose proof (Z.mod_pos_bound (Z.of_nat k + s) (Z.of_nat (length l)) ltac:(lia)). lia.
Qed.
Lemma set_at_length {A} (l : list A) i v : length (set_at l i v) = length l.
Proof. revert i; induction l; intros [|i]; simpl; auto. Qed.
Lemma set_at_same {A} (l : list A) i v d : (i < length l)%nat -> nth i (set_at l i v) d = v.
Proof. revert i; induction l; intros [|i] H; simpl in *; try lia; auto. apply IHl; lia. Qed.
Lemma set_at_other {A} (l : list A) i j v d : i <> j -> nth j (set_at l i v) d = nth j l d.
Proof. revert i j; induction l; intros [|i] [|j] H; simpl; auto; lia. Qed.
Lemma set_at_In {A} (l : list A) i v x : In x (set_at l i v) -> x = v \/ In x l.
Proof.
  revert i; induction l; intros [|i] H; simpl in *; auto; destruct H as [H|H]; auto.
  destruct (IHl _ H); auto.
Qed.
Lemma gather_length {A} (l : list A) idx d : length (gather l idx d) = length idx.
Proof. apply map_length. Qed.
Lemma gather_nth {A} (l : list A) idx d k : (k < length idx)%nat -> (nth k idx 0 < length l)%nat ->
  nth k (gather l idx d) d = nth (nth k idx 0%nat) l d.
Proof.
  intros H Hk. unfold gather. set (f := fun i => nth (Nat.min i (length l - 1)) l d).
  rewrite (nth_indep _ d (f 0%nat)) by (now rewrite map_length).
  rewrite map_nth. unfold f. now rewrite Nat.min_l by lia.
Qed.
Lemma gather_In {A} (l : list A) idx d x : (0 < length l)%nat -> In x (gather l idx d) -> In x l.
Proof.
  intros Hl H. apply in_map_iff in H. destruct H as (i & <- & _). apply nth_In. lia.
Qed.

(** ** shifted and rolled log weights *)
Lemma is_logit_shift e c : is_logit e -> is_logit (esub e (Fin c)).
Proof. intros [->|[x ->]]; simpl; [now left|right; eauto]. Qed.
Lemma uw_shift e c : uw (esub e (Fin c)) = uw e * exp (- c).
Proof. destruct e; simpl; [now rewrite exp_plus|ring..]. Qed.
Lemma valid_shift l c : valid_logits l -> valid_logits (map (fun e => esub e (Fin c)) l).
Proof.
  intros [H1 H2]. split.
  - rewrite Forall_forall in *. intros e He. apply in_map_iff in He. destruct He as (e' & <- & He).
    apply is_logit_shift; auto.
  - rewrite Exists_exists in *. destruct H2 as (e & He & x & ->).
    exists (Fin (x - c)). split; [|eauto]. apply in_map_iff. exists (Fin x). auto.
Qed.
Lemma lsum_uw_shift l c : lsum uw (map (fun e => esub e (Fin c)) l) = lsum uw l * exp (- c).
Proof.
  rewrite lsum_map, <- lsum_scal_r. apply lsum_ext. intros; apply uw_shift.
Qed.
Lemma wt_shift l c i : valid_logits l -> (i < length l)%nat ->
  wt (map (fun e => esub e (Fin c)) l) i = wt l i.
Proof.
  intros H Hi. unfold wt. rewrite lsum_uw_shift.
  rewrite (nth_indep _ NInf (esub NInf (Fin c))) by (now rewrite map_length).
  rewrite (map_nth (fun e => esub e (Fin c))), uw_shift. field.
  split; apply Rgt_not_eq; [now apply valid_sum_pos|apply exp_pos].
Qed.
Lemma valid_roll d l s : valid_logits l -> valid_logits (roll d l s).
Proof.
  intros [H1 H2]. split.
  - rewrite Forall_forall in *. intros e He. apply H1. eapply roll_In, He.
  - rewrite Exists_exists in *. destruct H2 as (e & He & x). exists e. split; [|easy].
    now apply roll_In_rev.
Qed.
(** rolling permutes *)
Lemma map_NoDup_in {A B} (f : A -> B) l :
  (forall x y, In x l -> In y l -> f x = f y -> x = y) -> NoDup l -> NoDup (map f l).
Proof.
  induction l as [|a l IH]; intros Hf Hd; simpl; constructor; inversion_clear Hd.
  - intros Hin. apply in_map_iff in Hin. destruct Hin as (b & E & Hb).
    assert (b = a) by (apply Hf; [now right|now left|easy]). now subst.
  - apply IH; [|easy]. intros x y Hx Hy. apply Hf; now right.
Qed.
Lemma roll_perm_index n s : (0 < n)%nat ->
  Permutation (map (fun i => Z.to_nat ((Z.of_nat i - s) mod Z.of_nat n)) (seq 0 n)) (seq 0 n).
Proof.
  intros Hn. apply NoDup_Permutation_bis.
  - apply map_NoDup_in; [|apply seq_NoDup]. intros i j Hi Hj E.
    apply in_seq in Hi. apply in_seq in Hj.
    pose proof (Z.mod_pos_bound (Z.of_nat i - s) (Z.of_nat n) ltac:(lia)).
    pose proof (Z.mod_pos_bound (Z.of_nat j - s) (Z.of_nat n) ltac:(lia)).
    apply Z2Nat.inj in E; try lia.
    assert (F : (Z.of_nat i mod Z.of_nat n = Z.of_nat j mod Z.of_nat n)%Z).
    { replace (Z.of_nat i) with (Z.of_nat i - s + s)%Z by ring.
      replace (Z.of_nat j) with (Z.of_nat j - s + s)%Z by ring.
      rewrite Zplus_mod, E, <- Zplus_mod. reflexivity. }
    rewrite !Z.mod_small in F by lia. lia.
  - now rewrite map_length.
  - intros k Hk. apply in_map_iff in Hk. destruct Hk as (i & <- & _). apply in_seq.
    pose proof (roll_index n s i Hn). lia.
Qed.
Lemma map_nth_id {A} (l : list A) d : map (fun i => nth i l d) (seq 0 (length l)) = l.
Proof. rewrite <- (map_nth_seq (fun x => x) l d). apply map_id. Qed.
Lemma roll_perm {A} (d : A) l s : (0 < length l)%nat -> Permutation (roll d l s) l.
Proof.
  intros H. unfold roll.
  rewrite <- (map_map (fun i => Z.to_nat ((Z.of_nat i - s) mod Z.of_nat (length l))) (fun k => nth k l d)).
  apply Permutation_trans with (map (fun i => nth i l d) (seq 0 (length l))).
  - apply Permutation_map. now apply roll_perm_index.
  - rewrite map_nth_id. apply Permutation_refl.
Qed.
Lemma lsum_perm {A} (f : A -> R) l m : Permutation l m -> lsum f l = lsum f m.
Proof. induction 1; simpl; lra. Qed.
Lemma wt_roll l s i : valid_logits l -> (i < length l)%nat ->
  wt (roll NaN l s) i = wt l (Z.to_nat ((Z.of_nat i - s) mod Z.of_nat (length l))).
Proof.
  intros H Hi. unfold wt. rewrite (lsum_perm _ _ l) by (apply roll_perm; lia).
  rewrite (nth_indep _ NInf NaN) by (now rewrite roll_length). rewrite roll_nth by easy.
  rewrite (nth_indep _ NaN NInf); [reflexivity|]. apply roll_index. lia.
Qed.

(** ** positions of the zeros *)
Lemma flatnonzero_entry idx n k :
  length idx = n -> (k < length (List.filter (fun i => Nat.eqb i 0) idx))%nat ->
  exists p, (p < n)%nat /\ nth k (flatnonzero0 idx n) 0%Z = Z.of_nat p /\ nth p idx 0%nat = 0%nat.
Proof.
  intros Hn Hk. unfold flatnonzero0.
  set (L := List.filter (fun p => Nat.eqb (snd p) 0) (combine (seq 0 (length idx)) idx)).
  assert (HL : length L = length (List.filter (fun i => Nat.eqb i 0) idx)).
  { unfold L. generalize 0%nat at 2. clear. induction idx; intros a'; simpl; [reflexivity|].
    destruct (Nat.eqb a 0); simpl; now rewrite IHidx. }
  assert (HLn : (length L <= n)%nat).
  { rewrite HL, <- Hn. clear. induction idx; simpl; [lia|]. destruct (Nat.eqb a 0); simpl; lia. }
  assert (E : nth k (firstn n (map (fun p => Z.of_nat (fst p)) L ++ repeat (-1)%Z n)) 0%Z
    = Z.of_nat (fst (nth k L (0%nat, 0%nat)))).
  { rewrite firstn_app, app_nth1.
    - rewrite firstn_all2 by (rewrite map_length; lia).
      rewrite (nth_indep _ 0%Z (Z.of_nat (fst (0%nat, 0%nat)))) by (rewrite map_length; lia).
      now rewrite (map_nth (fun p => Z.of_nat (fst p))).
    - rewrite firstn_length, map_length. lia. }
  rewrite E.
  assert (Hin : In (nth k L (0%nat,0%nat)) L) by (apply nth_In; lia).
  unfold L at 2 in Hin. apply filter_In in Hin. destruct Hin as (Hin & Hz).
  destruct (nth k L (0%nat, 0%nat)) as (p, z). simpl in *. apply Nat.eqb_eq in Hz. subst z.
  assert (G : forall (idx : list nat) a, In (p, 0%nat) (combine (seq a (length idx)) idx) ->
     (a <= p < a + length idx)%nat /\ nth (p - a) idx 0%nat = 0%nat).
  { clear. induction idx as [|x idx IH]; intros a H; simpl in *; [contradiction|].
    destruct H as [H|H].
    - injection H as -> ->. split; [lia|]. now rewrite Nat.sub_diag.
    - apply IH in H. destruct H as (H1 & H2). split; [lia|].
      replace (p - a)%nat with (S (p - S a)) by lia. exact H2. }
  destruct (G idx 0%nat Hin) as (G1 & G2). exists p. rewrite Nat.sub_0_r in G2.
  split; [lia|]. split; [reflexivity|exact G2].
Qed.

Lemma Int_part_scaled (c : nat) W : (0 < c)%nat -> 0 <= W < 1 ->
  (Z.to_nat (Int_part (INR c * W)) < c)%nat.
Proof.
  intros Hc HW. destruct (base_Int_part (INR c * W)) as (H1 & H2).
  assert (Hc' : 0 < INR c) by (apply lt_0_INR; lia).
  assert (0 <= INR c * W) by (apply Rmult_le_pos; lra).
  assert (INR c * W < INR c) by (rewrite <- (Rmult_1_r (INR c)) at 2; apply Rmult_lt_compat_l; lra).
  assert (A : (Int_part (INR c * W) < Z.of_nat c)%Z).
  { apply lt_IZR. rewrite <- INR_IZR_INZ. lra. }
  assert (B : (-1 < Int_part (INR c * W))%Z).
  { apply lt_IZR. simpl. lra. }
  lia.
Qed.

(** ** the offset is at most the pivot's weight *)
Lemma rem_range x : 0 <= x - IZR (Int_part x) < 1.
Proof. destruct (base_Int_part x). lra. Qed.
Lemma conditional_offset_range tmp U V : 0 <= tmp -> 0 <= U < 1 ->
  0 <= conditional_offset tmp U V <= Rmin tmp 1.
Proof.
  intros Ht HU. unfold conditional_offset. destruct (Rle_dec tmp 1) as [H|H].
  - rewrite Rmin_left by easy. split; [apply Rmult_le_pos; lra|].
    rewrite <- (Rmult_1_r tmp) at 2. apply Rmult_le_compat_l; lra.
  - rewrite Rmin_right by lra. pose proof (rem_range tmp) as Hr.
    set (r := tmp - IZR (Int_part tmp)) in *.
    assert (P1 : 0 <= r * U <= r).
    { split; [apply Rmult_le_pos; lra|]. rewrite <- (Rmult_1_r r) at 2. apply Rmult_le_compat_l; lra. }
    assert (P2 : 0 <= (1 - r) * U <= 1 - r).
    { split; [apply Rmult_le_pos; lra|]. rewrite <- (Rmult_1_r (1 - r)) at 2. apply Rmult_le_compat_l; lra. }
    destruct (Rlt_dec V _); lra.
Qed.

Section Zero.
  Variable cpu : bool.
  Lemma cond_0_to_0_facts U V W l n :
    valid_logits l -> (0 < n)%nat -> 0 <= U < 1 -> 0 <= W < 1 ->
    length (conditional_resampling_0_to_0 cpu U V W l n) = n /\
    (forall k, In k (conditional_resampling_0_to_0 cpu U V W l n) -> (k < length l)%nat) /\
    nth 0 (conditional_resampling_0_to_0 cpu U V W l n) 0%nat = 0%nat.
  Proof.
    intros H Hn HU HW. unfold conditional_resampling_0_to_0.
    pose proof (valid_length _ H) as HL.
    rewrite weights_valid by easy. fold (Fw (wt l) (length l)). rewrite Fw_nth by easy. cbn [fin_val].
    pose proof (wt_nonneg l 0 H) as Hw0.
    assert (Hn' : 0 < INR n) by (apply lt_0_INR; lia).
    set (tmp := INR n * wt l 0). assert (Ht : 0 <= tmp) by (apply Rmult_le_pos; lra).
    pose proof (conditional_offset_range tmp U V Ht HU) as Ho.
    set (o := conditional_offset tmp U V) in *.
    set (lin := map (fun k => (INR k + o) / INR n) (seq 0 n)).
    assert (Elin : lin = systematic_uniforms o n).
    { apply map_ext. intros k. now rewrite Rplus_comm. }
    rewrite Elin. set (idx := inverse_cdf cpu (systematic_uniforms o n) l).
    destruct (inverse_cdf_spec cpu _ l H (systematic_uniforms_sorted o n)) as (A & B).
    fold idx in A, B. rewrite systematic_uniforms_length in A, B.
    assert (Z0 : nth 0 idx 0%nat = 0%nat).
    { apply (inverse_at_unique (length l) (wt l) (nth 0 (systematic_uniforms o n) 0)).
      - intros; now apply wt_nonneg.
      - apply B. lia.
      - rewrite systematic_uniforms_nth by lia. repeat split; auto. left.
        rewrite cdf_S, cdf_0. simpl INR. rewrite Rplus_0_r, Rplus_0_l.
        apply Rle_div_l; [lra|]. pose proof (Rmin_l tmp 1). unfold tmp in *. lra. }
    set (nz := length (List.filter (fun i => Nat.eqb i 0) idx)).
    assert (Hnz : (0 < nz)%nat).
    { unfold nz. destruct idx as [|a r] eqn:E; [simpl in A; lia|]. simpl in Z0. subst a. simpl. lia. }
    set (p := nth (Z.to_nat (Int_part (INR nz * W))) (flatnonzero0 idx n) 0%Z).
    set (out := if Nat.eqb nz 1 then idx else roll 0%nat idx (- p)%Z).
    assert (O1 : length out = n).
    { unfold out. destruct (Nat.eqb nz 1); rewrite ?roll_length; exact A. }
    assert (O2 : forall k, In k out -> (k < length l)%nat).
    { intros k Hk. assert (In k idx) as Hk'.
      { unfold out in Hk. destruct (Nat.eqb nz 1); [exact Hk|]. eapply roll_In, Hk. }
      apply (inverse_cdf_range cpu _ l k H (systematic_uniforms_sorted o n) Hk'). }
    assert (O3 : nth 0 out 0%nat = 0%nat).
    { unfold out. destruct (Nat.eqb nz 1); [exact Z0|].
      destruct (flatnonzero_entry idx n (Z.to_nat (Int_part (INR nz * W))) A) as (q & Q1 & Q2 & Q3).
      { apply Int_part_scaled; [exact Hnz|exact HW]. }
      fold p in Q2. rewrite roll_nth by lia. rewrite Q2.
      replace (Z.of_nat 0 - - Z.of_nat q)%Z with (Z.of_nat q) by lia.
      rewrite A, Z.mod_small by lia. now rewrite Nat2Z.id. }
    assert (Eclip : map (clip 0 (length l - 1)) out = out).
    { rewrite <- (map_id out) at 2. apply map_ext_in. intros k Hk. apply clip_id. auto. }
    rewrite Eclip. repeat split; auto.
  Qed.

  Lemma systematic_conditional_facts {X} (dX : X) U V W l positions n pivot_in pivot_out :
    valid_logits l -> 0 <= U < 1 -> 0 <= W < 1 ->
    (pivot_in < n)%nat -> (pivot_out < length l)%nat ->
    let '(idx, _, _) := systematic_conditional dX cpu U V W l positions n pivot_in pivot_out in
    length idx = n /\ (forall k, In k idx -> (k < length l)%nat) /\ nth pivot_in idx 0%nat = pivot_out.
  Proof.
    intros H HU HW Hin Hout. unfold systematic_conditional. rewrite map_length.
    rewrite logsumexp_valid by easy. set (l1 := map _ l).
    assert (V1 : valid_logits l1) by (apply valid_shift; exact H).
    assert (L1 : length l1 = length l) by apply map_length.
    set (l2 := roll NaN l1 _). assert (V2 : valid_logits l2) by (apply valid_roll; exact V1).
    assert (L2 : length l2 = length l) by (unfold l2; rewrite roll_length; exact L1).
    destruct (cond_0_to_0_facts U V W l2 n V2 ltac:(lia) HU HW) as (A & B & C).
    set (idx := conditional_resampling_0_to_0 cpu U V W l2 n) in *.
    set (ar := roll 0%nat (seq 0 (length l)) _).
    assert (La : length ar = length l) by (unfold ar; now rewrite roll_length, seq_length).
    assert (Ra : forall k, In k ar -> (k < length l)%nat).
    { intros k Hk. apply roll_In in Hk. apply in_seq in Hk. lia. }
    split; [|split].
    - now rewrite roll_length, gather_length.
    - intros k Hk. apply roll_In in Hk. apply gather_In in Hk; [|lia]. auto.
    - rewrite roll_nth by (rewrite gather_length; lia).
      rewrite Z.sub_diag, Z.mod_0_l by (rewrite gather_length; lia). simpl Z.to_nat.
      rewrite gather_nth; [|lia|rewrite C; lia]. rewrite C. unfold ar.
      rewrite roll_nth by (rewrite seq_length; lia). rewrite seq_length.
      replace (Z.of_nat 0 - - Z.of_nat pivot_out)%Z with (Z.of_nat pivot_out) by lia.
      rewrite Z.mod_small, Nat2Z.id by lia. rewrite seq_nth by lia. lia.
  Qed.
End Zero.

(** ** law of the offset *)
Lemma is_RInt_indicator_to (f : R -> R) b c : 0 <= b ->
  (forall u, 0 < u < b -> (u < c -> f u = 1) /\ (c < u -> f u = 0)) ->
  is_RInt f 0 b (Rmax 0 (Rmin b c)).
Proof.
  intros Hb Hf.
  destruct (Rle_dec c 0) as [H0|H0]; [|destruct (Rle_dec b c) as [H1|H1]].
  - rewrite Rmin_right, Rmax_left by lra.
    apply is_RInt_ext with (fun _ => 0); [|apply is_RInt_const0].
    intros x Hx. rewrite Rmin_left, Rmax_right in Hx by lra. destruct (Hf x Hx) as [_ H]. symmetry. apply H. lra.
  - rewrite Rmin_left, Rmax_right by lra.
    apply is_RInt_ext with (fun _ => 1); [|apply is_RInt_const1; ring].
    intros x Hx. rewrite Rmin_left, Rmax_right in Hx by lra. destruct (Hf x Hx) as [H _]. symmetry. apply H. lra.
  - rewrite Rmin_right, Rmax_right by lra.
    apply is_RInt_val with (plus c 0); [|unfold plus; simpl; ring].
    apply (is_RInt_Chasles (V:=R_NormedModule)) with c.
    + apply is_RInt_ext with (fun _ => 1); [|apply is_RInt_const1; ring].
      intros x Hx. rewrite Rmin_left, Rmax_right in Hx by lra.
      destruct (Hf x ltac:(lra)) as [H _]. symmetry. apply H. lra.
    + apply is_RInt_ext with (fun _ => 0); [|apply is_RInt_const0].
      intros x Hx. rewrite Rmin_left, Rmax_right in Hx by lra.
      destruct (Hf x ltac:(lra)) as [_ H]. symmetry. apply H. lra.
Qed.
Lemma below_0 n u : 0 < u -> below n 0 u = 0.
Proof.
  intros Hu. unfold below. transitivity (lsum (fun _ : nat => 0) (seq 0 n)); [|apply lsum_zero].
  apply lsum_ext. intros k _.
  destruct (Rle_dec (u + INR k) 0) as [H|]; [|reflexivity]. pose proof (pos_INR k). lra.
Qed.
(** total grid measure below a level, up to offset [a] *)
Lemma level_sum n y a (f : nat) r : 0 <= a <= 1 -> y = INR f + r -> 0 <= r < 1 -> y <= INR n ->
  lsum (fun k => Rmax 0 (Rmin a (y - INR k))) (seq 0 n) = INR f * a + Rmin a r.
Proof.
  intros Ha Hy Hr Hn.
  assert (Hfn : (f <= n)%nat). { apply INR_le. lra. }
  assert (G : forall m, (m <= f)%nat -> lsum (fun k => Rmax 0 (Rmin a (y - INR k))) (seq 0 m) = INR m * a).
  { induction m as [|m IH]; intros Hm; [simpl; ring|]. rewrite lsum_seq_S, S_INR, IH by lia.
    assert (INR m + 1 <= INR f) by (rewrite <- S_INR; apply le_INR; lia).
    rewrite Rmin_left, Rmax_right by lra. ring. }
  assert (G2 : forall d, lsum (fun k => Rmax 0 (Rmin a (y - INR k))) (seq 0 (S f + d)) = INR f * a + Rmin a r).
  { induction d as [|d IH].
    - rewrite Nat.add_0_r, lsum_seq_S, G by lia. replace (y - INR f) with r by lra.
      rewrite (Rmax_right 0); [reflexivity|]. apply Rmin_glb; lra.
    - replace (S f + S d)%nat with (S (S f + d)) by lia. rewrite lsum_seq_S, IH.
      assert (INR f + 1 <= INR (S f + d)) by (rewrite <- S_INR; apply le_INR; lia).
      rewrite (Rmin_right a (y - INR (S f + d))), Rmax_left by lra. ring. }
  destruct (Nat.eq_dec f n) as [->|Hne].
  - rewrite G by lia. assert (r = 0) by lra. subst r. rewrite Rmin_right by lra. ring.
  - replace n with (S f + (n - S f))%nat by lia. apply G2.
Qed.

Definition ind (P : Prop) (d : {P} + {~ P}) : R := if d then 1 else 0.

Lemma conditional_offset_inner tmp a V :
  0 < tmp -> 0 <= a <= 1 -> 0 <= V ->
  let rem := tmp - IZR (Int_part tmp) in
  is_RInt (fun U => if Rle_dec (conditional_offset tmp U V) a then 1 else 0) 0 1
    (if Rle_dec tmp 1 then Rmin 1 (a / tmp)
     else if Rlt_dec V (rem * (IZR (Int_part tmp) + 1) / tmp) then Rmin 1 (a / rem)
          else Rmax 0 (Rmin 1 ((a - rem) / (1 - rem)))).
Proof.
  intros Ht Ha HV rem. unfold conditional_offset. fold rem. pose proof (rem_range tmp) as Hr. fold rem in Hr.
  destruct (Rle_dec tmp 1) as [H|H].
  - apply is_RInt_val with (clamp (a / tmp)).
    + apply is_RInt_indicator. intros u Hu. split; intros Hc.
      * destruct (Rle_dec _ _) as [|n]; [reflexivity|]. elim n. apply Rlt_div_r in Hc; [|lra]. lra.
      * destruct (Rle_dec _ _) as [n|]; [|reflexivity]. exfalso. apply Rlt_div_l in Hc; [|lra]. lra.
    + unfold clamp. apply Rmax_right. apply Rmin_glb; [lra|]. apply Rmult_le_pos; [lra|].
      left. now apply Rinv_0_lt_compat.
  - destruct (Rlt_dec V _) as [Hp|Hp].
    + assert (Hr0 : 0 < rem).
      { destruct (Rle_lt_dec rem 0) as [C|C]; [|easy]. replace rem with 0 in Hp by lra.
        unfold Rdiv in Hp. rewrite !Rmult_0_l in Hp. lra. }
      apply is_RInt_val with (clamp (a / rem)).
      * apply is_RInt_indicator. intros u Hu. split; intros Hc.
        -- destruct (Rle_dec _ _) as [|n]; [reflexivity|]. elim n. apply Rlt_div_r in Hc; [|lra]. lra.
        -- destruct (Rle_dec _ _) as [n|]; [|reflexivity]. exfalso. apply Rlt_div_l in Hc; [|lra]. lra.
      * unfold clamp. apply Rmax_right. apply Rmin_glb; [lra|]. apply Rmult_le_pos; [lra|].
        left. now apply Rinv_0_lt_compat.
    + apply is_RInt_indicator. intros u Hu. split; intros Hc.
      * destruct (Rle_dec _ _) as [|n]; [reflexivity|]. elim n. apply Rlt_div_r in Hc; [|lra]. lra.
      * destruct (Rle_dec _ _) as [n|]; [|reflexivity]. exfalso. apply Rlt_div_l in Hc; [|lra]. lra.
Qed.

Lemma conditional_offset_law cpu l n a :
  valid_logits l -> (0 < n)%nat -> 0 < wt l 0 -> 0 <= a <= 1 ->
  exists (g : R -> R) (p : R),
    (forall V, 0 <= V <= 1 ->
       is_RInt (fun U => if Rle_dec (conditional_offset (INR n * wt l 0) U V) a then 1 else 0) 0 1 (g V)) /\
    is_RInt g 0 1 p /\
    is_RInt (fun u => INR (copies (inverse_cdf cpu (systematic_uniforms u n) l) 0) / (INR n * wt l 0)) 0 a p.
Proof.
  intros H Hn Hw Ha. pose proof (valid_length _ H) as HL.
  assert (Hn' : 0 < INR n) by (apply lt_0_INR; lia).
  set (tmp := INR n * wt l 0). assert (Ht : 0 < tmp) by (apply Rmult_lt_0_compat; lra).
  assert (Htn : tmp <= INR n).
  { pose proof (cdf_range l 1 H ltac:(lia)) as Hc. rewrite cdf_S, cdf_0 in Hc. unfold tmp.
    rewrite <- (Rmult_1_r (INR n)) at 2. apply Rmult_le_compat_l; lra. }
  pose proof (rem_range tmp) as Hr. set (rem := tmp - IZR (Int_part tmp)) in *.
  assert (Hf0 : (0 <= Int_part tmp)%Z).
  { assert (-1 < Int_part tmp)%Z; [|lia]. apply lt_IZR. simpl. unfold rem in Hr. lra. }
  set (f := Z.to_nat (Int_part tmp)).
  assert (Ef : IZR (Int_part tmp) = INR f).
  { unfold f. rewrite INR_IZR_INZ, Z2Nat.id by easy. reflexivity. }
  assert (Et : tmp = INR f + rem) by (unfold rem; rewrite Ef; ring).
  pose proof (pos_INR f) as Hfp.
  exists (fun V => if Rle_dec tmp 1 then Rmin 1 (a / tmp)
     else if Rlt_dec V (rem * (IZR (Int_part tmp) + 1) / tmp) then Rmin 1 (a / rem)
          else Rmax 0 (Rmin 1 ((a - rem) / (1 - rem)))).
  exists ((INR f * a + Rmin a rem) / tmp).
  split; [|split].
  - intros V HV. apply conditional_offset_inner; lra.
  - destruct (Rle_dec tmp 1) as [H1|H1].
    + apply is_RInt_val with (scal (1 - 0) (Rmin 1 (a / tmp))); [apply (is_RInt_const (V:=R_NormedModule))|].
      unfold scal; simpl; unfold mult; simpl. rewrite Rminus_0_r, Rmult_1_l.
      destruct (Req_dec tmp 1) as [E1|E1].
      * (* tmp = 1 *)
        assert (f = 1%nat /\ rem = 0) as (F1 & F2).
        { rewrite E1 in Et. assert (INR f <= 1 /\ 0 < INR f) by lra.
          assert (f < 2)%nat. { apply INR_lt. simpl. lra. }
          assert (0 < f)%nat by (apply INR_lt; simpl; lra).
          assert (F : f = 1%nat) by lia. split; [exact F|]. rewrite F in Et. simpl in Et. lra. }
        rewrite F1, F2, E1. simpl. unfold Rdiv. rewrite Rinv_1.
        rewrite (Rmin_right 1), (Rmin_right a) by lra. ring.
      * assert (f = 0%nat) as F0.
        { assert (f < 1)%nat; [apply INR_lt; simpl; lra|lia]. }
        rewrite F0 in Et |- *. simpl in Et |- *. replace rem with tmp by lra.
        rewrite Rmult_0_l, Rplus_0_l.
        destruct (Rle_dec a tmp) as [C|C].
        -- rewrite (Rmin_left a) by easy. apply Rmin_right. apply Rle_div_l; lra.
        -- rewrite (Rmin_right a) by lra. rewrite Rmin_left; [field; lra|]. apply Rle_div_r; lra.
    + rewrite Ef. set (p := rem * (INR f + 1) / tmp).
      set (G1 := Rmin 1 (a / rem)). set (G2 := Rmax 0 (Rmin 1 ((a - rem) / (1 - rem)))).
      assert (Hf1 : 1 <= INR f).
      { assert (0 < f)%nat; [apply INR_lt; simpl; lra|]. change 1 with (INR 1). apply le_INR. lia. }
      assert (Ep : 1 - p = INR f * (1 - rem) / tmp) by (unfold p; rewrite Et; field; lra).
      assert (Hp : 0 <= p <= 1).
      { split.
        - apply Rmult_le_pos; [apply Rmult_le_pos; lra|]. left. now apply Rinv_0_lt_compat.
        - assert (0 <= INR f * (1 - rem) / tmp); [|lra].
          apply Rmult_le_pos; [apply Rmult_le_pos; lra|]. left. now apply Rinv_0_lt_compat. }
      apply is_RInt_val with (plus (scal (1 - 0) G2) (scal (G1 - G2) (clamp p))).
      * apply is_RInt_ext with (fun V => plus G2 (scal (G1 - G2) (if Rlt_dec V p then 1 else 0))).
        { intros V _. unfold plus, scal; simpl; unfold mult; simpl. destruct (Rlt_dec V p); ring. }
        apply (is_RInt_plus (V:=R_NormedModule)); [apply (is_RInt_const (V:=R_NormedModule))|].
        apply (is_RInt_scal (V:=R_NormedModule)). apply is_RInt_indicator. intros u Hu.
        destruct (Rlt_dec u p); split; intros; try reflexivity; lra.
      * unfold plus, scal; simpl; unfold mult; simpl. unfold clamp.
        rewrite Rmin_right, Rmax_right by lra. rewrite Rminus_0_r, Rmult_1_l.
        replace (G2 + (G1 - G2) * p) with (p * G1 + (1 - p) * G2) by ring.
        rewrite Ep. destruct (Rle_dec a rem) as [C|C].
        -- assert (E2 : G2 = 0).
           { unfold G2. apply Rmax_left. apply Rle_trans with ((a - rem) / (1 - rem)); [apply Rmin_r|].
             apply Rle_div_l; lra. }
           rewrite E2, (Rmin_left a) by lra. destruct (Req_dec rem 0) as [E0|E0].
           ++ assert (a = 0) by lra. subst a. unfold p. rewrite E0. unfold Rdiv. ring.
           ++ assert (E1 : G1 = a / rem).
              { unfold G1. apply Rmin_right. apply Rle_div_l; lra. }
              rewrite E1. unfold p. field. lra.
        -- assert (E2 : G2 = (a - rem) / (1 - rem)).
           { unfold G2. rewrite Rmin_right, Rmax_right; [reflexivity| |].
             - apply Rmult_le_pos; [lra|left; apply Rinv_0_lt_compat; lra].
             - apply Rle_div_l; lra. }
           rewrite E2, (Rmin_right a) by lra. destruct (Req_dec rem 0) as [E0|E0].
           ++ unfold p. rewrite E0. field. lra.
           ++ assert (E1 : G1 = 1).
              { unfold G1. apply Rmin_left. apply Rle_div_r; lra. }
              rewrite E1. unfold p. field. lra.
  - apply is_RInt_ext with (fun u => scal (/ tmp) (below n tmp u)).
    { intros u Hu. rewrite Rmin_left, Rmax_right in Hu by lra.
      rewrite systematic_copies by (try easy; lra).
      rewrite cdf_S, cdf_0, Rplus_0_l, Rmult_0_r, below_0 by lra. fold tmp.
      unfold scal; simpl; unfold mult; simpl. field. lra. }
    apply is_RInt_val with (scal (/ tmp) (INR f * a + Rmin a rem));
      [|unfold scal; simpl; unfold mult; simpl; field; lra].
    apply (is_RInt_scal (V:=R_NormedModule)).
    rewrite <- (level_sum n tmp a f rem) by (try easy; lra).
    apply is_RInt_lsum. intros k _. apply is_RInt_indicator_to; [lra|]. intros u Hu.
    destruct (Rle_dec (u + INR k) tmp); split; intros; try reflexivity; lra.
Qed.

(** the slot among the pivot's copies is uniform *)
Lemma slot_uniform (c k : nat) : (k < c)%nat ->
  is_RInt (fun W => if Nat.eq_dec (Z.to_nat (Int_part (INR c * W))) k then 1 else 0) 0 1 (/ INR c).
Proof.
  intros Hk. assert (Hc : 0 < INR c) by (apply lt_0_INR; lia).
  pose proof (pos_INR k) as Hk0.
  assert (Hk' : INR k + 1 <= INR c) by (rewrite <- S_INR; apply le_INR; lia).
  apply is_RInt_ext with (fun W => minus (if Rlt_dec W ((INR k + 1) / INR c) then 1 else 0)
                                         (if Rlt_dec W (INR k / INR c) then 1 else 0)).
  - intros W HW. rewrite Rmin_left, Rmax_right in HW by lra. unfold minus, plus, opp; simpl.
    destruct (base_Int_part (INR c * W)) as (B1 & B2). set (z := Int_part (INR c * W)) in *.
    assert (Hz : (0 <= z)%Z).
    { assert (-1 < z)%Z; [|lia]. apply lt_IZR. assert (0 < INR c * W) by (apply Rmult_lt_0_compat; lra).
      simpl. lra. }
    assert (Ez : IZR z = INR (Z.to_nat z)) by (rewrite INR_IZR_INZ, Z2Nat.id by easy; reflexivity).
    rewrite Ez in B1, B2. set (q := Z.to_nat z) in *.
    destruct (Nat.eq_dec q k) as [->|E].
    + destruct (Rlt_dec W (INR k / INR c)) as [C|C]; [apply Rlt_div_r in C; [lra|easy]|].
      destruct (Rlt_dec W ((INR k + 1) / INR c)) as [D|D]; [lra|].
      elim D. apply Rlt_div_r; lra.
    + assert (D : (q < k \/ k < q)%nat) by lia. destruct D as [D|D].
      * assert (INR q + 1 <= INR k) by (rewrite <- S_INR; apply le_INR; lia).
        destruct (Rlt_dec W (INR k / INR c)) as [C|C]; [|elim C; apply Rlt_div_r; lra].
        destruct (Rlt_dec W ((INR k + 1) / INR c)) as [F|F]; [lra|]. elim F. apply Rlt_div_r; lra.
      * assert (INR k + 1 <= INR q) by (rewrite <- S_INR; apply le_INR; lia).
        destruct (Rlt_dec W (INR k / INR c)) as [C|C]; [apply Rlt_div_r in C; lra|].
        destruct (Rlt_dec W ((INR k + 1) / INR c)) as [F|F]; [apply Rlt_div_r in F; lra|]. lra.
  - apply is_RInt_val with (minus (clamp ((INR k + 1) / INR c)) (clamp (INR k / INR c))).
    + apply (is_RInt_minus (V:=R_NormedModule)); apply is_RInt_indicator; intros u Hu;
        destruct (Rlt_dec u _); split; intros; try reflexivity; lra.
    + unfold minus, plus, opp, clamp; simpl.
      assert (0 <= INR k / INR c) by (apply Rmult_le_pos; [lra|left; now apply Rinv_0_lt_compat]).
      assert (0 <= (INR k + 1) / INR c) by (apply Rmult_le_pos; [lra|left; now apply Rinv_0_lt_compat]).
      rewrite !Rmin_right, !Rmax_right; try easy; [field; lra| |]; apply Rle_div_l; lra.
Qed.
