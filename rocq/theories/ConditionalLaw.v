(** The output of conditional systematic resampling as a function of the offset and of the slot. *)
From Coq Require Import Reals List Arith ZArith Bool Lia Lra Permutation.
From Coquelicot Require Import Coquelicot.
From Verif Require Import Ext ScanModel ScanProofs DiscreteSpec Sums ResamplingModel ResamplingSpec
  ResamplingProofs SystematicProofs ConditionalProofs.
Import ListNotations.
Open Scope R_scope.

Lemma sorted_nat_tail a l : sorted_nat (a :: l) -> sorted_nat l.
Proof. intros H i j Hij. apply (H (S i) (S j)). simpl; lia. Qed.
Lemma sorted_head_nonzero a l : sorted_nat (a :: l) -> a <> 0%nat ->
  forall l', l' = l -> List.filter (fun i => Nat.eqb i 0) l' = [].
Proof.
  intros H Ha l' ->. assert (G : forall x, In x l -> x <> 0%nat).
  { intros x Hx. destruct (In_nth l x 0%nat Hx) as (k & Hk & <-).
    specialize (H 0%nat (S k) ltac:(simpl; lia)). simpl in H. lia. }
  clear -G. induction l as [|b l IH]; [reflexivity|]. simpl.
  destruct (Nat.eqb_spec b 0) as [->|]; [exfalso; apply (G 0%nat); [now left|easy]|].
  apply IH. intros; apply G; now right.
Qed.
Lemma zeros_prefix : forall idx a k, sorted_nat idx ->
  (k < length (List.filter (fun i => Nat.eqb i 0) idx))%nat ->
  nth k (List.filter (fun p => Nat.eqb (snd p) 0) (combine (seq a (length idx)) idx)) (0%nat,0%nat)
  = ((a + k)%nat, 0%nat).
Proof.
  induction idx as [|x idx IH]; intros a k Hs Hk; [simpl in Hk; lia|].
  cbn [length seq combine List.filter snd] in *. destruct (Nat.eqb_spec x 0) as [->|Hx].
  - simpl in Hk. destruct k as [|k]; simpl; [now rewrite Nat.add_0_r|].
    rewrite IH; [f_equal; lia|eapply sorted_nat_tail; eassumption|lia].
  - rewrite (sorted_head_nonzero x idx Hs Hx idx eq_refl) in Hk. simpl in Hk. lia.
Qed.
Lemma flatnonzero_sorted idx n k : length idx = n -> sorted_nat idx ->
  (k < length (List.filter (fun i => Nat.eqb i 0) idx))%nat ->
  nth k (flatnonzero0 idx n) 0%Z = Z.of_nat k.
Proof.
  intros Hn Hs Hk. unfold flatnonzero0.
  pose proof (zeros_prefix idx 0 k Hs Hk) as E.
  set (L := List.filter (fun p => Nat.eqb (snd p) 0) (combine (seq 0 (length idx)) idx)) in *.
  assert (HL : length L = length (List.filter (fun i => Nat.eqb i 0) idx)).
  { unfold L. generalize 0%nat at 2. clear. induction idx; intros a'; simpl; [reflexivity|].
    destruct (Nat.eqb a 0); simpl; now rewrite IHidx. }
  assert (HLn : (length L <= n)%nat).
  { rewrite HL, <- Hn. clear. induction idx; simpl; [lia|]. destruct (Nat.eqb a 0); simpl; lia. }
  rewrite firstn_app, app_nth1.
  - rewrite firstn_all2 by (rewrite map_length; lia).
    rewrite (nth_indep _ 0%Z (Z.of_nat (fst (0%nat, 0%nat)))) by (rewrite map_length; lia).
    rewrite (map_nth (fun p => Z.of_nat (fst p))), E. reflexivity.
  - rewrite firstn_length, map_length. lia.
Qed.

(** log weights re-indexed so that the pivot comes first *)
Definition pivot_first (l : list ext) (p : nat) : list ext :=
  map (fun j => nth ((p + j) mod length l) l NInf) (seq 0 (length l)).
Lemma copies_zero idx : copies idx 0 = length (List.filter (fun i => Nat.eqb i 0) idx).
Proof.
  unfold copies. induction idx as [|a idx IH]; [reflexivity|]. simpl.
  destruct (Nat.eq_dec a 0) as [->|E]; simpl; [now rewrite IH|].
  now rewrite (proj2 (Nat.eqb_neq a 0) E).
Qed.
Lemma inverse_at_ext N w w' u i : (forall k, (k < N)%nat -> w k = w' k) ->
  inverse_at N w u i -> inverse_at N w' u i.
Proof.
  intros E (H1 & H2 & H3).
  assert (C : forall k, (k <= N)%nat -> cdf w k = cdf w' k).
  { intros k Hk. unfold cdf. apply lsum_ext. intros j Hj. apply in_seq in Hj. apply E. lia. }
  unfold inverse_at. rewrite <- !C by lia. auto.
Qed.
(** inverse_cdf only depends on the normalised weights *)
Lemma inverse_cdf_wt_ext cpu su l l' : valid_logits l -> valid_logits l' -> length l = length l' ->
  (forall k, (k < length l)%nat -> wt l k = wt l' k) -> sorted su ->
  inverse_cdf cpu su l = inverse_cdf cpu su l'.
Proof.
  intros H H' HL E Hs. destruct (inverse_cdf_spec cpu su l' H' Hs) as (A & B).
  apply inverse_cdf_unique; auto. intros n Hn. rewrite HL. apply inverse_at_ext with (wt l').
  - intros k Hk. symmetry. apply E. lia.
  - now apply B.
Qed.
Lemma pivot_first_facts l p : valid_logits l -> (p < length l)%nat ->
  valid_logits (pivot_first l p) /\ length (pivot_first l p) = length l /\
  forall j, (j < length l)%nat -> wt (pivot_first l p) j = wt l ((p + j) mod length l).
Proof.
  intros H Hp.
  assert (E : pivot_first l p = roll NInf l (- Z.of_nat p)).
  { unfold pivot_first, roll. apply map_ext. intros j. f_equal.
    rewrite <- (Nat2Z.id ((p + j) mod length l)). f_equal. rewrite Nat2Z.inj_mod. f_equal. lia. }
  rewrite E. split; [now apply valid_roll|]. split; [apply roll_length|].
  intros j Hj. unfold wt. rewrite (lsum_perm _ _ l) by (apply roll_perm; lia).
  rewrite roll_nth by easy. do 3 f_equal.
  rewrite <- (Nat2Z.id ((p + j) mod length l)). f_equal. rewrite Nat2Z.inj_mod. f_equal. lia.
Qed.

Lemma systematic_conditional_structure cpu {X} (dX : X) U V W l positions n pivot_in pivot_out :
  valid_logits l -> 0 <= U < 1 -> 0 <= W < 1 -> (pivot_in < n)%nat -> (pivot_out < length l)%nat ->
  let idx := fst (fst (systematic_conditional dX cpu U V W l positions n pivot_in pivot_out)) in
  let offset := conditional_offset (INR n * wt l pivot_out) U V in
  let sys := inverse_cdf cpu (systematic_uniforms offset n) (pivot_first l pivot_out) in
  let slot := Z.to_nat (Int_part (INR (copies sys 0) * W)) in
  (slot < copies sys 0)%nat /\
  forall j, (j < n)%nat ->
    nth ((pivot_in + j) mod n) idx 0%nat = ((pivot_out + nth ((slot + j) mod n) sys 0) mod length l)%nat.
Proof.
  intros H HU HW Hin Hout idx offset sys slot.
  destruct (pivot_first_facts l pivot_out H Hout) as (F1 & F2 & F3).
  assert (Hn' : 0 < INR n) by (apply lt_0_INR; lia).
  (* the rolled log weights of the code *)
  subst idx. unfold systematic_conditional. cbn [fst]. rewrite map_length, logsumexp_valid by easy.
  set (c := ln (lsum uw l)). set (l2 := roll NaN (map (fun e => esub e (Fin c)) l) (- Z.of_nat pivot_out)).
  assert (V1 : valid_logits (map (fun e => esub e (Fin c)) l)) by (apply valid_shift; exact H).
  assert (V2 : valid_logits l2) by (apply valid_roll; exact V1).
  assert (L2 : length l2 = length l) by (unfold l2; now rewrite roll_length, map_length).
  assert (W2 : forall j, (j < length l)%nat -> wt l2 j = wt (pivot_first l pivot_out) j).
  { intros j Hj. rewrite F3 by easy. unfold l2. rewrite wt_roll by (rewrite ?map_length; easy).
    rewrite map_length. rewrite wt_shift; [|easy|apply roll_index; lia].
    f_equal. rewrite <- (Nat2Z.id ((pivot_out + j) mod length l)). f_equal. rewrite Nat2Z.inj_mod. f_equal. lia. }
  assert (W20 : wt l2 0 = wt l pivot_out).
  { rewrite W2, F3 by lia. rewrite Nat.add_0_r, Nat.mod_small by easy. reflexivity. }
  unfold conditional_resampling_0_to_0.
  rewrite (weights_valid l2) by easy. fold (Fw (wt l2) (length l2)). rewrite Fw_nth by lia. cbn [fin_val].
  rewrite W20. fold offset.
  assert (Elin : map (fun k => (INR k + offset) / INR n) (seq 0 n) = systematic_uniforms offset n).
  { apply map_ext. intros k. now rewrite Rplus_comm. }
  rewrite Elin.
  assert (Esys : inverse_cdf cpu (systematic_uniforms offset n) l2 = sys).
  { apply inverse_cdf_wt_ext; auto using systematic_uniforms_sorted; try congruence.
    intros k Hk. apply W2. lia. }
  rewrite Esys.
  destruct (inverse_cdf_spec cpu _ _ F1 (systematic_uniforms_sorted offset n)) as (A & B).
  fold sys in A, B. rewrite systematic_uniforms_length in A, B. rewrite F2 in B.
  pose proof (inverse_cdf_sorted cpu _ _ F1 (systematic_uniforms_sorted offset n)) as Ssys. fold sys in Ssys.
  assert (Z0 : nth 0 sys 0%nat = 0%nat).
  { apply (inverse_at_unique (length l) (wt (pivot_first l pivot_out)) (nth 0 (systematic_uniforms offset n) 0)).
    - intros; now apply wt_nonneg.
    - apply B. lia.
    - rewrite systematic_uniforms_nth by lia. split; [lia|]. split; [now left|]. left.
      rewrite cdf_S, cdf_0. simpl INR. rewrite Rplus_0_r, Rplus_0_l.
      rewrite <- W2, W20 by lia. apply Rle_div_l; [lra|].
      pose proof (wt_nonneg l pivot_out H) as Hw.
      pose proof (conditional_offset_range (INR n * wt l pivot_out) U V ltac:(apply Rmult_le_pos; lra) HU) as Ho.
      fold offset in Ho. pose proof (Rmin_l (INR n * wt l pivot_out) 1). lra. }
  set (nz := length (List.filter (fun i => Nat.eqb i 0) sys)).
  assert (Enz : copies sys 0 = nz) by apply copies_zero.
  assert (Hnz : (0 < nz)%nat).
  { unfold nz. destruct sys as [|a r] eqn:E; [simpl in A; lia|]. simpl in Z0. subst a. simpl. lia. }
  assert (Hslot : (slot < nz)%nat).
  { unfold slot. rewrite Enz. now apply Int_part_scaled. }
  assert (Hnzn : (nz <= n)%nat).
  { unfold nz. rewrite <- A. clear. induction sys; simpl; [lia|]. destruct (Nat.eqb a 0); simpl; lia. }
  split; [rewrite Enz; exact Hslot|].
  assert (Eroll : (if Nat.eqb nz 1 then sys else roll 0%nat sys (- nth (Z.to_nat (Int_part (INR nz * W))) (flatnonzero0 sys n) 0%Z))
     = roll 0%nat sys (- Z.of_nat slot)).
  { destruct (Nat.eqb_spec nz 1) as [E1|E1].
    - assert (slot = 0%nat) as -> by lia. simpl Z.opp.
      apply nth_list_ext with 0%nat; [now rewrite roll_length|]. intros k Hk.
      rewrite roll_nth by easy. rewrite Z.sub_0_r, Z.mod_small, Nat2Z.id by lia. reflexivity.
    - rewrite flatnonzero_sorted; [unfold slot; now rewrite Enz|exact A|exact Ssys|].
      now apply Int_part_scaled. }
  rewrite Eroll. set (rs := roll 0%nat sys (- Z.of_nat slot)).
  assert (Lrs : length rs = n) by (unfold rs; now rewrite roll_length).
  assert (Rrs : forall k, In k rs -> (k < length l)%nat).
  { intros k Hk. apply roll_In in Hk.
    pose proof (inverse_cdf_range cpu _ _ k F1 (systematic_uniforms_sorted offset n) Hk). lia. }
  assert (Eclip : map (clip 0 (length l2 - 1)) rs = rs).
  { rewrite <- (map_id rs) at 2. apply map_ext_in. intros k Hk. apply clip_id. rewrite L2. auto. }
  rewrite Eclip. intros j Hj.
  set (ar := roll 0%nat (seq 0 (length l)) (- Z.of_nat pivot_out)).
  assert (La : length ar = length l) by (unfold ar; now rewrite roll_length, seq_length).
  assert (Hmod : ((pivot_in + j) mod n < n)%nat) by (apply Nat.mod_upper_bound; lia).
  rewrite roll_nth by (rewrite gather_length; lia). rewrite gather_length, Lrs.
  assert (E1 : Z.to_nat ((Z.of_nat ((pivot_in + j) mod n) - Z.of_nat pivot_in) mod Z.of_nat n) = j).
  { rewrite Nat2Z.inj_mod, Zminus_mod_idemp_l.
    replace (Z.of_nat (pivot_in + j) - Z.of_nat pivot_in)%Z with (Z.of_nat j) by lia.
    rewrite Z.mod_small, Nat2Z.id by lia. reflexivity. }
  rewrite E1.
  assert (Hin' : In (nth j rs 0%nat) rs) by (apply nth_In; lia). apply Rrs in Hin'.
  rewrite gather_nth by lia.
  assert (E2 : nth j rs 0%nat = nth ((slot + j) mod n) sys 0%nat).
  { unfold rs. rewrite roll_nth by lia. rewrite A. f_equal.
    rewrite <- (Nat2Z.id ((slot + j) mod n)). f_equal. rewrite Nat2Z.inj_mod. f_equal. lia. }
  rewrite E2 in *. set (q := nth ((slot + j) mod n) sys 0%nat) in *.
  unfold ar. rewrite roll_nth by (rewrite seq_length; lia). rewrite seq_length.
  assert (Hq : (Z.to_nat ((Z.of_nat q - - Z.of_nat pivot_out) mod Z.of_nat (length l)) < length l)%nat)
    by (apply roll_index; lia).
  rewrite seq_nth by easy. rewrite Nat.add_0_l.
  rewrite <- (Nat2Z.id ((pivot_out + q) mod length l)). f_equal. rewrite Nat2Z.inj_mod. f_equal. lia.
Qed.

(** ** sorted uniforms of multinomial resampling *)
Lemma rcumsum_length l : forall s, length (rcumsum_from s l) = length l.
Proof. induction l; intros s; simpl; auto. Qed.
Lemma rcumsum_nth l : forall s k, (k < length l)%nat ->
  nth k (rcumsum_from s l) 0 = s + lsum (fun x => x) (firstn (S k) l).
Proof.
  induction l as [|a l IH]; intros s k Hk; [simpl in Hk; lia|]. cbn [length] in Hk.
  cbn [rcumsum_from firstn lsum]. destruct k as [|k].
  - simpl. ring.
  - cbn [nth]. rewrite IH by lia. ring.
Qed.
Lemma last_nth {A} (l : list A) d : last l d = nth (length l - 1) l d.
Proof.
  induction l as [|a l IH]; [reflexivity|]. destruct l as [|b l]; [reflexivity|].
  change (last (a :: b :: l) d) with (last (b :: l) d). rewrite IH. simpl. now rewrite Nat.sub_0_r.
Qed.
Lemma removelast_length {A} (l : list A) : length (removelast l) = (length l - 1)%nat.
Proof.
  induction l as [|a l IH]; [reflexivity|]. destruct l as [|b l]; [reflexivity|].
  change (removelast (a :: b :: l)) with (a :: removelast (b :: l)). cbn [length] in *. lia.
Qed.
Lemma removelast_nth' {A} (l : list A) d k : (k < length l - 1)%nat -> nth k (removelast l) d = nth k l d.
Proof.
  revert k. induction l as [|a l IH]; intros k Hk; [simpl in Hk; lia|]. destruct l as [|b l]; [simpl in Hk; lia|].
  change (removelast (a :: b :: l)) with (a :: removelast (b :: l)). destruct k as [|k]; [reflexivity|].
  change (nth (S k) (a :: removelast (b :: l)) d) with (nth k (removelast (b :: l)) d).
  rewrite IH by (cbn [length] in *; lia). reflexivity.
Qed.
Lemma psum_lt (l : list R) i j : List.Forall (fun x => 0 < x) l -> (i < j <= length l)%nat ->
  lsum (fun x => x) (firstn i l) < lsum (fun x => x) (firstn j l).
Proof.
  intros H. revert i j. induction H as [|a l Ha Hl IH]; intros i j Hij; [simpl in Hij; lia|].
  destruct j as [|j]; [lia|]. cbn [length] in Hij. cbn [firstn lsum]. destruct i as [|i].
  - cbn [firstn lsum]. assert (0 <= lsum (fun x => x) (firstn j l)); [|lra].
    apply lsum_nonneg. intros x Hx. rewrite Forall_forall in Hl. left. apply Hl.
    rewrite <- (firstn_skipn j l). apply in_or_app. now left.
  - cbn [firstn lsum]. assert (lsum (fun x => x) (firstn i l) < lsum (fun x => x) (firstn j l)); [|lra].
    apply IH. lia.
Qed.
Lemma sorted_uniforms_facts us n : length us = S n -> List.Forall (fun u => 0 < u < 1) us ->
  length (sorted_uniforms us) = n /\ sorted (sorted_uniforms us) /\
  (forall u, In u (sorted_uniforms us) -> 0 < u < 1).
Proof.
  intros HL Hu. unfold sorted_uniforms. set (e := map (fun u => - ln u) us).
  assert (He : List.Forall (fun x => 0 < x) e).
  { rewrite Forall_forall in *. intros x Hx. apply in_map_iff in Hx. destruct Hx as (u & <- & Hx).
    specialize (Hu _ Hx). assert (ln u < ln 1) by (apply ln_increasing; lra). rewrite ln_1 in H. lra. }
  assert (Le : length e = S n) by (unfold e; now rewrite map_length).
  set (z := rcumsum_from 0 e). assert (Lz : length z = S n) by (unfold z; now rewrite rcumsum_length).
  assert (Nz : forall k, (k < S n)%nat -> nth k z 0 = lsum (fun x => x) (firstn (S k) e)).
  { intros k Hk. unfold z. rewrite rcumsum_nth by lia. ring. }
  set (tot := last z 0). assert (Et : tot = lsum (fun x => x) (firstn (S n) e)).
  { unfold tot. rewrite last_nth, Lz. replace (S n - 1)%nat with n by lia. apply Nz. lia. }
  assert (Ht : 0 < tot).
  { rewrite Et. change 0 with (lsum (fun x : R => x) (firstn 0 e)). apply psum_lt; [easy|lia]. }
  assert (Lr : length (map (fun x => x / tot) (removelast z)) = n).
  { rewrite map_length, removelast_length. lia. }
  assert (Nr : forall k, (k < n)%nat ->
     nth k (map (fun x => x / tot) (removelast z)) 0 = lsum (fun x => x) (firstn (S k) e) / tot).
  { intros k Hk. rewrite (nth_indep _ 0 (0 / tot)) by lia. rewrite (map_nth (fun x => x / tot)).
    rewrite removelast_nth' by lia. now rewrite Nz by lia. }
  split; [exact Lr|]. split.
  - intros a b Hab. rewrite Lr in Hab. rewrite !Nr by lia. apply Rmult_le_compat_r.
    + left. now apply Rinv_0_lt_compat.
    + destruct (Nat.eq_dec a b) as [->|]; [lra|]. left. apply psum_lt; [easy|lia].
  - intros u Hin. destruct (In_nth _ _ 0 Hin) as (k & Hk & <-). rewrite Lr in Hk. rewrite Nr by lia. split.
    + apply Rmult_lt_0_compat; [|now apply Rinv_0_lt_compat].
      change 0 with (lsum (fun x : R => x) (firstn 0 e)). apply psum_lt; [easy|lia].
    + apply Rmult_lt_reg_r with tot; [easy|]. unfold Rdiv. rewrite Rmult_assoc, Rinv_l, Rmult_1_r, Rmult_1_l by lra.
      rewrite Et. apply psum_lt; [easy|lia].
Qed.
Lemma multinomial_facts cpu {X} (dX : X) us perm l positions n :
  valid_logits l -> length us = S n -> List.Forall (fun u => 0 < u < 1) us -> Permutation perm (seq 0 n) ->
  let idx := fst (fst (multinomial_resampling dX cpu us perm l positions n)) in
  length idx = n /\ forall i, In i idx -> (i < length l)%nat /\ 0 < wt l i.
Proof.
  intros H Hl Hu Hp. unfold multinomial_resampling. cbn [fst].
  destruct (sorted_uniforms_facts us n Hl Hu) as (A & B & C).
  destruct (inverse_cdf_spec cpu _ l H B) as (D & E). rewrite A in D, E.
  split.
  - rewrite map_length, (Permutation_length Hp). apply seq_length.
  - intros i Hi. apply in_map_iff in Hi. destruct Hi as (k & <- & Hk).
    apply (Permutation_in _ Hp), in_seq in Hk. specialize (E k ltac:(lia)). split; [apply E|].
    apply (inverse_at_pos l (nth k (sorted_uniforms us) 0)); [easy| |exact E].
    assert (0 < nth k (sorted_uniforms us) 0 < 1); [|lra]. apply C. apply nth_In. lia.
Qed.
