(** C78-C79: inverse-CDF resampling in floating-point arithmetic. *)
From Coq Require Import Reals List Arith ZArith NArith Bool Lia Lra.
From Flocq Require Import Core.
From Verif Require Import Ext ScanModel ScanProofs DiscreteSpec Sums ResamplingModel ResamplingSpec ResamplingProofs
  FloatModel FloatProofs FloatScan.
Import ListNotations.
Open Scope R_scope.

(** ** C78: the CPU loop with rounded additions is exact resampling from nearby weights *)
Theorem C78_backward_stable (prec emin : Z) (Hp : (0 < prec)%Z) (su ws : list R) :
  Forall (fun w => is_fl prec emin w /\ 0 <= w) ws -> (0 < length ws)%nat -> sorted su ->
  let e := bpow radix2 (- prec) in
  let w := fun k => nth k ws 0 in
  exists w' : nat -> R,
    (forall i, 0 <= w' i) /\
    (forall i, w i = 0 -> w' i = 0) /\
    (forall i, Rabs (w' i - w i) <= e * (1 + e) ^ i * cdf w (S i)) /\
    (forall i, Rabs (cdf w' i - cdf w i) <= ((1 + e) ^ (i - 1) - 1) * cdf w i) /\
    length (fl_inverse_cdf_cpu prec emin su ws) = length su /\
    forall n, (n < length su)%nat ->
      inverse_at (length ws) w' (nth n su 0) (nth n (fl_inverse_cdf_cpu prec emin su ws) 0%nat).
Proof.
  intros G HN Hs e w. exists (weff prec emin ws).
  assert (Hp' : Prec_gt_0 prec) by exact Hp.
  split; [intros i; now apply weff_nonneg|]. split; [intros i; now apply weff_0|].
  split; [intros i; now apply weff_err|].
  split; [intros i; rewrite cdf_weff; now apply fsum_err|].
  now apply fl_cpu_spec.
Qed.
Print Assumptions C78_backward_stable.

(** both platforms: the index is right up to a shift of the uniform by the accumulated rounding error *)
Theorem C78_both_platforms (prec emin : Z) (Hp : (0 < prec)%Z) (cpu : bool) (su ws : list R) :
  Forall (fun w => is_fl prec emin w /\ 0 <= w) ws -> (0 < length ws)%nat -> sorted su ->
  let idx := if cpu then fl_inverse_cdf_cpu prec emin su ws else fl_inverse_cdf_default prec emin su ws in
  let w := fun k => nth k ws 0 in
  let N := length ws in
  let E := ((1 + bpow radix2 (- prec)) ^ (N - 1) - 1) * cdf w N in
  length idx = length su /\
  forall n, (n < length su)%nat ->
    let i := nth n idx 0%nat in
    let u := nth n su 0 in
    (i < N)%nat /\ (i = 0%nat \/ cdf w i < u + E) /\ (u - E <= cdf w (S i) \/ i = (N - 1)%nat).
Proof.
  intros G HN Hs idx w N E. assert (Hp' : Prec_gt_0 prec) by exact Hp.
  assert (Mono : forall i j, (i <= j)%nat -> cdf w i <= cdf w j).
  { intros i j. apply cdf_mono. intros k. now apply (good_nth prec emin). }
  pose proof (eps_pos prec) as Ep. fold (eps prec) in E.
  assert (EB : forall i t, (i <= N)%nat -> (t <= N - 1)%nat -> ((1 + eps prec) ^ t - 1) * cdf w i <= E).
  { intros i t Hi Ht. unfold E. apply Rmult_le_compat.
    - assert (1 <= (1 + eps prec) ^ t) by (apply pow_R1_Rle; lra). lra.
    - now apply (cdf_nth_nonneg prec emin).
    - assert ((1 + eps prec) ^ t <= (1 + eps prec) ^ (N - 1)) by (apply Rle_pow; [lra|easy]). lra.
    - now apply Mono. }
  destruct cpu; subst idx.
  - destruct (fl_cpu_spec prec emin ws su G HN Hs) as (L & F). split; [exact L|].
    intros n Hn i u. destruct (F n Hn) as (H1 & H2 & H3). fold i u in H1, H2, H3. split; [exact H1|].
    rewrite !cdf_weff in *. split.
    + destruct H2 as [H2|H2]; [now left|right].
      pose proof (Rabs_le_inv _ _ (fsum_err prec emin ws i G)).
      fold w in H. pose proof (EB i (i - 1)%nat ltac:(unfold N; lia) ltac:(unfold N; lia)). lra.
    + destruct H3 as [H3|H3]; [left|now right].
      pose proof (Rabs_le_inv _ _ (fsum_err prec emin ws (S i) G)).
      fold w in H. pose proof (EB (S i) (S i - 1)%nat ltac:(unfold N; lia) ltac:(unfold N; lia)). lra.
  - split; [unfold fl_inverse_cdf_default; now rewrite map_length|]. intros n Hn i u.
    unfold fl_inverse_cdf_default in i.
    set (g := fun u => clip 0 (length ws - 1) (fl_searchsorted (fl_cumsum prec emin ws) u)) in *.
    assert (Ei : i = g u).
    { unfold i. rewrite (nth_indep _ 0%nat (g 0)) by (now rewrite map_length). now rewrite map_nth. }
    set (cs := fl_cumsum prec emin ws) in *.
    assert (Lc : length cs = N) by (apply assoc_scan_length).
    assert (Err : forall t, (t < N)%nat -> - E <= nth t cs 0 - cdf w (S t) <= E).
    { intros t Ht. pose proof (Rabs_le_inv _ _ (fl_cumsum_err prec emin ws t G Ht)) as H.
      change (ex ws) with w in H. fold cs in H.
      pose proof (EB (S t) t ltac:(lia) ltac:(lia)). lra. }
    set (P := fun c : R => if Rlt_dec c u then true else false).
    assert (Ec : fl_searchsorted cs u = length (List.filter P cs)) by reflexivity.
    set (c := length (List.filter P cs)) in *.
    assert (Hc : (c <= N)%nat) by (rewrite <- Lc; apply filter_length_le).
    unfold g in Ei. rewrite Ec in Ei. unfold clip in Ei. fold N in Ei.
    split; [unfold N in *; lia|]. split.
    + destruct (Nat.eq_dec i 0) as [Z|Z]; [now left|right].
      apply Rnot_le_lt. intros Bad.
      assert (c <= i - 1)%nat; [|lia]. apply count_ge. intros k Hk.
      unfold P. destruct (Rlt_dec (nth k cs 0) u) as [X|]; [|reflexivity].
      destruct (Err k) as [A _]; [lia|]. pose proof (Mono i (S k) ltac:(lia)). lra.
    + destruct (Nat.eq_dec i (N - 1)) as [Z|Z]; [now right|left].
      apply Rnot_lt_le. intros Bad.
      assert (S i <= c)%nat; [|lia]. apply count_le; [|lia]. intros k Hk.
      unfold P. destruct (Rlt_dec (nth k cs 0) u) as [|X]; [reflexivity|].
      destruct (Err k) as [_ A]; [lia|]. pose proof (Mono (S k) (S i) ltac:(lia)). lra.
Qed.
Print Assumptions C78_both_platforms.

(** the systematic grid stays sorted and inside [0, 1]; 1 is attained by rounding (C79) *)
Lemma int_is_fl (prec emin : Z) (Hp : (0 < prec)%Z) (k : nat) :
  (emin <= 0)%Z -> (Z.of_nat k <= 2 ^ prec)%Z -> is_fl prec emin (INR k).
Proof.
  intros He Hk. rewrite INR_IZR_INZ. assert (Hp' : Prec_gt_0 prec) by exact Hp.
  destruct (Z.eq_dec (Z.of_nat k) (2 ^ prec)) as [->|Hn].
  - change (2 ^ prec)%Z with (radix2 ^ prec)%Z. rewrite IZR_Zpower by lia.
    apply generic_format_bpow. unfold FLT_exp. lia.
  - apply generic_format_FLT. exists (Float radix2 (Z.of_nat k) 0).
    + unfold F2R. simpl. ring.
    + simpl. change (Zpower radix2 prec)%Z with (2 ^ prec)%Z. rewrite Z.abs_eq by lia. lia.
    + exact He.
Qed.
Theorem C78_grid (prec emin : Z) (Hp : (0 < prec)%Z) (u : R) (n : nat) :
  (emin <= 0)%Z -> 0 <= u < 1 -> (0 < n)%nat -> (Z.of_nat n <= 2 ^ prec)%Z ->
  length (fl_systematic_uniforms prec emin u n) = n /\
  sorted (fl_systematic_uniforms prec emin u n) /\
  Forall (fun x => 0 <= x <= 1) (fl_systematic_uniforms prec emin u n).
Proof.
  intros He Hu Hn Hn2. assert (Hp' : Prec_gt_0 prec) by exact Hp.
  assert (Hn0 : 0 < INR n) by (now apply lt_0_INR).
  set (g := fun k => fl prec emin (fl prec emin (u + fl prec emin (INR k)) / fl prec emin (INR n))).
  assert (Gk : forall k, (k < n)%nat -> nth k (fl_systematic_uniforms prec emin u n) 0 = g k).
  { intros k Hk. unfold fl_systematic_uniforms. fold g. rewrite (nth_indep _ 0 (g 0%nat)) by (now rewrite map_length, seq_length).
    rewrite map_nth, seq_nth by easy. reflexivity. }
  assert (Fn : forall k, (k <= n)%nat -> fl prec emin (INR k) = INR k).
  { intros k Hk. apply (fl_id prec emin). apply int_is_fl; [easy|easy|lia]. }
  assert (L : length (fl_systematic_uniforms prec emin u n) = n)
    by (unfold fl_systematic_uniforms; now rewrite map_length, seq_length).
  split; [exact L|]. split.
  - intros a b Hab. rewrite L in Hab. rewrite !Gk by lia. unfold g. rewrite !Fn by lia.
    apply (fl_mono prec emin). apply Rmult_le_compat_r; [left; now apply Rinv_0_lt_compat|].
    apply (fl_mono prec emin). apply Rplus_le_compat_l, le_INR. lia.
  - apply Forall_forall. intros x Hx. apply (In_nth _ _ 0) in Hx. destruct Hx as (k & Hk & <-).
    rewrite L in Hk. rewrite Gk by easy. unfold g. rewrite !Fn by lia. pose proof (pos_INR k).
    split.
    + apply (fl_nonneg prec emin). apply Rmult_le_pos; [|left; now apply Rinv_0_lt_compat].
      apply (fl_nonneg prec emin). lra.
    + assert (E1 : fl prec emin 1 = 1) by (apply (Fn 1%nat); lia). rewrite <- E1.
      apply (fl_mono prec emin). apply Rmult_le_reg_r with (INR n); [easy|]. unfold Rdiv.
      rewrite Rmult_assoc, Rinv_l, Rmult_1_r, Rmult_1_l by lra.
      rewrite <- (Fn n) by lia. apply (fl_mono prec emin).
      assert (INR k + 1 <= INR n) by (rewrite <- S_INR; apply le_INR; lia). lra.
Qed.
Print Assumptions C78_grid.

(** ** C79: particles of weight zero *)
(** what holds: on the CPU only the last particle can be picked with weight zero, by a uniform above
    the rounded total *)
Theorem C79_zero_weight_partial (prec emin : Z) (Hp : (0 < prec)%Z) (su ws : list R) :
  Forall (fun w => is_fl prec emin w /\ 0 <= w) ws -> (0 < length ws)%nat -> sorted su ->
  let w := fun k => nth k ws 0 in
  let N := length ws in
  let E := ((1 + bpow radix2 (- prec)) ^ (N - 1) - 1) * cdf w N in
  forall n, (n < length su)%nat -> 0 < nth n su 0 ->
    let i := nth n (fl_inverse_cdf_cpu prec emin su ws) 0%nat in
    w i = 0 -> i = (N - 1)%nat /\ cdf w N - E < nth n su 0.
Proof.
  intros G HN Hs w N E n Hn Hu i Hi. assert (Hp' : Prec_gt_0 prec) by exact Hp.
  destruct (fl_cpu_spec prec emin ws su G HN Hs) as (L & F). destruct (F n Hn) as (H1 & H2 & H3).
  fold i in H1, H2, H3. rewrite cdf_S, (weff_0 prec emin ws i G Hi), Rplus_0_r in H3.
  rewrite cdf_weff in *.
  assert (I : i = (N - 1)%nat).
  { destruct H3 as [H3|H3]; [|exact H3]. destruct H2 as [H2|H2]; [|lra].
    rewrite H2 in H3. simpl in H3. lra. }
  split; [exact I|].
  assert (S1 : fsum prec emin ws N < nth n su 0).
  { replace N with (S i) by (unfold N in *; lia). rewrite fsum_S by easy. change (nth i ws 0) with (w i). rewrite Hi, Rplus_0_r.
    rewrite (fl_id prec emin) by (now apply fsum_good).
    destruct H2 as [->|H2]; [exact Hu|exact H2]. }
  pose proof (Rabs_le_inv _ _ (fsum_err prec emin ws N G)) as H. fold w in H.
  change (bpow radix2 (- prec)) with (eps prec) in E. unfold E. lra.
Qed.
Print Assumptions C79_zero_weight_partial.

(** *** binary32 witnesses *)
Notation f32 := (fl 24 (-149)).
(** the correctly rounded normalised weights *)
Definition w32 (logits : list ext) : list R := map (fun i => f32 (wt logits i)) (seq 0 (length logits)).

Definition injN (a : N) : R := inj 27 (Z.of_N a).
Definition addN (a b : N) : N := Z.to_N (rz 24 (Z.of_N a + Z.of_N b)).
Local Instance p24 : Prec_gt_0 24 := eq_refl.
Lemma injN_add a b : f32 (injN a + injN b) = injN (addN a b).
Proof.
  unfold injN, addN. rewrite inj_plus, fl_inj by lia. f_equal. rewrite Z2N.id; [reflexivity|].
  apply rz_nonneg. lia.
Qed.
Lemma injN_lt a b : (a < b)%N -> injN a < injN b.
Proof. intros H. apply inj_lt. lia. Qed.
Lemma injN_0 : injN 0 = 0.
Proof. unfold injN, inj. simpl. ring. Qed.
Lemma injN_1 : injN 134217728 = 1.
Proof. unfold injN, inj. simpl. lra. Qed.
Lemma injN_fl a : rz 24 (Z.of_N a) = Z.of_N a -> is_fl 24 (-149) (injN a).
Proof. intros H. apply inj_fl; [typeclasses eauto|lia|lia|easy]. Qed.

Lemma map_evens {A B} (h : A -> B) l : evens (map h l) = map h (evens l).
Proof. induction l using list_ind2; simpl; try reflexivity. now rewrite IHl. Qed.
Lemma map_removelast {A B} (h : A -> B) l : removelast (map h l) = map h (removelast l).
Proof. induction l as [|a [|b l] IH]; simpl in *; try reflexivity. now rewrite IH. Qed.
Lemma map_tl {A B} (h : A -> B) l : tl (map h l) = map h (tl l).
Proof. now destruct l. Qed.
Lemma map_interleave {A B} (h : A -> B) : forall a b, interleave (map h a) (map h b) = map h (interleave a b).
Proof. induction a as [|x a IH]; intros [|y b]; simpl; try reflexivity. now rewrite IH. Qed.
Lemma map2_hom {A B} (h : A -> B) f g : (forall a b, g (h a) (h b) = h (f a b)) ->
  forall l m, map2 g (map h l) (map h m) = map h (map2 f l m).
Proof. intros H. induction l as [|a l IH]; intros [|b m]; simpl; try reflexivity. now rewrite H, IH. Qed.
Lemma assoc_scan_hom {A B} (h : A -> B) f g : (forall a b, g (h a) (h b) = h (f a b)) ->
  forall l, assoc_scan g (map h l) = map h (assoc_scan f l).
Proof.
  intros H. unfold assoc_scan. intros l. rewrite map_length. generalize (length l). intros n. revert l.
  induction n as [|n IH]; intros l; [reflexivity|]. cbn [assoc_scan_fuel]. rewrite map_length.
  destruct (length l <? 2)%nat; [reflexivity|]. cbv zeta. unfold odds.
  rewrite map_removelast, !map_tl, !map_evens, (map2_hom h f g H), IH.
  set (o := assoc_scan_fuel n f _). rewrite skipn_map, map_evens, map_removelast, firstn_map.
  destruct (Nat.even (length l)); rewrite (map2_hom h f g H), <- map_app; now rewrite map_interleave.
Qed.
Lemma fsum_injN l i : fsum 24 (-149) (map injN l) i =
  injN (match i with O => 0 | S i' => fold_left addN (map (fun k => nth (S k) l 0%N) (seq 0 i')) (nth 0 l 0%N) end).
Proof.
  destruct i as [|i]; [symmetry; apply injN_0|].
  induction i as [|i IH].
  - simpl. rewrite <- injN_0. apply map_nth.
  - change (fsum 24 (-149) (map injN l) (S (S i))) with
      (f32 (fsum 24 (-149) (map injN l) (S i) + nth (S i) (map injN l) 0)).
    rewrite IH. rewrite <- injN_0, map_nth, injN_add. f_equal.
    rewrite seq_S, map_app, fold_left_app. reflexivity.
Qed.

Lemma f32_at x m : bpow radix2 (-4) <= x < bpow radix2 (-3) -> Rabs (x * 134217728 - IZR (Z.of_N m)) < / 2 ->
  f32 x = injN m.
Proof.
  intros Hx Hm. unfold fl, round, scaled_mantissa, cexp.
  rewrite (mag_unique_pos radix2 x (-3)) by (exact Hx). change (FLT_exp (-149) 24 (-3)) with (-27)%Z.
  change (bpow radix2 (- (-27))) with 134217728.
  rewrite (Znearest_imp _ _ (Z.of_N m)) by exact Hm. reflexivity.
Qed.
Lemma f32_12 : f32 (1 / 12) = injN 11184811.
Proof. apply f32_at; [simpl; lra|]. simpl Z.of_N. apply Rabs_def1; lra. Qed.
Lemma f32_11 : f32 (1 / 11) = injN 12201612.
Proof. apply f32_at; [simpl; lra|]. simpl Z.of_N. apply Rabs_def1; lra. Qed.
Lemma f32_0 : f32 0 = injN 0.
Proof. rewrite injN_0. apply fl_id, fl_0. Qed.

(** twelve equal weights and a last particle of weight zero *)
Definition logits12 : list ext := repeat (Fin 0) 12 ++ [NInf].
Lemma w32_12 : w32 logits12 = map injN (repeat 11184811%N 12 ++ [0%N]).
Proof.
  unfold w32, logits12. simpl. unfold wt. simpl. rewrite exp_0.
  replace (1 / _) with (1 / 12) by (f_equal; ring). rewrite f32_12.
  unfold Rdiv at 1. rewrite Rmult_0_l, f32_0. reflexivity.
Qed.
Lemma logits12_valid : valid_logits logits12.
Proof.
  split.
  - apply Forall_forall. intros e He. simpl in He. unfold is_logit. intuition; subst; eauto.
  - apply Exists_cons_hd. eauto.
Qed.
Definition u_top : R := 1 - bpow radix2 (-23).
Lemma u_top_inj : u_top = injN 134217712.
Proof. unfold u_top, injN, inj. simpl. lra. Qed.
Lemma u_top_fl : is_fl 24 (-149) u_top.
Proof. rewrite u_top_inj. apply injN_fl. reflexivity. Qed.

(** C79 is false in binary32 on the CPU: thirteen particles, the last of weight zero, a uniform
    strictly inside (0, 1) that is a multiple of 2^-23, as jax.random.uniform draws them *)
Theorem C79_zero_weight_refuted :
  exists (u : R) (logits : list ext) (n : nat),
    0 < u < 1 /\ (exists k : Z, u = IZR k / 2 ^ 23) /\ valid_logits logits /\
    exists i, In i (fl_systematic_idx 24 (-149) u (w32 logits) n) /\ wt logits i = 0.
Proof.
  exists u_top, logits12, 13%nat.
  assert (U : 0 < u_top < 1) by (unfold u_top; simpl; lra).
  split; [exact U|]. split; [exists 8388607%Z; unfold u_top; simpl; lra|].
  split; [exact logits12_valid|]. exists 12%nat. split; [|unfold wt; simpl; unfold Rdiv; ring].
  destruct (C78_grid 24 (-149) eq_refl u_top 13) as (L & S & _); [lia|lra|lia|vm_compute; discriminate|].
  unfold fl_systematic_idx. set (su := fl_systematic_uniforms _ _ _ _) in *.
  assert (G : good 24 (-149) (w32 logits12)).
  { rewrite w32_12. unfold good. apply Forall_forall. intros x Hx. apply in_map_iff in Hx.
    destruct Hx as (a & <- & Ha). split.
    - apply injN_fl. simpl in Ha. intuition; subst; reflexivity.
    - rewrite <- injN_0. apply inj_le. lia. }
  assert (Len : length (w32 logits12) = 13%nat) by reflexivity.
  destruct (fl_cpu_spec 24 (-149) (w32 logits12) su G) as (Li & F); [lia|exact S|].
  assert (Top : nth 12 su 0 = 1).
  { unfold su, fl_systematic_uniforms. cbn [seq map nth].
    rewrite !(fl_id 24 (-149) (INR _)) by (apply int_is_fl; [lia|lia|vm_compute; discriminate]).
    replace (INR 12) with (injN 1610612736) by (unfold injN, inj; simpl; lra).
    rewrite u_top_inj, injN_add. replace (addN 134217712 1610612736) with 1744830464%N by reflexivity.
    replace (injN 1744830464 / INR 13) with (injN 134217728) by (unfold injN, inj; simpl; lra).
    rewrite (fl_id 24 (-149)); [apply injN_1|]. apply injN_fl. reflexivity. }
  specialize (F 12%nat ltac:(lia)). rewrite Top, Len in F.
  assert (I : inverse_at 13 (weff 24 (-149) (w32 logits12)) 1 12).
  { split; [lia|]. split; [right|right; lia]. rewrite cdf_weff, w32_12, fsum_injN, <- injN_1.
    apply injN_lt. vm_compute. reflexivity. }
  rewrite (inverse_at_unique _ _ _ _ _ (fun k => weff_nonneg 24 (-149) _ k G) I F).
  apply nth_In. lia.
Qed.
Print Assumptions C79_zero_weight_refuted.

(** eleven equal weights, zero weights at positions 9 and 11 *)
Definition logits11 : list ext := repeat (Fin 0) 9 ++ [NInf; Fin 0; NInf; Fin 0].
Lemma w32_11 : w32 logits11 = map injN (repeat 12201612%N 9 ++ [0%N; 12201612%N; 0%N; 12201612%N]).
Proof.
  unfold w32, logits11. simpl. unfold wt. simpl. rewrite exp_0.
  replace (1 / _) with (1 / 11) by (f_equal; ring). rewrite f32_11.
  unfold Rdiv. rewrite Rmult_0_l, f32_0. reflexivity.
Qed.
(** the uniform, a multiple of 2^-27 *)
Definition U11 : N := 122016128%N.
(** On the tree-ordered platform the rounded cumulative sums need not increase, and a uniform inside
    the range of the sums picks an interior particle of weight zero; the CPU picks another one. *)
Theorem C79_interior_refuted :
  exists (u : R) (logits : list ext) (i : nat),
    0 < u < 1 /\ is_fl 24 (-149) u /\ valid_logits logits /\
    fl_inverse_cdf_default 24 (-149) [u] (w32 logits) = [i] /\
    fl_inverse_cdf_cpu 24 (-149) [u] (w32 logits) <> [i] /\
    (S i < length logits)%nat /\ wt logits i = 0 /\ 0 < wt logits (S i).
Proof.
  set (l := repeat 12201612%N 9 ++ [0%N; 12201612%N; 0%N; 12201612%N]).
  exists (injN U11), logits11, 11%nat.
  split; [split; [rewrite <- injN_0|rewrite <- injN_1]; apply injN_lt; reflexivity|].
  split; [apply injN_fl; reflexivity|].
  split.
  { split.
    - apply Forall_forall. intros e He. simpl in He. unfold is_logit. intuition; subst; eauto.
    - apply Exists_cons_hd. eauto. }
  assert (G : good 24 (-149) (w32 logits11)).
  { rewrite w32_11. unfold good. apply Forall_forall. intros x Hx. apply in_map_iff in Hx.
    destruct Hx as (a & <- & Ha). split.
    - apply injN_fl. simpl in Ha. intuition; subst; reflexivity.
    - rewrite <- injN_0. apply inj_le. lia. }
  split; [|split; [|split; [simpl; lia|split]]].
  - unfold fl_inverse_cdf_default. rewrite w32_11. fold l. unfold fl_cumsum.
    rewrite (assoc_scan_hom injN addN) by (intros; apply injN_add).
    unfold fl_searchsorted. apply (f_equal (fun i => [i])).
    assert (Cnt : forall v l, length (List.filter (fun c => if Rlt_dec c (injN v) then true else false) (map injN l)) =
                    length (List.filter (fun a => (a <? v)%N) l)).
    { intros v m. induction m as [|a m IH]; [reflexivity|]. cbn [map List.filter].
      destruct (Rlt_dec (injN a) (injN v)) as [X|X]; destruct (N.ltb_spec a v) as [Y|Y].
      - cbn [length]. now rewrite IH.
      - exfalso. assert (injN v <= injN a) by (apply inj_le; lia). lra.
      - elim X. now apply injN_lt.
      - exact IH. }
    rewrite Cnt, map_length. vm_compute. reflexivity.
  - intros Bad. destruct (fl_cpu_spec 24 (-149) (w32 logits11) [injN U11] G) as (_ & F); [simpl; lia| |].
    { intros a b Hab. simpl in Hab. replace a with 0%nat by lia. replace b with 0%nat by lia. lra. }
    specialize (F 0%nat ltac:(simpl; lia)). rewrite Bad in F. cbn [nth] in F.
    destruct F as (_ & [F|F] & _); [discriminate|]. rewrite cdf_weff, w32_11, fsum_injN in F.
    match type of F with injN ?x < injN ?y =>
      assert (L : (y <= x)%N) by (vm_compute; discriminate); revert F L; generalize x end.
    intros x F L. assert (injN U11 <= injN x) by (apply inj_le; lia). lra.
  - unfold wt; simpl; unfold Rdiv; ring.
  - unfold wt; simpl. rewrite exp_0. lra.
Qed.
Print Assumptions C79_interior_refuted.
Example C78_hypotheses_met :
  Forall (fun w => is_fl 24 (-149) w /\ 0 <= w) (w32 logits12) /\ length (w32 logits12) = 13%nat /\
  sorted (fl_systematic_uniforms 24 (-149) u_top 13) /\
  cdf (fun k => nth k (w32 logits12) 0) 13 <> 1.
Proof.
  split; [|split; [reflexivity|split]].
  - rewrite w32_12. apply Forall_forall. intros x Hx. apply in_map_iff in Hx.
    destruct Hx as (a & <- & Ha). split.
    + apply injN_fl. simpl in Ha. intuition; subst; reflexivity.
    + rewrite <- injN_0. apply inj_le. lia.
  - apply C78_grid; [lia|lia|unfold u_top; simpl; lra|lia|vm_compute; discriminate].
  - rewrite w32_12. unfold cdf. simpl. unfold injN, inj. simpl. lra.
Qed.
