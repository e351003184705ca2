(** Systematic resampling: offspring counts and unbiasedness. *)
From Coq Require Import Reals List Arith ZArith Bool Lia Lra.
From Coquelicot Require Import Coquelicot.
From Verif Require Import Ext ScanModel ScanProofs DiscreteSpec Sums ResamplingModel ResamplingSpec
  ResamplingProofs.
Import ListNotations.
Open Scope R_scope.

(** ** integrals of indicators *)
Lemma is_RInt_val (f : R -> R) (a b x y : R) : is_RInt f a b x -> x = y -> is_RInt f a b y.
Proof. now intros H <-. Qed.
Lemma is_RInt_const1 a b (v : R) : v = b - a -> is_RInt (fun _ => 1) a b v.
Proof.
  intros ->. apply (is_RInt_val _ _ _ _ _ (is_RInt_const (V:=R_NormedModule) a b 1)).
  unfold scal; simpl; unfold mult; simpl; ring.
Qed.
Lemma is_RInt_const0 a b : is_RInt (fun _ => 0) a b 0.
Proof.
  apply (is_RInt_val _ _ _ _ _ (is_RInt_const (V:=R_NormedModule) a b 0)).
  unfold scal; simpl; unfold mult; simpl; ring.
Qed.
Definition clamp (c : R) : R := Rmax 0 (Rmin 1 c).
Lemma is_RInt_indicator (f : R -> R) c :
  (forall u, 0 < u < 1 -> (u < c -> f u = 1) /\ (c < u -> f u = 0)) ->
  is_RInt f 0 1 (clamp c).
Proof.
  intros Hf.
  destruct (Rle_dec c 0) as [H0|H0]; [|destruct (Rle_dec 1 c) as [H1|H1]].
  - unfold clamp. rewrite Rmin_right, Rmax_left by lra.
    apply is_RInt_ext with (fun _ => 0); [|apply is_RInt_const0].
    intros x Hx. rewrite Rmin_left, Rmax_right in Hx by lra. destruct (Hf x Hx) as [_ H]. symmetry. apply H. lra.
  - unfold clamp. rewrite Rmin_left, Rmax_right by lra.
    apply is_RInt_ext with (fun _ => 1); [|apply is_RInt_const1; ring].
    intros x Hx. rewrite Rmin_left, Rmax_right in Hx by lra. destruct (Hf x Hx) as [H _]. symmetry. apply H. lra.
  - unfold clamp. rewrite Rmin_right, Rmax_right by lra.
    apply is_RInt_val with (plus c 0); [|unfold plus; simpl; ring].
    apply (is_RInt_Chasles (V:=R_NormedModule)) with c.
    + apply is_RInt_ext with (fun _ => 1); [|apply is_RInt_const1; ring].
      intros x Hx. rewrite Rmin_left, Rmax_right in Hx by lra.
      destruct (Hf x ltac:(lra)) as [H _]. symmetry. apply H. lra.
    + apply is_RInt_ext with (fun _ => 0); [|apply is_RInt_const0].
      intros x Hx. rewrite Rmin_left, Rmax_right in Hx by lra.
      destruct (Hf x ltac:(lra)) as [_ H]. symmetry. apply H. lra.
Qed.
Lemma is_RInt_lsum {A} (f : A -> R -> R) (g : A -> R) (a b : R) l :
  (forall x, In x l -> is_RInt (f x) a b (g x)) ->
  is_RInt (fun u => lsum (fun x => f x u) l) a b (lsum g l).
Proof.
  induction l as [|x l IH]; intros H; cbn [lsum]; [apply is_RInt_const0|].
  apply (is_RInt_plus (V:=R_NormedModule) (f x)); [apply H; now left|]. apply IH. intros; apply H; now right.
Qed.

(** ** counting grid points below a level *)
Definition below (n : nat) (y u : R) : R :=
  lsum (fun k => if Rle_dec (u + INR k) y then 1 else 0) (seq 0 n).
Lemma below_S n y u : below (S n) y u = below n y u + (if Rle_dec (u + INR n) y then 1 else 0).
Proof. apply lsum_seq_S. Qed.
Lemma below_all n y u : u <= 1 -> INR n <= y -> below n y u = INR n.
Proof.
  intros Hu. induction n as [|n IH]; intros Hy; [reflexivity|].
  rewrite below_S, S_INR in *. rewrite IH by lra.
  destruct (Rle_dec (u + INR n) y) as [|Hn]; [reflexivity|]. elim Hn; lra.
Qed.
Lemma below_bounds n y u : 0 < u < 1 -> 0 <= y <= INR n ->
  y - u < below n y u <= y - u + 1.
Proof.
  intros Hu. induction n as [|n IH]; intros Hy.
  - simpl in Hy. unfold below; simpl. lra.
  - rewrite S_INR in Hy. rewrite below_S. destruct (Rle_dec (INR n) y) as [Hle|Hgt].
    + rewrite below_all by lra. destruct (Rle_dec (u + INR n) y); lra.
    + destruct (Rle_dec (u + INR n) y); [lra|]. assert (y - u < below n y u <= y - u + 1); [|lra].
      apply IH. lra.
Qed.
Lemma clamp_sum n y : 0 <= y <= INR n -> lsum (fun k => clamp (y - INR k)) (seq 0 n) = y.
Proof.
  induction n as [|n IH]; intros Hy; [simpl in *; lra|].
  rewrite lsum_seq_S, S_INR in *. destruct (Rle_dec (INR n) y) as [Hle|Hgt].
  - assert (E : lsum (fun k => clamp (y - INR k)) (seq 0 n) = INR n).
    { transitivity (lsum (fun _ => 1) (seq 0 n)).
      - apply lsum_ext. intros k Hk. apply in_seq in Hk. assert (INR k + 1 <= INR n).
        { rewrite <- S_INR. apply le_INR. lia. }
        unfold clamp. rewrite Rmin_left, Rmax_right; lra.
      - clear. induction n; [reflexivity|]. now rewrite lsum_seq_S, IHn, S_INR. }
    rewrite E. unfold clamp. rewrite Rmin_right, Rmax_right by lra. ring.
  - rewrite IH by lra. unfold clamp. rewrite Rmin_right, Rmax_left by lra. ring.
Qed.
Lemma below_RInt n y : 0 <= y <= INR n -> is_RInt (below n y) 0 1 y.
Proof.
  intros Hy. rewrite <- (clamp_sum n y Hy) at 2. apply is_RInt_lsum. intros k _.
  apply is_RInt_indicator. intros u Hu.
  destruct (Rle_dec (u + INR k) y); split; intros; try reflexivity; lra.
Qed.

(** ** the offspring counts *)
Lemma count_occ_nth l i :
  INR (count_occ Nat.eq_dec l i) =
  lsum (fun k => if Nat.eq_dec (nth k l 0%nat) i then 1 else 0) (seq 0 (length l)).
Proof.
  rewrite <- (lsum_nth_seq (fun a => if Nat.eq_dec a i then 1 else 0)).
  induction l as [|a l IH]; [reflexivity|]. cbn [count_occ lsum].
  destruct (Nat.eq_dec a i); [rewrite S_INR|]; rewrite IH; ring.
Qed.
Lemma systematic_uniforms_length u n : length (systematic_uniforms u n) = n.
Proof. unfold systematic_uniforms. now rewrite map_length, seq_length. Qed.
Lemma systematic_uniforms_nth u n k : (k < n)%nat ->
  nth k (systematic_uniforms u n) 0 = (u + INR k) / INR n.
Proof.
  intros H. unfold systematic_uniforms.
  rewrite (nth_indep _ 0 ((u + INR 0) / INR n)) by (now rewrite map_length, seq_length).
  rewrite (map_nth (fun k => (u + INR k) / INR n)). now rewrite seq_nth.
Qed.
Lemma systematic_uniforms_sorted u n : sorted (systematic_uniforms u n).
Proof.
  intros a b Hab. rewrite systematic_uniforms_length in Hab.
  rewrite !systematic_uniforms_nth by lia. apply Rmult_le_compat_r.
  - destruct n; [lia|]. left. apply Rinv_0_lt_compat, lt_0_INR. lia.
  - apply Rplus_le_compat_l, le_INR. lia.
Qed.
Lemma cdf_range l i : valid_logits l -> (i <= length l)%nat -> 0 <= cdf (wt l) i <= 1.
Proof.
  intros H Hi. split.
  - rewrite <- (cdf_0 (wt l)). apply cdf_mono; [intros; now apply wt_nonneg|lia].
  - rewrite <- (wt_sum l) by easy. apply cdf_mono; [intros; now apply wt_nonneg|lia].
Qed.
Lemma cell_indicator a b x : a <= b ->
  (if Rle_dec x b then 1 else 0) - (if Rle_dec x a then 1 else 0) =
  (if Rlt_dec a x then if Rle_dec x b then 1 else 0 else 0).
Proof. intros. destruct (Rle_dec x b), (Rle_dec x a), (Rlt_dec a x); lra. Qed.
Lemma lsum_minus {A} (f g : A -> R) l : lsum (fun a => f a - g a) l = lsum f l - lsum g l.
Proof. induction l; simpl; [ring|]. rewrite IHl. ring. Qed.
Lemma systematic_copies cpu u n l i : (0 < n)%nat -> valid_logits l -> (i < length l)%nat -> 0 < u < 1 ->
  INR (copies (inverse_cdf cpu (systematic_uniforms u n) l) i) =
  below n (INR n * cdf (wt l) (S i)) u - below n (INR n * cdf (wt l) i) u.
Proof.
  intros Hn H Hi Hu. unfold copies.
  destruct (inverse_cdf_spec cpu _ l H (systematic_uniforms_sorted u n)) as (A & B).
  rewrite count_occ_nth, A. rewrite systematic_uniforms_length in *.
  unfold below. rewrite <- lsum_minus. apply lsum_ext. intros k Hk. apply in_seq in Hk.
  specialize (B k ltac:(lia)). rewrite systematic_uniforms_nth in B by lia.
  assert (Hn' : 0 < INR n) by (apply lt_0_INR; lia).
  assert (Hk' : INR k + 1 <= INR n) by (rewrite <- S_INR; apply le_INR; lia).
  pose proof (pos_INR k).
  assert (Hx : 0 < (u + INR k) / INR n <= 1).
  { split; [apply Rdiv_lt_0_compat; lra|]. apply Rle_div_l; lra. }
  assert (Hc : forall c, (u + INR k <= INR n * c) <-> (u + INR k) / INR n <= c).
  { intros c. rewrite Rle_div_l by lra. now rewrite Rmult_comm. }
  pose proof (cdf_mono (wt l) i (S i) ltac:(intros; now apply wt_nonneg) ltac:(lia)) as Hm.
  rewrite cell_indicator by (apply Rmult_le_compat_l; lra).
  set (x := (u + INR k) / INR n) in *. set (j := nth k _ 0%nat) in *.
  destruct (Nat.eq_dec j i) as [E|E].
  - rewrite E in B. apply inverse_at_cell in B; [|easy|easy]. destruct B as (_ & B1 & B2).
    destruct (Rlt_dec _ _) as [_|C].
    + destruct (Rle_dec _ _) as [_|C]; [reflexivity|]. elim C. now apply Hc.
    + elim C. apply Rnot_le_lt. intros D. apply Hc in D. lra.
  - destruct (Rlt_dec _ _) as [C|_]; [|reflexivity].
    destruct (Rle_dec _ _) as [D|_]; [|reflexivity].
    elim E. apply (inverse_at_unique (length l) (wt l) x); [intros; now apply wt_nonneg|easy|].
    apply inverse_at_cell; [easy|easy|]. split; [easy|]. split; [|now apply Hc].
    apply Rnot_le_lt. intros F. apply Hc in F. lra.
Qed.
Lemma systematic_copies_close cpu u n l i :
  (0 < n)%nat -> valid_logits l -> (i < length l)%nat -> 0 < u < 1 ->
  Rabs (INR (copies (inverse_cdf cpu (systematic_uniforms u n) l) i) - INR n * wt l i) < 1.
Proof.
  intros Hn H Hi Hu. rewrite systematic_copies by easy.
  assert (Hn' : 0 < INR n) by (apply lt_0_INR; lia).
  assert (R1 : 0 <= INR n * cdf (wt l) (S i) <= INR n).
  { pose proof (cdf_range l (S i) H ltac:(lia)). split; [apply Rmult_le_pos; lra|].
    rewrite <- (Rmult_1_r (INR n)) at 2. apply Rmult_le_compat_l; lra. }
  assert (R0 : 0 <= INR n * cdf (wt l) i <= INR n).
  { pose proof (cdf_range l i H ltac:(lia)). split; [apply Rmult_le_pos; lra|].
    rewrite <- (Rmult_1_r (INR n)) at 2. apply Rmult_le_compat_l; lra. }
  pose proof (below_bounds n _ u Hu R1). pose proof (below_bounds n _ u Hu R0).
  assert (E : INR n * cdf (wt l) (S i) = INR n * cdf (wt l) i + INR n * wt l i)
    by (rewrite cdf_S; ring).
  apply Rabs_def1; lra.
Qed.
Lemma systematic_unbiased cpu n l i :
  (0 < n)%nat -> valid_logits l -> (i < length l)%nat ->
  is_RInt (fun u => INR (copies (inverse_cdf cpu (systematic_uniforms u n) l) i)) 0 1 (INR n * wt l i).
Proof.
  intros Hn H Hi.
  apply is_RInt_ext with
    (fun u => minus (below n (INR n * cdf (wt l) (S i)) u) (below n (INR n * cdf (wt l) i) u)).
  { intros u Hu. rewrite Rmin_left, Rmax_right in Hu by lra. symmetry. now apply systematic_copies. }
  apply is_RInt_val with (minus (INR n * cdf (wt l) (S i)) (INR n * cdf (wt l) i));
    [|unfold minus, plus, opp; simpl; rewrite cdf_S; ring].
  assert (Hn' : 0 < INR n) by (apply lt_0_INR; lia).
  apply (is_RInt_minus (V:=R_NormedModule)); apply below_RInt.
  - pose proof (cdf_range l (S i) H ltac:(lia)). split; [apply Rmult_le_pos; lra|].
    rewrite <- (Rmult_1_r (INR n)) at 2. apply Rmult_le_compat_l; lra.
  - pose proof (cdf_range l i H ltac:(lia)). split; [apply Rmult_le_pos; lra|].
    rewrite <- (Rmult_1_r (INR n)) at 2. apply Rmult_le_compat_l; lra.
Qed.
