(** Two normalised sums of exponential spacings at once. *)
From Coq Require Import Reals List Arith Bool Lia Lra FunctionalExtensionality.
From Coquelicot Require Import Coquelicot.
From Verif Require Import DiscreteSpec Sums SystematicProofs IterSpec Iter Spacings.
Import ListNotations.
Open Scope R_scope.

(** ** Sums over a square *)
Definition sq (M : nat) (f : nat -> nat -> R) : R := lsum (fun p => lsum (fun i => f p i) (seq 0 M)) (seq 0 M).
Lemma sq_ext M f g : (forall p i, (p < M)%nat -> (i < M)%nat -> f p i = g p i) -> sq M f = sq M g.
Proof. intros H. apply lsum_seq_ext. intros p Hp. apply lsum_seq_ext. intros i Hi. auto. Qed.
Lemma sq_lin M f g a b : sq M (fun p i => a * f p i + b * g p i) = a * sq M f + b * sq M g.
Proof.
  unfold sq. rewrite <- !lsum_scal, <- lsum_plus. apply lsum_ext. intros p _. now rewrite lsum_plus, !lsum_scal.
Qed.
Lemma shift_sum M (f g : nat -> R) : f M = 0 ->
  lsum (fun p => f (S p) * g p) (seq 0 M) = lsum (fun p => f p * match p with O => 0 | S q => g q end) (seq 0 M).
Proof.
  intros H. destruct M as [|M]; [reflexivity|]. rewrite (lsum_seq_S (fun p => f (S p) * g p)), H, lsum_seq_shift. ring.
Qed.

(** ** Polynomials of a sum *)
Lemma fact_ne m : INR (fact m) <> 0.
Proof. apply INR_fact_neq_0. Qed.
Lemma sum_lsum f n : sum_f_R0 f n = lsum f (seq 0 (S n)).
Proof. induction n; [simpl; ring|]. rewrite lsum_seq_S, <- IHn. reflexivity. Qed.
Lemma Pw_add n a b : Pw n (a + b) = lsum (fun p => Pw p a * Pw (n - p) b) (seq 0 (S n)).
Proof.
  unfold Pw at 1. rewrite binomial, sum_lsum. unfold Rdiv. rewrite <- lsum_scal_r. apply lsum_seq_ext. intros p Hp.
  unfold Binomial.C, Pw. field. repeat split; apply fact_ne.
Qed.
Lemma h_add n a b : h n (a + b) = lsum (fun p => h p a * h (n - p) b) (seq 0 (S n)).
Proof.
  unfold h. rewrite Pw_add, <- lsum_scal. apply lsum_ext. intros p _. rewrite Ropp_plus_distr, exp_plus. ring.
Qed.
Definition pred0 (f : nat -> R) (p : nat) : R := match p with O => 0 | S q => f q end.

(** ** An integral from zero *)
Lemma int_from_zero (Phi G : R -> R) C : ex_RInt Phi 0 1 -> (forall u, 0 < u <= 1 -> is_derive G u (Phi u)) ->
  (forall u, 0 < u <= 1 -> continuous Phi u) -> (forall u, 0 < u < 1 -> Rabs (Phi u) <= C) ->
  (forall u, 0 < u < 1 -> Rabs (G u) <= u) -> is_RInt Phi 0 1 (G 1).
Proof.
  intros (v & Iv) HD HC HB HG. assert (E : v = G 1); [|now rewrite <- E].
  assert (C0 : 0 <= C) by (eapply Rle_trans; [apply Rabs_pos|apply (HB (1/2)); lra]).
  apply Rminus_diag_uniq, Rabs_eq_0, Rle_antisym; [|apply Rabs_pos].
  apply le_epsilon. intros e He. rewrite Rplus_0_l.
  set (a := Rmin (1/2) (e / (C + 1))).
  assert (Q : 0 < e / (C + 1)) by (apply Rdiv_lt_0_compat; lra).
  assert (A0 : 0 < a) by (apply Rmin_glb_lt; lra).
  assert (A1 : a < 1) by (pose proof (Rmin_l (1/2) (e/(C+1))); unfold a; lra). pose proof (Rmin_r (1/2) (e / (C+1))) as A2. fold a in A2.
  assert (I1 : is_RInt Phi a 1 (G 1 - G a)).
  { apply (is_RInt_derive G); rewrite Rmin_left, Rmax_right by lra; intros u Hu; [apply HD|apply HC]; lra. }
  assert (I0 : ex_RInt Phi 0 a) by (apply (ex_RInt_Chasles_1 (V := R_CompleteNormedModule)) with 1; [lra|now exists v]).
  destruct I0 as (w & Iw).
  pose proof (is_RInt_Chasles (V := R_NormedModule) _ _ _ _ _ _ Iw I1) as Iv'.
  assert (Ev : v = w + (G 1 - G a)) by (rewrite <- (is_RInt_unique _ _ _ _ Iv); now apply is_RInt_unique).
  assert (W : Rabs w <= a * C).
  { apply Rabs_le_between. split.
    - replace (- (a * C)) with (scal (a - 0) (- C)) by (unfold scal; simpl; unfold mult; simpl; ring).
      apply (is_RInt_le (fun _ => - C) Phi 0 a); [lra|apply (is_RInt_const (V := R_NormedModule))|exact Iw|].
      intros u Hu. specialize (HB u ltac:(lra)). apply Rabs_le_between in HB. lra.
    - replace (a * C) with (scal (a - 0) C) by (unfold scal; simpl; unfold mult; simpl; ring).
      apply (is_RInt_le Phi (fun _ => C) 0 a); [lra|exact Iw|apply (is_RInt_const (V := R_NormedModule))|].
      intros u Hu. specialize (HB u ltac:(lra)). apply Rabs_le_between in HB. lra. }
  rewrite Ev. replace (w + (G 1 - G a) - G 1) with (w + - G a) by ring.
  eapply Rle_trans; [apply Rabs_triang|]. rewrite Rabs_Ropp. specialize (HG a ltac:(lra)).
  apply Rle_trans with (a * (C + 1)); [lra|]. apply Rmult_le_reg_r with (/ (C + 1)); [apply Rinv_0_lt_compat; lra|].
  rewrite Rmult_assoc, Rinv_r, Rmult_1_r by lra. exact A2.
Qed.

(** ** The draws before the first threshold *)
Section First.
  Variables kk bb : R.
  Hypothesis Hk : 0 < kk.
  Hypothesis Hb : 0 < bb.
  Variables kap bet : R.
  Hypothesis Hkap : 0 <= kap.
  Hypothesis Hbet : 0 <= bet.
  Definition hh (p i : nat) (u : R) : R := h p (kap - kk * ln u) * h i (bet - bb * ln u).
  Lemma ln_le0 u : 0 < u <= 1 -> ln u <= 0.
  Proof. intros Hu. destruct (Req_dec u 1) as [->|]; [rewrite ln_1; lra|]. left. apply ln_neg. lra. Qed.
  Lemma hh_bound p i u : 0 < u <= 1 -> 0 <= hh p i u <= 1.
  Proof.
    intros Hu. pose proof (ln_le0 u Hu). unfold hh.
    pose proof (h_bound p (kap - kk * ln u) ltac:(nra)). pose proof (h_bound i (bet - bb * ln u) ltac:(nra)). nra.
  Qed.
  Lemma hln_derive c d m u : 0 < u -> is_derive (fun u => h m (c - d * ln u)) u
    (- d / u * (pred0 (fun q => h q (c - d * ln u)) m - h m (c - d * ln u))).
  Proof.
    intros Hu. apply (is_derive_comp (V := R_NormedModule) (h m) (fun u => c - d * ln u)).
    - evar_last; [apply h_derive|]. destruct m; reflexivity.
    - auto_derive; [exact Hu|]. field. lra.
  Qed.
  Lemma hh_ex_derive p i u : 0 < u -> ex_derive (hh p i) u.
  Proof. intros Hu. unfold hh. apply ex_derive_mult; eexists; now apply hln_derive. Qed.
  Lemma hh_int p i : ex_RInt (hh p i) 0 1.
  Proof.
    assert (E : forall d u, 0 < d -> (1 - / (1 + d)) / / (1 + d) * ln u = d * ln u) by (intros; field; lra).
    apply ex_RInt_ext01 with (fun u => fhat (/ (1 + kk)) kap p u * fhat (/ (1 + bb)) bet i u).
    { intros u Hu. unfold fhat, arg, hh. destruct Rle_dec; [lra|]. now rewrite !E. }
    assert (B : forall d, 0 < d -> 0 < / (1 + d) < 1).
    { intros d Hd. split; [apply Rinv_0_lt_compat; lra|]. rewrite <- Rinv_1. apply Rinv_lt_contravar; lra. }
    apply (ex_RInt_continuous (V := R_CompleteNormedModule)). rewrite min01, max01. intros u Hu.
    apply (continuous_mult (K := R_AbsRing)); apply fhat_cont; auto.
  Qed.
  Definition qq (p i : nat) : R := RInt (hh p i) 0 1.
  Lemma qq_ok p i : is_RInt (hh p i) 0 1 (qq p i).
  Proof. apply (RInt_correct (V := R_CompleteNormedModule)), hh_int. Qed.
  Lemma qq_rec p i : (1 + kk + bb) * qq p i
    = h p kap * h i bet + kk * pred0 (fun q => qq q i) p + bb * pred0 (qq p) i.
  Proof.
    set (P1 := fun u => pred0 (fun q => hh q i u) p). set (P2 := fun u => pred0 (fun q => hh p q u) i).
    set (Phi := fun u => (1 + kk + bb) * hh p i u - kk * P1 u - bb * P2 u).
    assert (I1 : is_RInt P1 0 1 (pred0 (fun q => qq q i) p)).
    { unfold P1. destruct p; cbn [pred0]; [|apply qq_ok].
      apply is_RInt_val with (scal (1 - 0) 0); [apply (is_RInt_const (V := R_NormedModule))|unfold scal; simpl; unfold mult; simpl; ring]. }
    assert (I2 : is_RInt P2 0 1 (pred0 (qq p) i)).
    { unfold P2. destruct i; cbn [pred0]; [|apply qq_ok].
      apply is_RInt_val with (scal (1 - 0) 0); [apply (is_RInt_const (V := R_NormedModule))|unfold scal; simpl; unfold mult; simpl; ring]. }
    assert (I : is_RInt Phi 0 1 ((1 + kk + bb) * qq p i - kk * pred0 (fun q => qq q i) p - bb * pred0 (qq p) i)).
    { apply (is_RInt_minus (V := R_NormedModule) (fun u => (1 + kk + bb) * hh p i u - kk * P1 u) (fun u => bb * P2 u)).
      - apply (is_RInt_minus (V := R_NormedModule) (fun u => (1 + kk + bb) * hh p i u) (fun u => kk * P1 u)).
        + apply (is_RInt_scal (V := R_NormedModule)), qq_ok.
        + now apply (is_RInt_scal (V := R_NormedModule)).
      - now apply (is_RInt_scal (V := R_NormedModule)). }
    assert (B1 : forall u, 0 < u <= 1 -> 0 <= P1 u <= 1).
    { intros u Hu. unfold P1. destruct p; cbn [pred0]; [lra|now apply hh_bound]. }
    assert (B2 : forall u, 0 < u <= 1 -> 0 <= P2 u <= 1).
    { intros u Hu. unfold P2. destruct i; cbn [pred0]; [lra|now apply hh_bound]. }
    assert (J : is_RInt Phi 0 1 (1 * hh p i 1)).
    { apply (int_from_zero Phi (fun u => u * hh p i u) (1 + kk + bb + kk + bb)).
      - eexists; exact I.
      - intros u Hu. unfold Phi. evar_last.
        + apply (is_derive_mult (fun u => u) (hh p i) u 1 (- kk / u * (pred0 (fun q => h q (kap - kk * ln u)) p - h p (kap - kk * ln u)) * h i (bet - bb * ln u)
              + h p (kap - kk * ln u) * (- bb / u * (pred0 (fun q => h q (bet - bb * ln u)) i - h i (bet - bb * ln u))))).
          * apply (is_derive_id u).
          * unfold hh. apply (is_derive_mult (fun u => h p (kap - kk * ln u)) (fun u => h i (bet - bb * ln u))); [apply hln_derive; lra|apply hln_derive; lra|intros; apply Rmult_comm].
          * intros; apply Rmult_comm.
        + unfold plus, mult; simpl. unfold P1, P2, hh. destruct p, i; cbn [pred0]; field; lra.
      - intros u Hu. apply (ex_derive_continuous (V := R_NormedModule) Phi).
        assert (D1 : ex_derive P1 u) by (unfold P1; destruct p; cbn [pred0]; [apply (ex_derive_const (V := R_NormedModule))|apply hh_ex_derive; lra]).
        assert (D2 : ex_derive P2 u) by (unfold P2; destruct i; cbn [pred0]; [apply (ex_derive_const (V := R_NormedModule))|apply hh_ex_derive; lra]).
        unfold Phi. apply (ex_derive_minus (V := R_NormedModule) (fun u => (1 + kk + bb) * hh p i u - kk * P1 u) (fun u => bb * P2 u)).
        + apply (ex_derive_minus (V := R_NormedModule) (fun u => (1 + kk + bb) * hh p i u) (fun u => kk * P1 u)).
          * apply ex_derive_scal, hh_ex_derive. lra.
          * now apply ex_derive_scal.
        + now apply ex_derive_scal.
      - intros u Hu. unfold Phi. pose proof (hh_bound p i u ltac:(lra)). pose proof (B1 u ltac:(lra)). pose proof (B2 u ltac:(lra)).
        apply Rabs_le_between. split; nra.
      - intros u Hu. pose proof (hh_bound p i u ltac:(lra)). rewrite Rabs_right; nra. }
    assert (E : 1 * hh p i 1 = (1 + kk + bb) * qq p i - kk * pred0 (fun q => qq q i) p - bb * pred0 (qq p) i).
    { rewrite <- (is_RInt_unique _ _ _ _ I). symmetry. now apply is_RInt_unique. }
    unfold hh in E. rewrite ln_1, !Rmult_0_r, !Rminus_0_r in E. lra.
  Qed.
End First.

(** ** Two thresholds *)
Lemma lsum_trunc (f : nat -> R) m n : (m <= n)%nat -> (forall i, (m <= i < n)%nat -> f i = 0) -> lsum f (seq 0 n) = lsum f (seq 0 m).
Proof.
  intros Hm H. replace n with (m + (n - m))%nat by lia. rewrite seq_app, lsum_app.
  rewrite (lsum_ext f (fun _ => 0) (seq (0 + m) (n - m))), lsum_zero; [ring|]. intros i Hi. apply in_seq in Hi. apply H. lia.
Qed.
Lemma lsum_start (g : nat -> R) p m :
  lsum (fun n => if (p <=? n)%nat then g (n - p)%nat else 0) (seq 0 m) = lsum (fun i => if (p + i <? m)%nat then g i else 0) (seq 0 m).
Proof.
  destruct (le_lt_dec m p) as [Hp|Hp].
  - transitivity (lsum (fun _ : nat => 0) (seq 0 m)); [|symmetry]; apply lsum_seq_ext; intros i Hi.
    + destruct (Nat.leb_spec p i); [lia|reflexivity].
    + destruct (Nat.ltb_spec (p + i) m); [lia|reflexivity].
  - replace m with (p + (m - p))%nat at 1 by lia. rewrite seq_app, lsum_app.
    rewrite (lsum_seq_ext (fun n => if (p <=? n)%nat then g (n - p)%nat else 0) (fun _ => 0) p), lsum_zero.
    2:{ intros i Hi. destruct (Nat.leb_spec p i); [lia|reflexivity]. }
    rewrite (lsum_trunc (fun i => if (p + i <? m)%nat then g i else 0) (m - p) m) by (solve [lia | intros i Hi; destruct (Nat.ltb_spec (p + i) m); [lia|reflexivity]]).
    rewrite <- (map_id (seq (0 + p) (m - p))). rewrite Rplus_0_l, Nat.add_0_l.
    assert (E : seq p (m - p) = map (fun i => (p + i)%nat) (seq 0 (m - p))).
    { rewrite <- (Nat.add_0_r p) at 1. generalize (m - p)%nat 0%nat. intros k. induction k; intros s; [reflexivity|]. cbn [seq map]. f_equal.
      rewrite <- IHk. f_equal. lia. }
    rewrite map_id, E, lsum_map. apply lsum_seq_ext. intros i Hi. destruct (Nat.leb_spec p (p + i)); [|lia]. destruct (Nat.ltb_spec (p + i) m); [|lia].
    f_equal. lia.
Qed.
Lemma triangle m (f : nat -> nat -> R) :
  lsum (fun n => lsum (fun p => f p (n - p)%nat) (seq 0 (S n))) (seq 0 m) = sq m (fun p i => (if (p + i <? m)%nat then 1 else 0) * f p i).
Proof.
  rewrite (lsum_seq_ext _ (fun n => lsum (fun p => if (p <=? n)%nat then f p (n - p)%nat else 0) (seq 0 m))).
  2:{ intros n Hn. rewrite (lsum_trunc (fun p => if (p <=? n)%nat then f p (n - p)%nat else 0) (S n) m) by (solve [lia | intros i Hi; destruct (Nat.leb_spec i n); [lia|reflexivity]]).
      apply lsum_seq_ext. intros p Hp. destruct (Nat.leb_spec p n); [reflexivity|lia]. }
  rewrite lsum_swap. unfold sq. apply lsum_ext. intros p _. rewrite (lsum_start (f p) p m). apply lsum_ext. intros i _.
  destruct (p + i <? m)%nat; ring.
Qed.

Section Two.
  Variables x y : R.
  Hypothesis Hx : 0 < x.
  Hypothesis Hxy : x < y.
  Hypothesis Hy : y < 1.
  Let kk := (y - x) / x.
  Let bb := (1 - y) / x.
  Lemma kk_pos : 0 < kk.
  Proof. apply Rdiv_lt_0_compat; lra. Qed.
  Lemma bb_pos : 0 < bb.
  Proof. apply Rdiv_lt_0_compat; lra. Qed.
  (** probability that of [n] independent uniforms at least [j] are below x and at least [k] below y *)
  Fixpoint tail2 (n j k : nat) : R :=
    match n with
    | O => match j, k with O, O => 1 | _, _ => 0 end
    | S n' => x * tail2 n' (j - 1) (k - 1) + (y - x) * tail2 n' j (k - 1) + (1 - y) * tail2 n' j k
    end.
  Lemma tail2_0 n : forall k, tail2 n 0 k = tail y n k.
  Proof.
    induction n; intros k; destruct k; try reflexivity; cbn [tail2 tail Nat.sub]; rewrite !IHn.
    - replace (tail y n 0) with 1 by (destruct n; reflexivity). ring.
    - rewrite Nat.sub_0_r. ring.
  Qed.
  Lemma tail2_le n : forall j k, (k <= j)%nat -> tail2 n j k = tail2 n j j.
  Proof.
    induction n; intros j k Hk; cbn [tail2].
    - destruct j, k; try reflexivity; lia.
    - rewrite (IHn (j - 1)%nat (k - 1)%nat), (IHn j (k - 1)%nat), (IHn j k), (IHn j (j - 1)%nat) by lia. reflexivity.
  Qed.
  Lemma tail2_big n : forall j k, (n < j)%nat -> tail2 n j k = 0.
  Proof. induction n; intros j k Hj; cbn [tail2]; [destruct j; [lia|reflexivity]|]. rewrite !IHn by lia. ring. Qed.

  Definition chi2 (j l : nat) (ka be : R) (us : list R) : R :=
    if Rle_dec (x * (ka + be) + (1 - x) * neg (firstn j us)) (x * neg (skipn j us)) then
      if Rle_dec (y * be - (1 - y) * ka + (1 - y) * neg (firstn (j + l) us)) (y * neg (skipn (j + l) us)) then 1 else 0
    else 0.
  Lemma neg_cons u us : neg (u :: us) = - ln u + neg us.
  Proof. reflexivity. Qed.
  Lemma iff_dec (P Q : Prop) (a : {P} + {~ P}) (b : {Q} + {~ Q}) (s t : R) : (P <-> Q) -> (if a then s else t) = (if b then s else t).
  Proof. intros H. destruct a, b; tauto. Qed.
  Lemma chi2_first j l ka be u us : 0 < u < 1 ->
    chi2 (S j) l ka be (u :: us) = chi2 j l (ka - kk * ln u) (be - bb * ln u) us.
  Proof.
    intros Hu. unfold chi2. cbn [Nat.add firstn skipn]. rewrite !neg_cons.
    set (e := ln u). set (n1 := neg (firstn j us)). set (n2 := neg (skipn j us)).
    set (n3 := neg (firstn (j + l) us)). set (n4 := neg (skipn (j + l) us)).
    assert (E1 : x * (ka - kk * e + (be - bb * e)) + (1 - x) * n1 = x * (ka + be) + (1 - x) * (- e + n1)) by (unfold kk, bb; field; lra).
    assert (E2 : y * (be - bb * e) - (1 - y) * (ka - kk * e) + (1 - y) * n3 = y * be - (1 - y) * ka + (1 - y) * (- e + n3)) by (unfold kk, bb; field; lra).
    rewrite E1, E2. reflexivity.
  Qed.
  Lemma chi2_none ka be us : 0 <= ka -> 0 <= be -> inside us -> chi2 0 0 ka be us = psi 1 (ka + be) us.
  Proof.
    intros Hk Hb I. unfold chi2, psi. cbn [Nat.add firstn skipn]. replace (neg []) with 0 by reflexivity.
    pose proof (neg_nonneg us I).
    destruct (Rle_dec (x * (ka + be) + (1 - x) * 0) (x * neg us)) as [D|D], (Rle_dec (ka + be) (1 * neg us)) as [F|F]; try reflexivity.
    - destruct Rle_dec as [G|G]; [reflexivity|]. exfalso. apply G. nra.
    - exfalso. apply F. nra.
    - exfalso. apply D. nra.
  Qed.
  Lemma inside_parts l us : inside us -> inside (firstn l us) /\ inside (skipn l us).
  Proof. intros H. apply Forall_app. now rewrite firstn_skipn. Qed.
  Lemma chi2_second l ka be u us : 0 < u < 1 -> 0 <= ka -> 0 <= be -> inside us ->
    chi2 0 (S l) ka be (u :: us) = if Rle_dec (- ln u) ka then chi2 0 l (ka + ln u) be us else chi y l (y * be + (1 - y) * (- ln u - ka)) us.
  Proof.
    intros Hu Hk Hb I. unfold chi2, chi. cbn [Nat.add firstn skipn]. rewrite !neg_cons. replace (neg []) with 0 by reflexivity.
    assert (N : neg us = neg (firstn l us) + neg (skipn l us)).
    { unfold neg. rewrite <- lsum_app, firstn_skipn. reflexivity. }
    assert (N1 : 0 <= neg (firstn l us)) by (apply neg_nonneg, inside_parts, I).
    assert (N2 : 0 <= neg (skipn l us)) by (apply neg_nonneg, inside_parts, I).
    rewrite N. set (a := neg (firstn l us)) in *. set (b := neg (skipn l us)) in *. set (e := - ln u). replace (ln u) with (- e) by (unfold e; ring).
    clear N. destruct (Rle_dec e ka) as [D|D].
    - rewrite (iff_dec _ _ (Rle_dec (x * (ka + be) + (1 - x) * 0) (x * (e + (a + b)))) (Rle_dec (x * (ka + - e + be) + (1 - x) * 0) (x * (a + b)))) by (split; intros; nra).
      destruct Rle_dec; [|reflexivity]. apply iff_dec. split; intros; nra.
    - rewrite (iff_dec _ _ (Rle_dec (y * be + (1 - y) * (e - ka) + (1 - y) * a) (y * b)) (Rle_dec (y * be - (1 - y) * ka + (1 - y) * (e + a)) (y * b))) by (split; intros; nra).
      destruct (Rle_dec (y * be - (1 - y) * ka + (1 - y) * (e + a)) (y * b)) as [F|F]; [|destruct Rle_dec; reflexivity].
      destruct Rle_dec as [G|G]; [reflexivity|]. exfalso. apply G.
      assert (be <= b). { assert (0 <= (1 - y) * (e - ka)) by (apply Rmult_le_pos; lra). assert (0 <= (1 - y) * a) by (apply Rmult_le_pos; lra). nra. }
      nra.
  Qed.

  (** no draw before the first threshold *)
  Definition D0 (l m p i : nat) : R := if (p + i <? l + m)%nat then tail y (l + m - 1 - p - i) (l - p) else 0.
  Lemma base_mean m ka be : (1 <= m)%nat -> 0 <= ka -> 0 <= be ->
    igood m (chi2 0 0 ka be) /\ imean m (chi2 0 0 ka be) = sq m (fun p i => D0 0 m p i * (h p ka * h i be)).
  Proof.
    intros Hm Hk Hb. destruct (psi_mean 1 m ltac:(lra) (ka + be)) as (A & B).
    assert (E : forall us, length us = m -> inside us -> psi 1 (ka + be) us = chi2 0 0 ka be us) by (intros us _ I; symmetry; now apply chi2_none).
    split; [apply igood_ext with (1 := E), A|]. rewrite <- (imean_ext _ _ _ E), B.
    assert (T : Tk m (ka + be) = lsum (fun n => h n (ka + be)) (seq 0 m)).
    { unfold Tk. clear. induction m; [cbn [Sk seq lsum]; ring|]. rewrite lsum_seq_S, <- IHm. cbn [Sk]. unfold h. ring. }
    replace (if Rle_dec (ka + be) 0 then 1 else Tk m ((ka + be) / 1)) with (Tk m (ka + be)).
    - rewrite T. rewrite (lsum_ext _ (fun n => lsum (fun p => h p ka * h (n - p) be) (seq 0 (S n)))) by (intros; apply h_add).
      rewrite (triangle m (fun p i => h p ka * h i be)). apply sq_ext. intros p i _ _. f_equal. unfold D0. cbn [Nat.add Nat.sub].
      destruct (p + i <? m)%nat; [|reflexivity]. replace (0 - p)%nat with 0%nat by lia. destruct (m - 1 - p - i)%nat; reflexivity.
    - unfold Rdiv. rewrite Rinv_1, Rmult_1_r. destruct Rle_dec; [|reflexivity]. replace (ka + be) with 0 by lra.
      unfold Tk. rewrite Ropp_0, exp_0. destruct m; [lia|]. rewrite Sk_S0. ring.
  Qed.
  Definition V (l m : nat) (be : R) : R := lsum (fun i => tail y (l + (m - i) - 1) l * h i be) (seq 0 m).
  Lemma V_step l m be : 0 <= be -> is_RInt (fun u => V l m (arg y be u)) 0 1 (V (S l) m be).
  Proof.
    intros Hb. unfold V. apply is_RInt_val with (lsum (fun i => tail y (l + (m - i) - 1) l * (exp (- be) * Q y be i)) (seq 0 m)).
    - apply is_RInt_lsum. intros i _. apply (is_RInt_scal (V := R_NormedModule)). apply J_int; lra.
    - pose proof (convolve y (fun q => tail y (l + q - 1) l) (fun q => tail y (S l + q - 1) (S l)) be) as CV.
      rewrite (lsum_ext _ (fun i => exp (- be) * (tail y (l + (m - i) - 1) l * Q y be i))) by (intros; ring).
      rewrite lsum_scal, CV.
      + rewrite <- lsum_scal. apply lsum_ext. intros i _. unfold h. ring.
      + apply tail_big. lia.
      + intros q. replace (S l + S q - 1)%nat with (S (l + q)) by lia. cbn [tail].
        replace (l + S q - 1)%nat with (l + q)%nat by lia. replace (S l + q - 1)%nat with (l + q)%nat by lia. reflexivity.
  Qed.
  Lemma late_int ka p : 0 <= ka -> is_RInt (fun u => h p (ka + ln u)) (exp (- ka)) 1 (h (S p) ka).
  Proof.
    intros Hk. set (b := exp (- ka)). assert (B0 : 0 < b) by apply exp_pos.
    assert (B1 : b <= 1) by (unfold b; rewrite <- exp_0; destruct Hk as [Hk| <-]; [left; apply exp_increasing; lra|rewrite Ropp_0; lra]).
    assert (Lb : ln b = - ka) by (unfold b; apply ln_exp).
    replace (h (S p) ka) with (minus (b * Pw (S p) (ka + ln 1)) (b * Pw (S p) (ka + ln b))).
    2:{ rewrite Lb, ln_1. replace (ka + - ka) with 0 by ring. rewrite Rplus_0_r, Pw_S0. unfold minus, plus, opp; simpl. unfold h, b. ring. }
    apply (is_RInt_ext (V := R_NormedModule) (fun u => b * (Pw p (ka + ln u) * / u))).
    { rewrite Rmin_left, Rmax_right by lra. intros u Hu. unfold h. rewrite Ropp_plus_distr, exp_plus, (exp_Ropp (ln u)), exp_ln by lra. unfold b. inR. ring. }
    apply (is_RInt_derive (fun u => b * Pw (S p) (ka + ln u)) (fun u => b * (Pw p (ka + ln u) * / u))).
    - rewrite Rmin_left, Rmax_right by lra. intros u Hu. apply is_derive_scal.
      replace (Pw p (ka + ln u) * / u) with (scal (/ u) (Pw p (ka + ln u))) by (unfold scal; simpl; unfold mult; simpl; ring).
      apply (is_derive_comp (V := R_NormedModule) (Pw (S p)) (fun u => ka + ln u)); [apply Pw_derive|].
      auto_derive; [lra|field; lra].
    - rewrite Rmin_left, Rmax_right by lra. intros u Hu. apply (ex_derive_continuous (V := R_NormedModule)).
      apply ex_derive_scal. apply ex_derive_mult.
      + apply (ex_derive_comp (Pw p) (fun u => ka + ln u)); [|auto_derive; lra].
        destruct p; [|eexists; apply Pw_derive]. apply ex_derive_ext with (fun _ => 1); [intros; now rewrite Pw_0|apply (ex_derive_const (V := R_NormedModule))].
      + apply ex_derive_inv; [apply ex_derive_id|lra].
  Qed.
  Lemma scaled_int f v b : 0 < b -> is_RInt f 0 1 v -> is_RInt (fun u => f (u / b)) 0 b (b * v).
  Proof.
    intros Hb H. assert (H' : is_RInt f (/ b * 0 + 0) (/ b * b + 0) v).
    { replace (/ b * 0 + 0) with 0 by ring. replace (/ b * b + 0) with 1 by (field; lra). exact H. }
    apply (is_RInt_comp_lin (V := R_NormedModule)) in H'. apply (is_RInt_scal (V := R_NormedModule) _ _ _ b) in H'.
    apply (is_RInt_ext (V := R_NormedModule)) with (2 := H'). intros u _. unfold scal; simpl; unfold mult; simpl. inR.
    rewrite <- Rmult_assoc, Rinv_r, Rmult_1_l by lra. f_equal. unfold Rdiv. ring.
  Qed.

  Lemma is_RInt_sq M (c : nat -> nat -> R) (f : nat -> nat -> R -> R) v a b : (forall p i, (p < M)%nat -> (i < M)%nat -> is_RInt (f p i) a b (v p i)) ->
    is_RInt (fun u => sq M (fun p i => c p i * f p i u)) a b (sq M (fun p i => c p i * v p i)).
  Proof.
    intros H. unfold sq. apply is_RInt_lsum. intros p Hp. apply is_RInt_lsum. intros i Hi. apply in_seq in Hp, Hi.
    apply (is_RInt_scal (V := R_NormedModule)). apply H; lia.
  Qed.
  Lemma D0_step l m ka be : h 0 ka * V (S l) m be + sq (l + m) (fun p i => D0 l m p i * (h (S p) ka * h i be))
    = sq (S l + m) (fun p i => D0 (S l) m p i * (h p ka * h i be)).
  Proof.
    unfold sq at 2. change (S l + m)%nat with (S (l + m)). rewrite lsum_seq_shift. f_equal.
    - unfold V. rewrite (lsum_trunc _ m (S (l + m))) by (solve [lia | intros i Hi; unfold D0; rewrite (tail_big y) by lia; destruct (_ <? _)%nat; ring]).
      rewrite <- lsum_scal. apply lsum_seq_ext. intros i Hi. unfold D0. destruct (Nat.ltb_spec (0 + i) (S l + m)); [|lia].
      replace (S l + m - 1 - 0 - i)%nat with (S l + (m - i) - 1)%nat by lia. replace (S l - 0)%nat with (S l) by lia. ring.
    - unfold sq. apply lsum_ext. intros p _. rewrite lsum_seq_S.
      replace (D0 (S l) m (S p) (l + m)) with 0 by (unfold D0; destruct (Nat.ltb_spec (S p + (l + m)) (S l + m)); [lia|reflexivity]).
      rewrite Rmult_0_l, Rplus_0_r. apply lsum_ext. intros i _. f_equal. unfold D0.
      destruct (Nat.ltb_spec (p + i) (l + m)), (Nat.ltb_spec (S p + i) (S l + m)); try lia; [|reflexivity].
      f_equal; lia.
  Qed.
  Lemma second_mean m : (1 <= m)%nat -> forall l ka be, 0 <= ka -> 0 <= be ->
    igood (l + m) (chi2 0 l ka be) /\ imean (l + m) (chi2 0 l ka be) = sq (l + m) (fun p i => D0 l m p i * (h p ka * h i be)).
  Proof.
    intros Hm. induction l; intros ka be Hk Hb; [now apply base_mean|].
    set (b := exp (- ka)). assert (B0 : 0 < b) by apply exp_pos.
    assert (B1 : b <= 1) by (unfold b; rewrite <- exp_0; destruct Hk as [Hk| <-]; [left; apply exp_increasing; lra|rewrite Ropp_0; lra]).
    assert (Lb : ln b = - ka) by (unfold b; apply ln_exp).
    assert (Late : forall u, b <= u < 1 -> - ln u <= ka).
    { intros u Hu. destruct (Req_dec u b) as [->|]; [lra|]. assert (ln b < ln u) by (apply ln_increasing; lra). lra. }
    assert (Early : forall u, 0 < u < b -> ka < - ln u).
    { intros u Hu. assert (ln u < ln b) by (apply ln_increasing; lra). lra. }
    assert (E1 : forall u, b <= u < 1 -> forall us, length us = (l + m)%nat -> inside us -> chi2 0 l (ka + ln u) be us = chi2 0 (S l) ka be (u :: us)).
    { intros u Hu us _ I. rewrite chi2_second by (auto; lra). destruct Rle_dec as [|n]; [reflexivity|]. elim n. now apply Late. }
    assert (E2 : forall u, 0 < u < b -> forall us, length us = (l + m)%nat -> inside us -> chi y l (y * be + (1 - y) * (- ln u - ka)) us = chi2 0 (S l) ka be (u :: us)).
    { intros u Hu us _ I. rewrite chi2_second by (auto; lra). destruct Rle_dec as [n|]; [|reflexivity]. specialize (Early u Hu). lra. }
    assert (C : forall u, 0 < u < b -> 0 <= y * be + (1 - y) * (- ln u - ka)).
    { intros u Hu. specialize (Early u Hu). assert (0 <= y * be) by (apply Rmult_le_pos; lra). assert (0 <= (1 - y) * (- ln u - ka)) by (apply Rmult_le_pos; lra). lra. }
    assert (K : forall u, b <= u < 1 -> 0 <= ka + ln u) by (intros u Hu; specialize (Late u Hu); lra).
    assert (G : is_RInt (fun u => imean (l + m) (fun us => chi2 0 (S l) ka be (u :: us))) 0 1 (sq (S l + m) (fun p i => D0 (S l) m p i * (h p ka * h i be)))).
    { rewrite <- D0_step. apply (is_RInt_Chasles (V := R_NormedModule) _ 0 b 1).
      - apply is_RInt_val with (b * V (S l) m be); [|unfold h, b; rewrite Pw_0; ring].
        apply (is_RInt_ext (V := R_NormedModule) (fun u => V l m (arg y be (u / b)))).
        { rewrite Rmin_left, Rmax_right by lra. intros u Hu. rewrite <- (imean_ext _ _ _ (E2 u Hu)).
          rewrite (proj2 (chi_mean y ltac:(lra) m Hm l _ (C u Hu))). unfold V. apply lsum_ext. intros i _. do 2 f_equal.
          unfold arg. assert (L : ln (u / b) = ln u + ka) by (unfold Rdiv; rewrite ln_mult, ln_Rinv, Lb by (lra || now apply Rinv_0_lt_compat); lra).
          rewrite L. field. lra. }
        apply (scaled_int (fun u => V l m (arg y be u))); [exact B0|now apply V_step].
      - apply (is_RInt_ext (V := R_NormedModule) (fun u => sq (l + m) (fun p i => D0 l m p i * (h p (ka + ln u) * h i be)))).
        { rewrite Rmin_left, Rmax_right by lra. intros u Hu. rewrite <- (imean_ext _ _ _ (E1 u ltac:(lra))).
          symmetry. apply IHl; [apply K; lra|exact Hb]. }
        apply is_RInt_sq. intros p i _ _. apply (is_RInt_ext (V := R_NormedModule) (fun u => scal (h i be) (h p (ka + ln u)))).
        { intros u _. unfold scal; simpl; unfold mult; simpl. inR. ring. }
        replace (h (S p) ka * h i be) with (scal (h i be) (h (S p) ka)) by (unfold scal; simpl; unfold mult; simpl; ring).
        apply (is_RInt_scal (V := R_NormedModule)). now apply late_int. }
    split.
    - cbn [igood Nat.add]. split; [|eexists; exact G]. intros u Hu. destruct (Rlt_dec u b) as [L|L].
      + apply igood_ext with (1 := E2 u ltac:(lra)). apply (chi_mean y); [lra|exact Hm|apply C; lra].
      + apply igood_ext with (1 := E1 u ltac:(lra)). apply IHl; [apply K; lra|exact Hb].
    - cbn [imean Nat.add]. now apply is_RInt_unique.
  Qed.

  (** any number of draws before the first threshold *)
  Definition D (M l j p i : nat) : R := if (p + i <? M)%nat then tail2 (j + M - 1 - p - i) j (j + (l - p)) else 0.
  Lemma D_rec M l j p i : D M l (S j) p i = x * D M l j p i + (y - x) * D M l (S j) (S p) i + (1 - y) * D M l (S j) p (S i).
  Proof.
    unfold D. destruct (Nat.ltb_spec (p + i) M) as [H|H].
    - replace (S j + M - 1 - p - i)%nat with (S (j + M - 1 - p - i)) by lia. cbn [tail2].
      replace (S j - 1)%nat with j by lia. replace (S j + (l - p) - 1)%nat with (j + (l - p))%nat by lia.
      f_equal; [f_equal; f_equal|f_equal].
      + destruct (Nat.ltb_spec (S p + i) M).
        * replace (S j + M - 1 - S p - i)%nat with (j + M - 1 - p - i)%nat by lia.
          destruct (le_lt_dec l p).
          -- replace (l - p)%nat with 0%nat by lia. replace (l - S p)%nat with 0%nat by lia. rewrite !Nat.add_0_r. apply tail2_le. lia.
          -- f_equal. lia.
        * apply tail2_big. lia.
      + destruct (Nat.ltb_spec (p + S i) M); [f_equal; lia|apply tail2_big; lia].
    - destruct (Nat.ltb_spec (S p + i) M), (Nat.ltb_spec (p + S i) M); try lia. ring.
  Qed.
  Lemma D_algebra M l j (q H : nat -> nat -> R) :
    (forall p i, q p i = x * H p i + (y - x) * pred0 (fun r => q r i) p + (1 - y) * pred0 (q p) i) ->
    sq M (fun p i => D M l j p i * q p i) = sq M (fun p i => D M l (S j) p i * H p i).
  Proof.
    intros Hq. apply Rmult_eq_reg_l with x; [|lra].
    assert (S1 : sq M (fun p i => D M l (S j) (S p) i * q p i) = sq M (fun p i => D M l (S j) p i * pred0 (fun r => q r i) p)).
    { unfold sq. rewrite lsum_swap, (lsum_swap (fun p i => D M l (S j) p i * pred0 (fun r => q r i) p)). apply lsum_seq_ext. intros i Hi.
      rewrite (shift_sum M (fun p => D M l (S j) p i) (fun p => q p i)); [reflexivity|].
      unfold D. destruct (Nat.ltb_spec (M + i) M); [lia|reflexivity]. }
    assert (S2 : sq M (fun p i => D M l (S j) p (S i) * q p i) = sq M (fun p i => D M l (S j) p i * pred0 (q p) i)).
    { unfold sq. apply lsum_seq_ext. intros p Hp. rewrite (shift_sum M (fun i => D M l (S j) p i) (fun i => q p i)); [reflexivity|].
      unfold D. destruct (Nat.ltb_spec (p + M) M); [lia|reflexivity]. }
    transitivity (sq M (fun p i => D M l (S j) p i * q p i) + -(y - x) * sq M (fun p i => D M l (S j) (S p) i * q p i) + -(1 - y) * sq M (fun p i => D M l (S j) p (S i) * q p i)).
    - rewrite <- (Rmult_1_l (sq M (fun p i => D M l (S j) p i * q p i))), <- (sq_lin M), <- (Rmult_1_l (sq M (fun p i => 1 * (D M l (S j) p i * q p i) + _))), <- sq_lin.
      rewrite <- (Rplus_0_r (x * _)), <- (Rmult_0_l (sq M (fun p i => D M l j p i * q p i))), <- sq_lin. apply sq_ext. intros p i _ _.
      rewrite (D_rec M l j p i). ring.
    - rewrite S1, S2.
      rewrite <- (Rmult_1_l (sq M (fun p i => D M l (S j) p i * q p i))), <- (sq_lin M), <- (Rmult_1_l (sq M (fun p i => 1 * (D M l (S j) p i * q p i) + _))), <- sq_lin.
      rewrite <- (Rplus_0_r (x * _)), <- (Rmult_0_l (sq M (fun p i => D M l (S j) p i * H p i))), <- sq_lin. apply sq_ext. intros p i _ _.
      rewrite (Hq p i). ring.
  Qed.
  Lemma chi2_mean m l : (1 <= m)%nat -> forall j ka be, 0 <= ka -> 0 <= be ->
    igood (j + (l + m)) (chi2 j l ka be) /\
    imean (j + (l + m)) (chi2 j l ka be) = sq (l + m) (fun p i => D (l + m) l j p i * (h p ka * h i be)).
  Proof.
    intros Hm. induction j; intros ka be Hk Hb.
    - destruct (second_mean m Hm l ka be Hk Hb) as (A & B). split; [exact A|]. cbn [Nat.add]. rewrite B. apply sq_ext. intros p i _ _.
      f_equal. unfold D, D0. destruct (p + i <? l + m)%nat; [|reflexivity]. cbn [Nat.add]. now rewrite tail2_0.
    - pose proof kk_pos as KP. pose proof bb_pos as BP.
      assert (P : forall u, 0 < u < 1 -> 0 <= ka - kk * ln u /\ 0 <= be - bb * ln u).
      { intros u Hu. pose proof (ln_neg u Hu). split; nra. }
      assert (E : forall u, 0 < u < 1 -> forall us : list R, chi2 j l (ka - kk * ln u) (be - bb * ln u) us = chi2 (S j) l ka be (u :: us)).
      { intros u Hu us. symmetry. now apply chi2_first. }
      assert (G : is_RInt (fun u => imean (j + (l + m)) (fun us => chi2 (S j) l ka be (u :: us))) 0 1 (sq (l + m) (fun p i => D (l + m) l (S j) p i * (h p ka * h i be)))).
      { apply (is_RInt_ext (V := R_NormedModule) (fun u => sq (l + m) (fun p i => D (l + m) l j p i * hh kk bb ka be p i u))).
        { rewrite min01, max01. intros u Hu. rewrite <- (imean_ext _ _ _ (fun us _ _ => E u Hu us)). symmetry.
          unfold hh. apply IHj; now apply P. }
        rewrite <- (D_algebra (l + m) l j (qq kk bb ka be)).
        - apply is_RInt_sq. intros p i _ _. now apply qq_ok.
        - intros p i. pose proof (qq_rec kk bb KP BP ka be Hk Hb p i) as R.
          assert (X1 : 1 + kk + bb = / x) by (unfold kk, bb; field; lra). rewrite X1 in R.
          apply Rmult_eq_reg_l with (/ x); [|apply Rinv_neq_0_compat; lra]. rewrite R. unfold kk, bb. field. lra. }
      split.
      + cbn [igood Nat.add]. split; [|eexists; exact G]. intros u Hu. apply igood_ext with (1 := fun us _ _ => E u Hu us). apply IHj; now apply P.
      + cbn [imean Nat.add]. now apply is_RInt_unique.
  Qed.
  Lemma h_zero p : h p 0 = if (p =? 0)%nat then 1 else 0.
  Proof. unfold h. rewrite Ropp_0, exp_0, Rmult_1_l. destruct p; [apply Pw_0|apply Pw_S0]. Qed.
  Lemma chi2_law n j k : (j < k)%nat -> (k <= n)%nat -> igood (S n) (chi2 j (k - j) 0 0) /\ imean (S n) (chi2 j (k - j) 0 0) = tail2 n j k.
  Proof.
    intros Hj Hk. destruct (chi2_mean (S n - k) (k - j) ltac:(lia) j 0 0 ltac:(lra) ltac:(lra)) as (A & B).
    replace (j + (k - j + (S n - k)))%nat with (S n) in A, B by lia. split; [exact A|]. rewrite B.
    set (M := (k - j + (S n - k))%nat). unfold sq. assert (HM : (0 < M)%nat) by (unfold M; lia).
    rewrite (lsum_trunc _ 1 M) by (solve [lia | intros p Hp; rewrite (lsum_ext _ (fun _ => 0)); [apply lsum_zero|]; intros i _; rewrite (h_zero p); destruct (Nat.eqb_spec p 0); [lia|ring]]).
    cbn [seq lsum]. rewrite (lsum_trunc _ 1 M) by (solve [lia | intros i Hi; rewrite (h_zero i); destruct (Nat.eqb_spec i 0); [lia|ring]]).
    cbn [seq lsum]. rewrite !h_zero. cbn [Nat.eqb]. unfold D. destruct (Nat.ltb_spec (0 + 0) M); [|lia].
    replace (j + M - 1 - 0 - 0)%nat with n by (unfold M; lia). replace (j + (k - j - 0))%nat with k by lia. ring.
  Qed.
End Two.
