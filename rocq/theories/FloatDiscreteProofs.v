From Coq Require Import Reals List Arith Permutation Lia Lra.
From Verif Require Import ScanModel DriverSpec DriverProofs DiscreteSpec Sums DiscreteProofs
  FloatDiscreteModel FloatDiscreteSpec.
Import ListNotations.
Open Scope R_scope.

(** ** Relative accuracy *)
Lemma exp_le_exp a b : a <= b -> exp a <= exp b.
Proof. intros [H| ->]; [left; now apply exp_increasing | lra]. Qed.

Lemma near_refl d x : 0 <= d -> 0 <= x -> near d x x.
Proof.
  intros Hd Hx. pose proof (exp_le_exp (- d) 0 ltac:(lra)). pose proof (exp_le_exp 0 d ltac:(lra)).
  rewrite exp_0 in *. split; nra.
Qed.
Lemma near_nonneg d x y : 0 <= y -> near d x y -> 0 <= x.
Proof. intros Hy [H _]. pose proof (exp_pos (- d)). nra. Qed.
Lemma near_nonneg' d x y : 0 <= x -> near d x y -> 0 <= y.
Proof. intros Hx [_ H]. pose proof (exp_pos d). nra. Qed.
Lemma near_pos d x y : 0 < y -> near d x y -> 0 < x.
Proof. intros Hy [H _]. pose proof (exp_pos (- d)). nra. Qed.
Lemma near_weak d d' x y : d <= d' -> 0 <= y -> near d x y -> near d' x y.
Proof.
  intros Hd Hy [H1 H2]. pose proof (exp_le_exp (- d') (- d) ltac:(lra)). pose proof (exp_le_exp d d' Hd).
  split; nra.
Qed.
Lemma near_sym d x y : near d x y -> near d y x.
Proof.
  intros [H1 H2]. pose proof (exp_pos d). pose proof (exp_pos (- d)).
  assert (E : exp d * exp (- d) = 1) by (rewrite <- exp_plus, Rplus_opp_r; apply exp_0).
  split.
  - apply (Rmult_le_compat_l (exp (- d))) in H2; [|lra].
    replace (exp (- d) * (exp d * y)) with (exp d * exp (- d) * y) in H2 by ring. rewrite E in H2. lra.
  - apply (Rmult_le_compat_l (exp d)) in H1; [|lra].
    rewrite <- Rmult_assoc, E in H1. lra.
Qed.
Lemma near_trans d1 d2 x y z : near d1 x y -> near d2 y z -> near (d1 + d2) x z.
Proof.
  intros [H1 H2] [H3 H4]. unfold near. rewrite Ropp_plus_distr, !exp_plus.
  pose proof (exp_pos d1). pose proof (exp_pos (- d1)).
  split.
  - apply (Rmult_le_compat_l (exp (- d1))) in H3; [|lra]. nra.
  - apply (Rmult_le_compat_l (exp d1)) in H4; [|lra]. nra.
Qed.
Lemma near_mul d1 d2 a a' b b' : 0 <= a' -> 0 <= b' ->
  near d1 a a' -> near d2 b b' -> near (d1 + d2) (a * b) (a' * b').
Proof.
  intros Ha Hb HA HB. pose proof (near_nonneg _ _ _ Ha HA). pose proof (near_nonneg _ _ _ Hb HB).
  destruct HA as [H1 H2], HB as [H3 H4].
  pose proof (exp_pos d1). pose proof (exp_pos (- d1)). pose proof (exp_pos d2). pose proof (exp_pos (- d2)).
  unfold near. rewrite Ropp_plus_distr, !exp_plus. split.
  - replace (exp (- d1) * exp (- d2) * (a' * b')) with ((exp (- d1) * a') * (exp (- d2) * b')) by ring.
    apply Rmult_le_compat; auto; apply Rmult_le_pos; lra.
  - replace (exp d1 * exp d2 * (a' * b')) with ((exp d1 * a') * (exp d2 * b')) by ring.
    apply Rmult_le_compat; auto; apply Rmult_le_pos; lra.
Qed.
Lemma near_inv d x y : 0 < x -> 0 < y -> near d x y -> near d (/ x) (/ y).
Proof.
  intros Hx Hy H. apply near_sym in H. destruct H as [H1 H2].
  pose proof (Rinv_0_lt_compat x Hx). pose proof (Rinv_0_lt_compat y Hy).
  split.
  - apply (Rmult_le_reg_r (x * y)); [nra|].
    replace (exp (- d) * / y * (x * y)) with (exp (- d) * x) by (field; lra).
    replace (/ x * (x * y)) with y by (field; lra). exact H1.
  - apply (Rmult_le_reg_r (x * y)); [nra|].
    replace (exp d * / y * (x * y)) with (exp d * x) by (field; lra).
    replace (/ x * (x * y)) with y by (field; lra). exact H2.
Qed.
Lemma near_div d1 d2 a a' b b' : 0 <= a' -> 0 < b -> 0 < b' ->
  near d1 a a' -> near d2 b b' -> near (d1 + d2) (a / b) (a' / b').
Proof.
  intros. apply near_mul; auto; [left; now apply Rinv_0_lt_compat | now apply near_inv].
Qed.
Lemma near_scal d c a b : 0 <= c -> near d a b -> near d (c * a) (c * b).
Proof. intros Hc [H1 H2]. split; nra. Qed.
Lemma near_scal_r d c a b : 0 <= c -> near d a b -> near d (a * c) (b * c).
Proof. intros Hc [H1 H2]. split; nra. Qed.
Lemma near_lsum {A} d (f g : A -> R) l : (forall a, In a l -> near d (f a) (g a)) -> near d (lsum f l) (lsum g l).
Proof.
  intros H. split; rewrite <- lsum_scal; apply lsum_le; intros a Ha; apply (H a Ha).
Qed.
Lemma near_sum K d (f g : nat -> R) : (forall j, (j < K)%nat -> near d (f j) (g j)) ->
  near d (lsum f (seq 0 K)) (lsum g (seq 0 K)).
Proof. intros H. apply near_lsum. intros a Ha. apply in_seq in Ha. apply H. lia. Qed.
Lemma near_exp d a b : Rabs (a - b) <= d -> near d (exp a) (exp b).
Proof.
  intros H. apply Rabs_le_between in H || idtac.
  assert (- d <= a - b <= d) as [H1 H2] by (unfold Rabs in *; destruct (Rcase_abs (a - b)); lra).
  split; rewrite <- exp_plus; apply exp_le_exp; lra.
Qed.
Lemma near_1_exp d x : 0 < x -> near d x 1 -> Rabs (ln x) <= d.
Proof.
  intros Hx [H1 H2]. rewrite Rmult_1_r in *.
  assert (- d <= ln x).
  { rewrite <- (ln_exp (- d)). destruct H1 as [H1|H1]; [left; apply ln_increasing; auto; apply exp_pos | right; congruence]. }
  assert (ln x <= d).
  { rewrite <- (ln_exp d). destruct H2 as [H2|H2]; [left; apply ln_increasing; auto | right; congruence]. }
  apply Rabs_le. lra.
Qed.
Lemma near_bound d a : near d (exp a) 1 -> Rabs a <= d.
Proof. intros H. rewrite <- (ln_exp a). apply near_1_exp; auto. apply exp_pos. Qed.
Lemma near_of_ln d x y : 0 < x -> 0 < y -> Rabs (ln x - ln y) <= d -> near d x y.
Proof. intros Hx Hy H. rewrite <- (exp_ln x Hx), <- (exp_ln y Hy). now apply near_exp. Qed.
Lemma near_ln d x y : 0 < x -> 0 < y -> near d x y -> Rabs (ln x - ln y) <= d.
Proof.
  intros Hx Hy H. replace (ln x - ln y) with (ln (x / y)).
  - apply near_1_exp; [apply Rdiv_lt_0_compat; auto|]. replace 1 with (y / y) by (field; lra).
    replace d with (d + 0) by ring. apply near_div; auto; try lra. apply near_refl; lra.
  - unfold Rdiv. rewrite ln_mult, ln_Rinv; auto. now apply Rinv_0_lt_compat.
Qed.

Section Round.
  Variables (u : R) (ar : arith).
  Hypothesis Hok : arith_ok u ar.
  Let eta := - ln (1 - u).

  Lemma u_bounds : 0 <= u < 1. Proof. apply Hok. Qed.
  Lemma eta_ge : u <= eta.
  Proof.
    pose proof u_bounds. unfold eta. pose proof (exp_ineq1_le (ln (1 - u))) as H1.
    rewrite exp_ln in H1 by lra. lra.
  Qed.
  Lemma eta_nonneg : 0 <= eta.
  Proof. pose proof u_bounds. pose proof eta_ge. lra. Qed.
  Lemma exp_meta : exp (- eta) = 1 - u.
  Proof. unfold eta. rewrite Ropp_involutive. apply exp_ln. pose proof u_bounds. lra. Qed.
  Lemma exp_eta : 1 + u <= exp eta.
  Proof.
    pose proof u_bounds. pose proof exp_meta as H1. pose proof (exp_pos eta).
    assert (E : exp eta * exp (- eta) = 1) by (rewrite <- exp_plus, Rplus_opp_r; apply exp_0).
    rewrite H1 in E. nra.
  Qed.
  Lemma approx_near a b : 0 <= b -> approx u a b -> near eta a b.
  Proof.
    intros Hb H. unfold approx in H. rewrite (Rabs_right b) in H by lra.
    assert (- (u * b) <= a - b <= u * b) as [H1 H2] by (unfold Rabs in *; destruct (Rcase_abs (a - b)); lra).
    unfold near. rewrite exp_meta. pose proof exp_eta. split; nra.
  Qed.

  Lemma fsum_near o v : (forall i, In i (leaves o) -> 0 <= v i) ->
    near (INR (length (leaves o) - 1) * eta) (fsum ar o v) (lsum v (leaves o)) /\ (0 < length (leaves o))%nat.
  Proof using Hok.
    pose proof eta_nonneg as He.
    induction o as [i|l IHl r IHr]; intros Hv; cbn [fsum leaves].
    - cbn [length lsum Nat.sub]. split; [|lia]. rewrite Rplus_0_r, Rmult_0_l. apply near_refl; [lra|]. apply Hv. now left.
    - cbn [leaves] in Hv.
      destruct (IHl (fun i Hi => Hv i (in_or_app _ _ _ (or_introl Hi)))) as [Hl Ll].
      destruct (IHr (fun i Hi => Hv i (in_or_app _ _ _ (or_intror Hi)))) as [Hr Lr].
      rewrite app_length, lsum_app. split; [|lia].
      assert (Nl : 0 <= lsum v (leaves l)) by (apply lsum_nonneg; intros a Ha; apply Hv, in_or_app; auto).
      assert (Nr : 0 <= lsum v (leaves r)) by (apply lsum_nonneg; intros a Ha; apply Hv, in_or_app; auto).
      set (D := INR (length (leaves l) + length (leaves r) - 2) * eta).
      assert (Dl : near D (fsum ar l v) (lsum v (leaves l))).
      { eapply near_weak; [|exact Nl|exact Hl]. unfold D. apply Rmult_le_compat_r; auto. apply le_INR. lia. }
      assert (Dr : near D (fsum ar r v) (lsum v (leaves r))).
      { eapply near_weak; [|exact Nr|exact Hr]. unfold D. apply Rmult_le_compat_r; auto. apply le_INR. lia. }
      pose proof (near_nonneg _ _ _ Nl Dl). pose proof (near_nonneg _ _ _ Nr Dr).
      replace (INR (length (leaves l) + length (leaves r) - 1) * eta) with (eta + D).
      + eapply near_trans; [apply approx_near; [|apply Hok]; lra|].
        destruct Dl, Dr. split; lra.
      + unfold D. replace (length (leaves l) + length (leaves r) - 1)%nat
          with (S (length (leaves l) + length (leaves r) - 2)) by lia. rewrite S_INR. ring.
  Qed.

  Variable K : nat.

  Lemma lsum_perm (v : nat -> R) l m : Permutation l m -> lsum v l = lsum v m.
  Proof. induction 1; simpl; lra. Qed.

  (** a sum of [K] nonnegative terms *)
  Lemma order_sum o v : order_ok K o -> (forall i, (i < K)%nat -> 0 <= v i) ->
    (0 < K)%nat /\ near (INR (K - 1) * eta) (fsum ar o v) (lsum v (seq 0 K)).
  Proof using Hok.
    intros Ho Hv. pose proof (Permutation_length Ho) as HL. rewrite seq_length in HL.
    destruct (fsum_near o v) as [H1 H2].
    - intros i Hi. apply Hv. apply (Permutation_in _ Ho) in Hi. apply in_seq in Hi. lia.
    - split; [lia|]. rewrite HL in H1. now rewrite (lsum_perm v _ _ Ho) in H1.
  Qed.

  (** a dot product of nonnegative vectors *)
  Lemma order_dot o a b : order_ok K o -> (forall i, (i < K)%nat -> 0 <= a i) -> (forall i, (i < K)%nat -> 0 <= b i) ->
    near (INR K * eta) (fsum ar o (fun j => fmul ar (a j) (b j))) (lsum (fun j => a j * b j) (seq 0 K)).
  Proof using Hok.
    intros Ho Ha Hb. pose proof eta_nonneg.
    assert (Hm : forall j, (j < K)%nat -> near eta (fmul ar (a j) (b j)) (a j * b j)).
    { intros j Hj. apply approx_near; [apply Rmult_le_pos; auto|]. apply Hok. }
    destruct (order_sum o (fun j => fmul ar (a j) (b j)) Ho) as [HK H1].
    { intros i Hi. eapply near_nonneg; [|apply Hm; auto]. apply Rmult_le_pos; auto. }
    replace (INR K) with (INR (K - 1) + 1) by (rewrite <- S_INR; f_equal; lia).
    rewrite Rmult_plus_distr_r, Rmult_1_l.
    eapply near_trans; [exact H1|]. apply near_sum. exact Hm.
  Qed.

  Lemma rmaxn_bound G (v : nat -> R) : 0 <= G -> (forall j, (j < K)%nat -> Rabs (v j) <= G) -> Rabs (rmaxn K v) <= G.
  Proof.
    intros HG. induction K as [|k IH]; intros H; simpl.
    - now rewrite Rabs_R0.
    - destruct k as [|k]; [apply H; lia|].
      unfold Rmax. destruct (Rle_dec _ _); [apply H; lia | apply IH; intros; apply H; lia].
  Qed.

  (** *** Conditioning on an observation *)
  Variables osum odot : order.
  Hypothesis Hos : order_ok K osum.
  Hypothesis Hod : order_ok K odot.

  Lemma Rabs_def_le a b : Rabs a <= b <-> - b <= a <= b.
  Proof. split; intros H; [unfold Rabs in H; destruct (Rcase_abs a); lra | now apply Rabs_le]. Qed.

  Lemma approx_abs a b c : Rabs b <= c -> approx u a b -> Rabs (a - b) <= u * c /\ Rabs a <= 2 * c.
  Proof.
    intros Hb H. pose proof u_bounds. unfold approx in H.
    assert (H1 : Rabs (a - b) <= u * c) by (eapply Rle_trans; [exact H|]; apply Rmult_le_compat_l; lra).
    split; [exact H1|]. pose proof (Rabs_pos b).
    replace a with ((a - b) + b) by ring. eapply Rle_trans; [apply Rabs_triang|]. nra.
  Qed.

  Lemma fcondition_near G (a g : nat -> R) :
    0 <= G -> (forall j, (j < K)%nat -> 0 <= a j) -> (forall j, (j < K)%nat -> Rabs (g j) <= G) ->
    near (2 * G) (lsum (fun j => a j * exp (g j)) (seq 0 K)) 1 ->
    (2 * G + 2 + INR K) * eta <= 1 ->
    let c := fcondition_vec ar K osum a g in
    (forall j, (j < K)%nat -> 0 <= fst c j /\
       near ((12 * G + 6) * eta) (fst c j * exp (snd c)) (a j * exp (g j))) /\
    near (INR K * eta) (lsum (fst c) (seq 0 K)) 1 /\
    Rabs (snd c) <= 14 * G + 4.
  Proof using Hok Hos.
    intros HG Ha Hg HT Hsmall c.
    pose proof eta_nonneg as He. pose proof eta_ge as Hue. pose proof u_bounds as Hu.
    set (m := rmaxn K g). assert (Hm : Rabs m <= G) by (apply rmaxn_bound; auto).
    set (w := fcond_weights ar K a g).
    set (D := (2 * G + 2) * eta).
    assert (Hw : forall j, (j < K)%nat -> near D (w j) (a j * exp (g j - m))).
    { intros j Hj. unfold w, fcond_weights. fold m.
      assert (Hd : Rabs (g j - m) <= 2 * G).
      { specialize (Hg j Hj). rewrite Rabs_def_le in *. lra. }
      destruct (approx_abs (fsub ar (g j) m) (g j - m) (2 * G) Hd) as [H1 _]; [apply Hok|].
      assert (HE : near (2 * G * eta + eta) (fexp ar (fsub ar (g j) m)) (exp (g j - m))).
      { rewrite Rplus_comm. eapply near_trans.
        - apply approx_near; [left; apply exp_pos | apply Hok].
        - apply near_exp. eapply Rle_trans; [exact H1|]. nra. }
      unfold D. replace ((2 * G + 2) * eta) with (eta + (2 * G * eta + eta)) by ring.
      eapply near_trans.
      - apply approx_near; [|apply Hok]. apply Rmult_le_pos; auto.
        eapply near_nonneg; [|exact HE]. left; apply exp_pos.
      - apply near_scal; auto. }
    assert (Hwn : forall j, (j < K)%nat -> 0 <= w j).
    { intros j Hj. eapply near_nonneg; [|apply Hw; auto]. apply Rmult_le_pos; auto. left; apply exp_pos. }
    destruct (order_sum osum w Hos Hwn) as [HK HN].
    set (norm := fsum ar osum w) in *.
    set (T := lsum (fun j => a j * exp (g j)) (seq 0 K)) in *.
    assert (HTp : 0 < T).
    { eapply near_pos; [|exact HT]. lra. }
    assert (HTm : lsum (fun j => a j * exp (g j - m)) (seq 0 K) = T * exp (- m)).
    { unfold T. rewrite <- lsum_scal_r. apply lsum_seq_ext. intros j Hj. unfold Rminus. rewrite exp_plus. ring. }
    pose proof (near_sum K D w _ Hw) as HwT. rewrite HTm in HwT.
    assert (Hwp : 0 < lsum w (seq 0 K)).
    { eapply near_pos; [|exact HwT]. apply Rmult_lt_0_compat; auto. apply exp_pos. }
    assert (Hnp : 0 < norm) by (eapply near_pos; [|exact HN]; auto).
    assert (Hln : Rabs (ln norm) <= 3 * G + 1).
    { apply near_1_exp; auto.
      apply near_weak with (d := INR (K - 1) * eta + (D + (2 * G + G))); [|lra|].
      - unfold D. assert (INR (K - 1) <= INR K) by (apply le_INR; lia). nra.
      - eapply near_trans; [exact HN|]. eapply near_trans; [exact HwT|].
        replace 1 with (1 * 1) by ring. apply near_mul; try lra; auto.
        rewrite <- exp_0. apply near_exp. rewrite Rminus_0_r, Rabs_Ropp. exact Hm. }
    destruct (approx_abs (flog ar norm) (ln norm) _ Hln) as [Hl1 Hl2]; [now apply Hok|].
    assert (Hlm : Rabs (flog ar norm + m) <= 7 * G + 2).
    { eapply Rle_trans; [apply Rabs_triang|]. lra. }
    destruct (approx_abs (fadd ar (flog ar norm) m) (flog ar norm + m) _ Hlm) as [Hs1 Hs2]; [apply Hok|].
    assert (Hsnd : snd c = fadd ar (flog ar norm) m) by reflexivity.
    assert (Hfst : forall j, fst c j = fdiv ar (w j) norm) by reflexivity.
    assert (Hlog : Rabs (snd c - (ln norm + m)) <= (10 * G + 3) * eta).
    { rewrite Hsnd. replace (fadd ar (flog ar norm) m - (ln norm + m))
        with ((fadd ar (flog ar norm) m - (flog ar norm + m)) + (flog ar norm - ln norm)) by ring.
      eapply Rle_trans; [apply Rabs_triang|]. nra. }
    assert (Hdiv : forall j, (j < K)%nat -> near eta (fst c j) (w j / norm)).
    { intros j Hj. rewrite Hfst. apply approx_near; [|apply Hok; lra].
      apply Rmult_le_pos; auto. left; now apply Rinv_0_lt_compat. }
    split; [|split].
    - intros j Hj. assert (Hdn : 0 <= w j / norm).
      { apply Rmult_le_pos; auto. left; now apply Rinv_0_lt_compat. }
      split; [eapply near_nonneg; [|apply Hdiv; auto]; exact Hdn|].
      replace ((12 * G + 6) * eta) with ((eta + (10 * G + 3) * eta) + D) by (unfold D; ring).
      eapply near_trans.
      + apply near_mul; [exact Hdn | left; apply (exp_pos (ln norm + m)) | apply Hdiv; auto | now apply near_exp].
      + rewrite exp_plus, exp_ln by auto. replace (w j / norm * (norm * exp m)) with (w j * exp m) by (field; lra).
        replace (a j * exp (g j)) with (a j * exp (g j - m) * exp m).
        * apply near_scal_r; [left; apply exp_pos|]. now apply Hw.
        * rewrite Rmult_assoc, <- exp_plus. do 2 f_equal. ring.
    - apply near_weak with (d := eta + INR (K - 1) * eta); [|lra|].
      + right. replace (INR K) with (INR (K - 1) + 1) by (rewrite <- S_INR; f_equal; lia). ring.
      + eapply near_trans; [apply near_sum; exact Hdiv|]. rewrite lsum_div.
        apply near_sym. apply near_sym in HN.
        replace 1 with (norm / norm) by (field; lra).
        apply (near_scal_r _ (/ norm)); [left; now apply Rinv_0_lt_compat|]. now apply near_sym.
    - rewrite Hsnd. eapply Rle_trans; [exact Hs2|]. lra.
  Qed.
End Round.
