From Coq Require Import Reals List Arith Permutation Lia Lra.
From Verif Require Import ScanModel DriverSpec DriverProofs DiscreteSpec Sums DiscreteProofs
  FloatDiscreteModel FloatDiscreteSpec FloatDiscreteProofs.
Import ListNotations.
Open Scope R_scope.

Lemma slice_length {A} (l : list A) a b : (a <= b)%nat -> (b <= length l)%nat -> length (slice l a b) = (b - a)%nat.
Proof. intros H1 H2. unfold slice. rewrite firstn_length, skipn_length. lia. Qed.
Lemma slice_in {A} (l : list A) a b x : In x (slice l a b) -> In x l.
Proof.
  unfold slice. intros H. rewrite <- (firstn_skipn a l). apply in_or_app. right.
  rewrite <- (firstn_skipn (b - a) (skipn a l)). apply in_or_app. now left.
Qed.

Section Runs.
  Variables (u : R) (ar : arith).
  Hypothesis Hok : arith_ok u ar.
  Variable K : nat.
  Variables osum odot : order.
  Hypothesis Hos : order_ok K osum.
  Hypothesis Hod : order_ok K odot.
  Let eta := - ln (1 - u).

  Definition mass_ok (L : R) (M : nat -> nat -> R) : Prop :=
    forall i, (i < K)%nat -> (forall j, (j < K)%nat -> 0 <= M i j) /\ near L (rowsum K M i) 1.

  Lemma mprod_mass L Ms : 0 <= L -> Forall (mass_ok L) Ms -> mass_ok (INR (length Ms) * L) (mprod K Ms).
  Proof.
    intros HL. induction 1 as [|M Ms HM _ IH]; intros i Hi.
    - cbn [mprod length INR]. split.
      + intros j Hj. unfold idm. destruct (Nat.eqb i j); lra.
      + rewrite Rmult_0_l. unfold rowsum, idm.
        rewrite (lsum_seq_delta (fun _ => 1)) by auto. apply near_refl; lra.
    - cbn [mprod length]. destruct (HM i Hi) as [HM1 HM2]. split.
      + intros j Hj. apply lsum_nonneg. intros k Hk. apply in_seq in Hk.
        apply Rmult_le_pos; [apply HM1; lia | apply (IH k); lia].
      + assert (E : rowsum K (mm K M (mprod K Ms)) i = lsum (fun k => M i k * rowsum K (mprod K Ms) k) (seq 0 K)).
        { unfold rowsum at 1, mm. rewrite lsum_swap. apply lsum_seq_ext. intros k Hk. now rewrite lsum_scal. }
        rewrite E, S_INR. replace ((INR (length Ms) + 1) * L) with (INR (length Ms) * L + L) by ring.
        eapply near_trans; [|exact HM2].
        apply near_sum. intros k Hk. rewrite <- (Rmult_1_r (M i k)) at 2. apply near_scal; [now apply HM1|].
        apply (IH k Hk).
  Qed.

  (** One application of the filtering operator. *)
  Lemma combine_near G (e1 e2 : FScan) (M1 M2 : nat -> nat -> R) (A1 A2 S2 : R) :
    1 <= G -> (INR K + 11 + 27 * G) * eta <= 1 ->
    (forall i j, (i < K)%nat -> (j < K)%nat -> 0 <= ff e1 i j) ->
    (forall i j, (i < K)%nat -> (j < K)%nat -> 0 <= ff e2 i j) ->
    (forall i, (i < K)%nat -> Rabs (fg e1 i) <= G) ->
    (forall i, (i < K)%nat -> Rabs (fg e2 i) <= G) ->
    (forall i, (i < K)%nat -> near G (rowsum K (ff e1) i) 1) ->
    (forall i, (i < K)%nat -> near S2 (rowsum K (ff e2) i) 1) ->
    (forall i j, (i < K)%nat -> (j < K)%nat -> near A1 (ff e1 i j * exp (fg e1 i)) (M1 i j)) ->
    (forall i j, (i < K)%nat -> (j < K)%nat -> near A2 (ff e2 i j * exp (fg e2 i)) (M2 i j)) ->
    let e := ffiltering_operator ar K osum odot e1 e2 in
    (forall i j, (i < K)%nat -> (j < K)%nat -> 0 <= ff e i j) /\
    (forall i, (i < K)%nat -> near (2 * INR K * eta + S2) (rowsum K (ff e) i) 1) /\
    (forall i j, (i < K)%nat -> (j < K)%nat ->
       near ((INR K + 11 + 27 * G) * eta + A1 + A2) (ff e i j * exp (fg e i)) (mm K M1 M2 i j)).
  Proof using Hok Hos Hod.
    intros HG Hsmall Hf1 Hf2 Hg1 Hg2 Hr1 Hr2 HA1 HA2 e.
    assert (He0 : 0 <= eta) by (apply (eta_nonneg u ar Hok)).
    assert (Hue : u <= eta) by (apply (eta_ge u ar Hok)).
    pose proof (u_bounds u ar Hok) as Hu. pose proof (pos_INR K) as HKn.
    assert (HC : forall i, (i < K)%nat -> let c := fcondition_vec ar K osum (ff e1 i) (fg e2) in
      (forall j, (j < K)%nat -> 0 <= fst c j /\
         near ((12 * G + 6) * eta) (fst c j * exp (snd c)) (ff e1 i j * exp (fg e2 j))) /\
      near (INR K * eta) (lsum (fst c) (seq 0 K)) 1 /\ Rabs (snd c) <= 14 * G + 4).
    { intros i Hi. apply (fcondition_near u ar Hok K osum Hos G (ff e1 i) (fg e2)); auto; try lra.
      - replace (2 * G) with (G + G) by ring. eapply near_trans; [|apply (Hr1 i Hi)].
        apply near_sum. intros j Hj. rewrite <- (Rmult_1_r (ff e1 i j)) at 2. apply near_scal; auto.
        rewrite <- exp_0. apply near_exp. rewrite Rminus_0_r. auto.
      - fold eta. nra. }
    assert (HD : forall i k, (i < K)%nat -> (k < K)%nat ->
      near (INR K * eta) (ff e i k) (lsum (fun j => fst (fcondition_vec ar K osum (ff e1 i) (fg e2)) j * ff e2 j k) (seq 0 K))).
    { intros i k Hi Hk. apply (order_dot u ar Hok K odot _ (fun j => ff e2 j k) Hod).
      - intros j Hj. now apply (HC i Hi).
      - intros j Hj. auto. }
    assert (Hnn : forall i j, (i < K)%nat -> (j < K)%nat -> 0 <= ff e i j).
    { intros i k Hi Hk. eapply near_nonneg; [|apply HD; auto]. apply lsum_nonneg. intros j Hj. apply in_seq in Hj.
      apply Rmult_le_pos; [apply (HC i Hi); lia | apply Hf2; auto; lia]. }
    split; [exact Hnn|]. split.
    - intros i Hi. destruct (HC i Hi) as (HC1 & HC2 & _).
      set (c := fst (fcondition_vec ar K osum (ff e1 i) (fg e2))) in *.
      replace (2 * INR K * eta + S2) with (INR K * eta + (S2 + INR K * eta)) by ring.
      unfold rowsum. eapply near_trans; [apply near_sum; intros k Hk; apply (HD i k Hi Hk)|].
      fold c. rewrite lsum_swap.
      eapply near_trans; [|exact HC2].
      apply near_sum. intros j Hj. rewrite lsum_scal. rewrite <- (Rmult_1_r (c j)) at 2.
      apply near_scal; [now apply HC1|]. apply (Hr2 j Hj).
    - intros i k Hi Hk. destruct (HC i Hi) as (HC1 & _ & HC3).
      set (c := fcondition_vec ar K osum (ff e1 i) (fg e2)) in *.
      assert (Hgl : Rabs (fg e1 i + snd c) <= 15 * G + 4).
      { eapply Rle_trans; [apply Rabs_triang|]. specialize (Hg1 i Hi). lra. }
      destruct (approx_abs u ar Hok (fadd ar (fg e1 i) (snd c)) (fg e1 i + snd c) _ Hgl) as [H1 _]; [apply Hok|].
      assert (Hge : fg e i = fadd ar (fg e1 i) (snd c)) by reflexivity.
      replace ((INR K + 11 + 27 * G) * eta + A1 + A2)
        with ((INR K * eta + (15 * G + 4) * eta) + ((12 * G + 6) * eta + (A1 + A2)) + 1 * eta) by ring.
      apply near_weak with (d := (INR K * eta + (15 * G + 4) * eta) + ((12 * G + 6) * eta + (A1 + A2))); [lra| |].
      { apply lsum_nonneg. intros j Hj. apply in_seq in Hj. apply Rmult_le_pos;
          [eapply near_nonneg'; [|apply HA1; auto; lia] | eapply near_nonneg'; [|apply HA2; auto; lia]];
          (apply Rmult_le_pos; [|left; apply exp_pos]); [apply Hf1 | apply Hf2]; auto; lia. }
      eapply near_trans.
      + apply near_mul; [| left; apply (exp_pos (fg e1 i + snd c)) | apply (HD i k Hi Hk) |].
        * apply lsum_nonneg. intros j Hj. apply in_seq in Hj.
          apply Rmult_le_pos; [apply HC1; lia | apply Hf2; auto; lia].
        * rewrite Hge. apply near_exp. eapply Rle_trans; [exact H1|]. nra.
      + fold c. rewrite <- lsum_scal_r. unfold mm. apply near_sum. intros j Hj.
        eapply near_trans.
        * replace (fst c j * ff e2 j k * exp (fg e1 i + snd c))
            with ((ff e2 j k * exp (fg e1 i)) * (fst c j * exp (snd c))) by (rewrite exp_plus; ring).
          apply near_scal; [|apply HC1; auto]. apply Rmult_le_pos; auto. left; apply exp_pos.
        * replace (ff e2 j k * exp (fg e1 i) * (ff e1 i j * exp (fg e2 j)))
            with ((ff e1 i j * exp (fg e1 i)) * (ff e2 j k * exp (fg e2 j))) by ring.
          apply near_mul; [| |apply HA1|apply HA2]; auto.
          -- eapply near_nonneg'; [|apply HA1; auto]. apply Rmult_le_pos; auto. left; apply exp_pos.
          -- eapply near_nonneg'; [|apply HA2; auto]. apply Rmult_le_pos; auto. left; apply exp_pos.
  Qed.

  Context {Inp Key : Type}.
  Variable split : Key -> nat -> list Key.
  Hypothesis Hsplit : split_ok split.
  Variable get_init_dist : Inp -> nat -> R.
  Variable get_trans_matrix : Inp -> nat -> nat -> R.
  Variable get_obs_lls : Inp -> nat -> R.
  Let fobj : Filter Inp Key FDFilterState :=
    fd_build_filter ar K osum odot get_init_dist get_trans_matrix get_obs_lls.

  (** the HMM held by the arrays of the callbacks *)
  Definition step_of (x : Inp) : step :=
    {| tr := get_trans_matrix x; lik := fun j => exp (get_obs_lls x j) |}.

  Variables (x0 : Inp) (xs : list Inp) (L : R).
  Hypothesis HL : 0 <= L.
  Hypothesis Hinit : (forall j, (j < K)%nat -> 0 <= get_init_dist x0 j) /\
    near L (lsum (get_init_dist x0) (seq 0 K)) 1.
  Hypothesis Hsteps : forall x, In x xs -> forall i, (i < K)%nat ->
    (forall j, (j < K)%nat -> 0 <= get_trans_matrix x i j) /\
    Rabs (get_obs_lls x i) <= L /\
    near L (lsum (fun j => get_trans_matrix x i j * exp (get_obs_lls x j)) (seq 0 K)) 1.

  Let n1 := INR (S (length xs)).
  Let G := n1 * L + 1.
  Let r := (INR K + 11 + 27 * G) * eta.
  Definition step_error : R := (4 * INR K + 76 + 54 * n1 * L) * eta.
  Hypothesis Hsmall : n1 * step_error <= 1.

  Let ss := map step_of xs.
  Let init := get_init_dist x0.
  Let Ms := (fun _ j => init j) :: map kern ss.

  Lemma n1_pos : 1 <= n1.
  Proof. unfold n1. rewrite S_INR. pose proof (pos_INR (length xs)). lra. Qed.
  Lemma step_error_eq : step_error = 2 * r + 2 * INR K * eta.
  Proof. unfold step_error, r, G. ring. Qed.
  Lemma G_ge : 1 <= G. Proof using HL. unfold G. pose proof n1_pos. nra. Qed.
  Lemma eta0 : 0 <= eta. Proof using Hok. apply (eta_nonneg u ar Hok). Qed.
  Lemma r_nonneg : 0 <= r.
  Proof using HL Hok. unfold r. pose proof G_ge. pose proof eta0. pose proof (pos_INR K). nra. Qed.
  Lemma r_small : r <= 1.
  Proof using HL Hok Hsmall.
    pose proof n1_pos. pose proof r_nonneg. pose proof eta0. pose proof (pos_INR K).
    rewrite step_error_eq in Hsmall. assert (0 <= 2 * INR K * eta) by nra.
    assert (1 * (2 * r + 2 * INR K * eta) <= n1 * (2 * r + 2 * INR K * eta)) by (apply Rmult_le_compat_r; lra). lra.
  Qed.

  Lemma Ms_mass : Forall (mass_ok L) Ms.
  Proof using Hinit Hsteps HL.
    constructor.
    - intros i Hi. exact Hinit.
    - apply Forall_forall. intros M HM. unfold ss in HM. rewrite map_map in HM. apply in_map_iff in HM.
      destruct HM as (x & <- & Hx). intros i Hi. destruct (Hsteps x Hx i Hi) as (H1 & H2 & H3).
      split; [|exact H3]. intros j Hj. unfold kern. cbn [tr lik step_of].
      apply Rmult_le_pos; [auto | left; apply exp_pos].
  Qed.

  Lemma Ms_length : length Ms = S (length xs).
  Proof. unfold Ms, ss. simpl. now rewrite !map_length. Qed.

  Lemma slice_mass i j : (i <= j)%nat -> (j <= S (length xs))%nat ->
    mass_ok (INR (j - i) * L) (mprod K (slice Ms i j)).
  Proof using Hinit Hsteps HL.
    intros Hij Hj. rewrite <- (slice_length Ms i j) by (rewrite ?Ms_length; lia).
    apply mprod_mass; auto. apply Forall_forall. intros M HM. apply slice_in in HM.
    pose proof Ms_mass as H. rewrite Forall_forall in H. now apply H.
  Qed.

  Let A (i j : nat) := (2 * INR (j - i) - 1) * r.
  Let S_ (i j : nat) := INR (j - i) * (2 * INR K * eta).

  Definition inv (i j : nat) (s : FDFilterState (Inp := Inp)) : Prop :=
    (forall x z, (x < K)%nat -> (z < K)%nat -> 0 <= ff (felem s) x z) /\
    (forall x z, (x < K)%nat -> (z < K)%nat ->
       near (A i j) (ff (felem s) x z * exp (fg (felem s) x)) (mprod K (slice Ms i j) x z)) /\
    (forall x, (x < K)%nat -> Rabs (fg (felem s) x) <= G) /\
    (forall x, (x < K)%nat -> near G (rowsum K (ff (felem s)) x) 1) /\
    ((1 <= i)%nat \/ (2 <= j)%nat -> forall x, (x < K)%nat -> near (S_ i j) (rowsum K (ff (felem s)) x) 1).

  Lemma S_le i j : (i < j)%nat -> (j <= S (length xs))%nat -> A i j + S_ i j <= n1 * step_error.
  Proof using HL Hok.
    intros Hij Hj. rewrite step_error_eq. unfold A, S_.
    assert (INR (j - i) <= n1) by (apply le_INR; lia).
    pose proof r_nonneg. pose proof eta0. pose proof (pos_INR K). pose proof (pos_INR (j - i)).
    assert (0 <= 2 * INR K * eta) by nra. nra.
  Qed.

  Lemma inv_bounds i j (s : FDFilterState (Inp := Inp)) : (i < j)%nat -> (j <= S (length xs))%nat ->
    (forall x z, (x < K)%nat -> (z < K)%nat -> 0 <= ff (felem s) x z) ->
    (forall x z, (x < K)%nat -> (z < K)%nat ->
       near (A i j) (ff (felem s) x z * exp (fg (felem s) x)) (mprod K (slice Ms i j) x z)) ->
    (forall x, (x < K)%nat -> near (S_ i j) (rowsum K (ff (felem s)) x) 1) ->
    inv i j s.
  Proof using HL Hok Hsmall Hinit Hsteps.
    intros Hij Hj H1 H2 H3. pose proof (S_le i j Hij Hj) as HS. pose proof G_ge.
    assert (HA0 : 0 <= A i j).
    { unfold A. pose proof r_nonneg. assert (1 <= INR (j - i)) by (apply (le_INR 1); lia). nra. }
    split; [exact H1|]. split; [exact H2|]. split; [|split; [|auto]].
    - intros x Hx.
      assert (Hrow : near (A i j) (rowsum K (ff (felem s)) x * exp (fg (felem s) x)) (rowsum K (mprod K (slice Ms i j)) x)).
      { unfold rowsum. rewrite <- lsum_scal_r. apply near_sum. intros z Hz. now apply H2. }
      destruct (slice_mass i j ltac:(lia) Hj x Hx) as [_ Hm].
      pose proof (near_trans _ _ _ _ _ Hrow Hm) as Hm'.
      assert (Hrp : 0 < rowsum K (ff (felem s)) x) by (eapply near_pos; [|apply H3; auto]; lra).
      assert (HE : near (A i j + INR (j - i) * L + S_ i j) (exp (fg (felem s) x)) 1).
      { replace (exp (fg (felem s) x)) with (rowsum K (ff (felem s)) x * exp (fg (felem s) x) / rowsum K (ff (felem s)) x)
          by (field; lra).
        replace 1 with (1 / 1) by field. apply near_div; auto; lra. }
      apply near_bound in HE. eapply Rle_trans; [exact HE|].
      assert (INR (j - i) * L <= n1 * L) by (apply Rmult_le_compat_r; auto; apply le_INR; lia).
      unfold G. lra.
    - intros x Hx. eapply near_weak; [|lra|apply H3; auto]. lra.
  Qed.

  Lemma inv_combine i j k x y : (i < j)%nat -> (j < k)%nat -> (k <= S (length xs))%nat ->
    inv i j x -> inv j k y -> inv i k (fd_filter_combine ar K osum odot x y).
  Proof using HL Hok Hos Hod Hsmall Hinit Hsteps.
    intros Hij Hjk Hk (X1 & X2 & X3 & X4 & _) (Y1 & Y2 & Y3 & Y4 & Y5).
    destruct (combine_near G (felem x) (felem y) (mprod K (slice Ms i j)) (mprod K (slice Ms j k))
                (A i j) (A j k) (S_ j k)) as (C1 & C2 & C3); auto.
    - apply G_ge.
    - apply r_small.
    - apply Y5. left. lia.
    - apply inv_bounds; [lia|lia|exact C1| |].
      + intros a b Ha Hb. cbn [fd_filter_combine felem].
        rewrite (slice_app Ms i j k) by (rewrite ?Ms_length; lia).
        rewrite (mprod_app K _ _ a b Ha Hb).
        replace (A i k) with (r + A i j + A j k).
        * now apply C3.
        * unfold A. replace (k - i)%nat with ((j - i) + (k - j))%nat by lia. rewrite plus_INR. ring.
      + intros a Ha. eapply near_weak; [|lra|apply C2; auto]. unfold S_.
        replace (k - i)%nat with ((j - i) + (k - j))%nat by lia. rewrite plus_INR.
        assert (1 <= INR (j - i)) by (apply (le_INR 1); lia). pose proof eta0. pose proof (pos_INR K).
        assert (0 <= 2 * INR K * eta) by nra. nra.
  Qed.

  Lemma inv_init k : inv 0 1 (fd_init_prepare ar get_init_dist x0 (k : option Key)).
  Proof using HL Hok Hsmall Hinit.
    destruct Hinit as [Hn Hs]. pose proof eta0. pose proof r_nonneg. pose proof r_small. pose proof n1_pos.
    pose proof (pos_INR K). pose proof G_ge.
    assert (Hf : forall z, (z < K)%nat -> near eta (fmul ar (init z) 1) (init z)).
    { intros z Hz. rewrite <- (Rmult_1_r (init z)) at 2. apply (approx_near u ar Hok); [|apply Hok].
      rewrite Rmult_1_r. now apply Hn. }
    assert (Her : eta <= r) by (unfold r; nra).
    assert (Hrs : near (eta + L) (lsum (fun z => fmul ar (init z) 1) (seq 0 K)) 1).
    { eapply near_trans; [apply near_sum; exact Hf|exact Hs]. }
    split; [|split; [|split; [|split]]]; cbn [fd_init_prepare felem ff fg].
    - intros x z _ Hz. eapply near_nonneg; [|apply Hf; auto]. now apply Hn.
    - intros x z Hx Hz. rewrite (slice_one Ms 0 (fun _ j => init j)) by reflexivity. cbn [mprod].
      rewrite (mm_id_r K _ x z Hx Hz). rewrite exp_0, Rmult_1_r.
      eapply near_weak; [|now apply Hn|now apply Hf]. unfold A. cbn [Nat.sub INR]. lra.
    - intros x _. rewrite Rabs_R0. lra.
    - intros x _. eapply near_weak; [|lra|exact Hrs]. unfold G. nra.
    - intros [Hc|Hc]; lia.
  Qed.

  Lemma inv_step t x k : nth_error xs t = Some x ->
    inv (S t) (S (S t)) (fd_filter_prepare ar K osum get_trans_matrix get_obs_lls x (k : option Key)).
  Proof using HL Hok Hos Hsmall Hinit Hsteps.
    intros Hx. pose proof eta0. pose proof r_nonneg. pose proof r_small. pose proof n1_pos.
    pose proof (pos_INR K). pose proof G_ge.
    assert (Hin : In x xs) by (eapply nth_error_In; eauto).
    assert (Ht : (t < length xs)%nat) by (apply nth_error_Some; congruence).
    assert (HLG : L <= G) by (unfold G; nra).
    assert (HC : forall i, (i < K)%nat -> let c := fcondition_vec ar K osum (get_trans_matrix x i) (get_obs_lls x) in
      (forall j, (j < K)%nat -> 0 <= fst c j /\
         near ((12 * G + 6) * eta) (fst c j * exp (snd c)) (get_trans_matrix x i j * exp (get_obs_lls x j))) /\
      near (INR K * eta) (lsum (fst c) (seq 0 K)) 1 /\ Rabs (snd c) <= 14 * G + 4).
    { intros i Hi. destruct (Hsteps x Hin i Hi) as (T1 & _ & T3).
      apply (fcondition_near u ar Hok K osum Hos G); auto; try lra.
      - intros j Hj. destruct (Hsteps x Hin j Hj) as (_ & T & _). lra.
      - eapply near_weak; [|lra|exact T3]. lra.
      - fold eta. unfold r in *. nra. }
    apply inv_bounds; [lia|lia| | |]; cbn [fd_filter_prepare felem ff fg fcondition_on_obs fst snd].
    - intros a b Ha Hb. now apply (HC a Ha).
    - intros a b Ha Hb.
      rewrite (slice_one Ms (S t) (kern (step_of x))).
      + cbn [mprod]. rewrite (mm_id_r K _ a b Ha Hb).
        eapply near_weak; [| |apply (HC a Ha); auto].
        * unfold A. replace (S (S t) - S t)%nat with 1%nat by lia. cbn [INR]. unfold r in *. nra.
        * destruct (Hsteps x Hin a Ha) as (T1 & _ & _). unfold kern. cbn [tr lik step_of].
          apply Rmult_le_pos; auto. left; apply exp_pos.
      + unfold Ms, ss. cbn [nth_error]. rewrite map_map, nth_error_map, Hx. reflexivity.
    - intros a Ha. eapply near_weak; [|lra|apply (HC a Ha)]. unfold S_.
      replace (S (S t) - S t)%nat with 1%nat by lia. cbn [INR]. nra.
  Qed.

  Lemma filter_inv parallel key :
    exists states, filter split fobj (x0 :: xs) parallel key = Ok states /\
      length states = S (length xs) /\
      forall t s, nth_error states t = Some s -> inv 0 (S t) s /\ nth_error (x0 :: xs) t = Some (ffs_inputs s) /\
        (t = 0%nat -> exists k, s = fd_init_prepare ar get_init_dist x0 (k : option Key)).
  Proof using Hok Hos Hod Hsplit HL Hinit Hsteps Hsmall.
    destruct (filter_interval split fobj
                (fun a b s => inv a b s /\ nth_error (x0 :: xs) (b - 1) = Some (ffs_inputs s) /\
                   (b = 1%nat -> exists k, s = fd_init_prepare ar get_init_dist x0 (k : option Key)))
                (x0 :: xs) parallel key Hsplit) as (sts & H1 & H2 & H3).
    - discriminate.
    - intros i j k x y Hij Hjk Hk [Hx _] [Hy [Hi _]]. split; [|split; [exact Hi|intros; lia]].
      apply inv_combine with (j := j); auto.
    - intros x k [= <-]. split; [apply inv_init|]. split; [reflexivity|]. intros _. now exists k.
    - intros t x k Hx. split; [|split; [cbn [Nat.sub]; exact Hx|discriminate]]. cbn [nth_error] in Hx. now apply inv_step.
    - exists sts. split; [exact H1|]. split; [exact H2|].
      intros t s Ht. specialize (H3 t s Ht). cbn [Nat.sub] in H3. rewrite Nat.sub_0_r in H3.
      destruct H3 as (I1 & I2 & I3). split; [exact I1|]. split; [exact I2|]. intros ->. now apply I3.
  Qed.

  Lemma prefix_joint t i j : (t <= length ss)%nat -> (i < K)%nat -> (j < K)%nat ->
    mprod K (slice Ms 0 (S t)) i j = joint_at K init (firstn t ss) t j.
  Proof.
    intros Ht Hi Hj.
    assert (Hl : length (firstn t ss) = t) by (rewrite firstn_length; lia).
    rewrite joint_at_prod by (auto; lia).
    unfold slice, Ms. cbn [skipn Nat.sub firstn]. cbn [mprod].
    rewrite (skipn_all2 (firstn t ss)) by lia. rewrite walk_tot_nil, Rmult_1_r.
    rewrite firstn_firstn, Nat.min_id. rewrite <- firstn_map. reflexivity.
  Qed.
  Lemma prefix_evidence t i : (t <= length ss)%nat -> (i < K)%nat ->
    rowsum K (mprod K (slice Ms 0 (S t))) i = evidence K init (firstn t ss).
  Proof.
    intros Ht Hi. rewrite (evidence_joint_at K init _ t) by (rewrite firstn_length; lia).
    apply lsum_seq_ext. intros j Hj. now apply prefix_joint.
  Qed.
  Lemma evidence_pos t : (0 < K)%nat -> (t <= length ss)%nat -> 0 < evidence K init (firstn t ss).
  Proof using HL Hinit Hsteps.
    intros HK Ht. rewrite <- (prefix_evidence t 0 Ht HK).
    destruct (slice_mass 0 (S t)) with (i := 0%nat) as [_ H]; try lia.
    - unfold ss in Ht. rewrite map_length in Ht. lia.
    - eapply near_pos; [|exact H]. lra.
  Qed.

  Lemma filter_accuracy parallel key : (0 < K)%nat ->
    exists states, filter split fobj (x0 :: xs) parallel key = Ok states /\
      length states = S (length xs) /\
      forall t s, nth_error states t = Some s ->
        0 < evidence K init (firstn t ss) /\
        (t = 0%nat -> fflog_normalizing_constant s = 0 /\
           forall j, (j < K)%nat -> near eta (ffdist s j) (init j)) /\
        ((0 < t)%nat ->
           Rabs (fflog_normalizing_constant s - ln (evidence K init (firstn t ss))) <= INR (S t) * step_error /\
           forall j, (j < K)%nat ->
             near (2 * INR (S t) * step_error) (ffdist s j) (posterior K init (firstn t ss) t j)).
  Proof using Hok Hos Hod Hsplit HL Hinit Hsteps Hsmall.
    intros HK. destruct (filter_inv parallel key) as (sts & H1 & H2 & H3).
    exists sts. split; [exact H1|]. split; [exact H2|].
    intros t s Ht. assert (Htl : (t <= length ss)%nat).
    { assert (t < length sts)%nat by (apply nth_error_Some; congruence). unfold ss. rewrite map_length. lia. }
    pose proof (evidence_pos t HK Htl) as Hev. split; [exact Hev|].
    destruct (H3 t s Ht) as [(I1 & I2 & I3 & I4 & I5) [_ Hfst]]. split.
    - intros Et. destruct (Hfst Et) as [k' ->].
      split; [reflexivity|]. intros j Hj. cbn. rewrite <- (Rmult_1_r (init j)).
      apply (approx_near u ar Hok); [|apply Hok]. rewrite Rmult_1_r. now apply Hinit.
    - intros Hpos. assert (H2t : (2 <= S t)%nat) by lia. pose proof (I5 (or_intror H2t) 0%nat HK) as HR.
      assert (Hacc : A 0 (S t) + S_ 0 (S t) <= INR (S t) * step_error).
      { rewrite step_error_eq. unfold A, S_. rewrite Nat.sub_0_r. pose proof r_nonneg. nra. }
      assert (Hjn : forall j, (j < K)%nat -> 0 <= joint_at K init (firstn t ss) t j).
      { intros j Hj. rewrite <- (prefix_joint t 0 j Htl HK Hj).
        destruct (slice_mass 0 (S t)) with (i := 0%nat) as [Hq _]; try lia.
        - unfold ss in Htl. rewrite map_length in Htl. lia.
        - now apply Hq. }
      assert (Hrow : near (A 0 (S t)) (rowsum K (ff (felem s)) 0 * exp (fg (felem s) 0)) (evidence K init (firstn t ss))).
      { rewrite <- (prefix_evidence t 0 Htl HK). unfold rowsum. rewrite <- lsum_scal_r. apply near_sum.
        intros z Hz. now apply I2. }
      assert (Hrp : 0 < rowsum K (ff (felem s)) 0) by (eapply near_pos; [|exact HR]; lra).
      assert (HE : near (A 0 (S t) + S_ 0 (S t)) (exp (fg (felem s) 0)) (evidence K init (firstn t ss))).
      { replace (exp (fg (felem s) 0)) with (rowsum K (ff (felem s)) 0 * exp (fg (felem s) 0) / rowsum K (ff (felem s)) 0)
          by (field; lra).
        replace (evidence K init (firstn t ss)) with (evidence K init (firstn t ss) / 1) by field.
        apply near_div; auto; lra. }
      split.
      + unfold fflog_normalizing_constant. rewrite <- (ln_exp (fg (felem s) 0)) at 1.
        eapply Rle_trans; [apply near_ln; [apply exp_pos|exact Hev|exact HE]|]. exact Hacc.
      + intros j Hj. unfold ffdist, posterior.
        apply near_weak with (d := A 0 (S t) + (A 0 (S t) + S_ 0 (S t))).
        * assert (0 <= S_ 0 (S t)); [|lra]. unfold S_. pose proof (pos_INR (S t - 0)). pose proof eta0.
          pose proof (pos_INR K). assert (0 <= 2 * INR K * eta) by nra. nra.
        * apply Rmult_le_pos; auto. left; now apply Rinv_0_lt_compat.
        * replace (ff (felem s) 0 j) with (ff (felem s) 0 j * exp (fg (felem s) 0) / exp (fg (felem s) 0))
            by (field; apply Rgt_not_eq, exp_pos).
          apply near_div; auto; [apply exp_pos|].
          rewrite <- (prefix_joint t 0 j Htl HK Hj). now apply I2.
  Qed.
End Runs.
