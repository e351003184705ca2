From Coq Require Import Reals List Arith Permutation Lia Lra.
From Verif Require Import ScanModel DriverSpec DriverProofs DiscreteSpec Sums DiscreteProofs
  FloatDiscreteModel FloatDiscreteSpec FloatDiscreteProofs FloatDiscreteRuns.
Import ListNotations.
Open Scope R_scope.

(** ** The backward recursion for arrays that need not be stochastic *)
Section Backward.
  Variable K : nat.
  Variables (init : nat -> R) (ss : list step).
  Hypothesis HZ : forall t, (t <= length ss)%nat -> 0 < evidence K init (firstn t ss).

  (** every state has positive predictive probability at time [t + 1] *)
  Definition predicted (t : nat) : Prop := forall s i, nth_error ss t = Some s -> (i < K)%nat ->
    0 < lsum (fun j => posterior K init (firstn t ss) t j * tr s j i) (seq 0 K).

  Definition back (t : nat) (s : step) : nat -> nat -> R := fun i j =>
    tr s j i * posterior K init (firstn t ss) t j /
    lsum (fun j => tr s j i * posterior K init (firstn t ss) t j) (seq 0 K).

  Definition Bs : list (nat -> nat -> R) :=
    map (fun p => back (fst p) (snd p)) (combine (seq 0 (length ss)) ss)
    ++ [fun _ j => posterior K init ss (length ss) j].

  Lemma Bs_nth t s : nth_error ss t = Some s -> nth_error Bs t = Some (back t s).
  Proof.
    intros H. assert (Ht : (t < length ss)%nat) by (apply nth_error_Some; congruence).
    unfold Bs. rewrite nth_error_app1 by (rewrite map_length, combine_length, seq_length; lia).
    rewrite nth_error_map.
    rewrite (nth_error_combine _ _ _ t s); auto.
    rewrite (nth_error_nth' _ 0%nat) by (rewrite seq_length; lia). rewrite seq_nth by lia. reflexivity.
  Qed.
  Lemma Bs_last : nth_error Bs (length ss) = Some (fun _ j => posterior K init ss (length ss) j).
  Proof.
    unfold Bs. rewrite nth_error_app2; rewrite map_length, combine_length, seq_length, Nat.min_id; [|lia].
    now rewrite Nat.sub_diag.
  Qed.
  Lemma Bs_length : length Bs = S (length ss).
  Proof. unfold Bs. rewrite app_length, map_length, combine_length, seq_length. simpl. lia. Qed.

  Lemma back_step t s k : predicted t -> nth_error ss t = Some s -> (k < K)%nat ->
    lsum (fun j => posterior K init ss (S t) j * back t s j k) (seq 0 K) = posterior K init ss t k.
  Proof using HZ.
    intros Hpred Hs Hk.
    assert (Ht : (t < length ss)%nat) by (apply nth_error_Some; congruence).
    pose proof (HZ t ltac:(lia)) as HZt.
    pose proof (HZ (length ss) ltac:(lia)) as HZT. rewrite firstn_all in HZT.
    assert (Hsplit_ss : firstn (S t) ss = firstn t ss ++ [s]).
    { clear - Hs. revert t Hs. induction ss as [|a l IH]; intros [|t] Hs; simpl in *; try discriminate.
      - now injection Hs as ->.
      - f_equal. now apply IH. }
    assert (Hskip : skipn t ss = s :: skipn (S t) ss).
    { clear - Hs. revert t Hs. induction ss as [|a l IH]; intros [|t] Hs; simpl in *; try discriminate.
      - now injection Hs as ->.
      - now apply IH. }
    set (al := fun j => lsum (fun x => init x * mprod K (map kern (firstn t ss)) x j) (seq 0 K)).
    assert (Hpost_t : forall j, (j < K)%nat -> posterior K init (firstn t ss) t j = al j / evidence K init (firstn t ss)).
    { intros j Hj. unfold posterior. rewrite joint_at_prod by (auto; rewrite firstn_length; lia).
      rewrite firstn_firstn, Nat.min_id. rewrite (skipn_all2 (firstn t ss)) by (rewrite firstn_length; lia).
      rewrite walk_tot_nil, Rmult_1_r. reflexivity. }
    assert (Hal1 : forall j, (j < K)%nat ->
       lsum (fun x => init x * mprod K (map kern (firstn (S t) ss)) x j) (seq 0 K)
       = lsum (fun i => al i * tr s i j) (seq 0 K) * lik s j).
    { intros j Hj. rewrite Hsplit_ss, map_app. cbn [map].
      rewrite <- lsum_scal_r.
      transitivity (lsum (fun x => lsum (fun i => init x * mprod K (map kern (firstn t ss)) x i * tr s i j * lik s j) (seq 0 K)) (seq 0 K)).
      - apply lsum_seq_ext. intros x Hx. rewrite (mprod_app K _ [kern s] x j Hx Hj).
        unfold mm at 1. rewrite <- lsum_scal. apply lsum_seq_ext. intros i Hi.
        cbn [mprod]. rewrite (mm_id_r K (kern s) i j Hi Hj). unfold kern at 2. ring.
      - rewrite lsum_swap. apply lsum_seq_ext. intros i Hi. unfold al. rewrite !lsum_scal_r. reflexivity. }
    set (pr := fun j => lsum (fun i => al i * tr s i j) (seq 0 K)).
    assert (Hprpos : forall j, (j < K)%nat -> 0 < pr j).
    { intros j Hj. pose proof (Hpred s j Hs Hj) as Hp.
      assert (He : lsum (fun i => posterior K init (firstn t ss) t i * tr s i j) (seq 0 K)
                   = pr j / evidence K init (firstn t ss)).
      { unfold pr. rewrite <- lsum_div. apply lsum_seq_ext. intros i Hi. rewrite Hpost_t by auto. field. lra. }
      rewrite He in Hp. 
      apply (Rmult_lt_compat_r (evidence K init (firstn t ss))) in Hp; auto.
      unfold Rdiv in Hp. rewrite Rmult_0_l, Rmult_assoc, Rinv_l, Rmult_1_r in Hp by lra. exact Hp. }
    assert (Hrk : forall j, (j < K)%nat -> back t s j k = al k * tr s k j / pr j).
    { intros j Hj. unfold back.
      assert (He : lsum (fun i => tr s i j * posterior K init (firstn t ss) t i) (seq 0 K)
                   = pr j / evidence K init (firstn t ss)).
      { unfold pr. rewrite <- lsum_div. apply lsum_seq_ext. intros i Hi. rewrite Hpost_t by auto. field. lra. }
      rewrite He, Hpost_t by auto. pose proof (Hprpos j Hj). field. split; lra. }
    transitivity (al k * walk_tot K (skipn t ss) k / evidence K init ss).
    - rewrite Hskip, walk_tot_cons. rewrite <- lsum_scal, <- lsum_div. apply lsum_seq_ext. intros j Hj.
      rewrite Hrk by auto. unfold posterior. rewrite joint_at_prod by (auto; lia).
      rewrite Hal1 by auto. fold (pr j). pose proof (Hprpos j Hj). unfold kern. field. split; lra.
    - unfold posterior. rewrite joint_at_prod by (auto; lia). reflexivity.
  Qed.

  Lemma back_prod t : (t <= length ss)%nat -> (forall v, (t <= v)%nat -> predicted v) ->
    forall i k, (i < K)%nat -> (k < K)%nat ->
    mprod K (rev (slice Bs t (S (length ss)))) i k = posterior K init ss t k.
  Proof using HZ.
    intros Ht. remember (length ss - t)%nat as d eqn:Hd. revert t Ht Hd.
    induction d as [|d IH]; intros t Ht Hd Hpred i k Hi Hk.
    - assert (t = length ss) by lia. subst t.
      rewrite (slice_one Bs _ _ Bs_last). cbn [rev app mprod].
      rewrite (mm_id_r K _ i k Hi Hk). reflexivity.
    - destruct (nth_error ss t) as [s|] eqn:Hs; [|apply nth_error_None in Hs; lia].
      rewrite (slice_app Bs t (S t) (S (length ss))) by (rewrite ?Bs_length; lia).
      rewrite (slice_one Bs _ _ (Bs_nth t s Hs)). rewrite rev_app_distr. cbn [rev app].
      rewrite (mprod_app K _ _ i k Hi Hk).
      rewrite <- (back_step t s k (Hpred t ltac:(lia)) Hs Hk).
      apply lsum_seq_ext. intros j Hj. rewrite IH by (auto; try lia; intros v Hv; apply Hpred; lia). f_equal.
      cbn [mprod]. now rewrite (mm_id_r K (back t s) j k Hj Hk).
  Qed.
End Backward.

Section Smooth.
  Variables (u : R) (ar : arith).
  Hypothesis Hok : arith_ok u ar.
  Variable K : nat.
  Hypothesis HK : (0 < K)%nat.
  Variables osum odot : order.
  Hypothesis Hos : order_ok K osum.
  Hypothesis Hod : order_ok K odot.
  Let eta := - ln (1 - u).

  (** The reverse kernel does not depend on the scale of the distribution. *)
  Lemma reverse_kernel_near d c (dist p : nat -> R) (trans : nat -> nat -> R) i :
    0 <= d -> 0 < c -> (forall j, (j < K)%nat -> 0 <= p j) ->
    (forall j, (j < K)%nat -> near d (dist j) (c * p j)) ->
    (forall j, (j < K)%nat -> 0 <= trans j i) ->
    0 < lsum (fun j => trans j i * p j) (seq 0 K) ->
    forall j, (j < K)%nat ->
      near (2 * d + (INR K + 2) * eta) (fget_reverse_kernel ar odot dist trans i j)
        (trans j i * p j / lsum (fun j => trans j i * p j) (seq 0 K)).
  Proof using Hok Hod.
    intros Hd Hc Hp Hn Ht Hpos j Hj.
    assert (He0 : 0 <= eta) by (apply (eta_nonneg u ar Hok)).
    assert (Hcp : forall j, (j < K)%nat -> 0 <= c * p j).
    { intros k Hk. apply Rmult_le_pos; [lra|auto]. }
    assert (Hdn : forall j, (j < K)%nat -> 0 <= dist j) by (intros k Hk; eapply near_nonneg; [|apply Hn; auto]; auto).
    assert (HM : near (d + eta) (fmul ar (trans j i) (dist j)) (trans j i * (c * p j))).
    { rewrite Rplus_comm. eapply near_trans.
      - apply (approx_near u ar Hok); [|apply Hok]. apply Rmult_le_pos; auto.
      - apply near_scal; auto. }
    set (T := lsum (fun j => trans j i * p j) (seq 0 K)) in *.
    assert (HP : near (INR K * eta + d) (fsum ar odot (fun j => fmul ar (trans j i) (dist j))) (c * T)).
    { eapply near_trans.
      - apply (order_dot u ar Hok K odot (fun j => trans j i) dist Hod); auto.
      - unfold T. rewrite <- lsum_scal.
        rewrite (lsum_seq_ext (fun j => c * (trans j i * p j)) (fun j => trans j i * (c * p j))) by (intros; ring).
        apply near_sum. intros k Hk. apply near_scal; auto. }
    assert (HcT : 0 < c * T) by (apply Rmult_lt_0_compat; auto).
    assert (Hpp : 0 < fsum ar odot (fun j => fmul ar (trans j i) (dist j))) by (eapply near_pos; eauto).
    assert (HQ := near_div _ _ _ _ _ _ (Rmult_le_pos _ _ (Ht j Hj) (Hcp j Hj)) Hpp HcT HM HP).
    replace (trans j i * (c * p j) / (c * T)) with (trans j i * p j / T) in HQ by (field; lra).
    replace (2 * d + (INR K + 2) * eta) with (eta + (d + eta + (INR K * eta + d))) by ring.
    eapply near_trans; [|exact HQ].
    apply (approx_near u ar Hok).
    - apply Rmult_le_pos; [|left; now apply Rinv_0_lt_compat].
      eapply near_nonneg; [|exact HM]. apply Rmult_le_pos; auto.
    - apply Hok. lra.
  Qed.

  Lemma fmatmul_near d1 d2 (A B M N : nat -> nat -> R) :
    (forall i j, (i < K)%nat -> (j < K)%nat -> 0 <= M i j) -> (forall i j, (i < K)%nat -> (j < K)%nat -> 0 <= N i j) ->
    (forall i j, (i < K)%nat -> (j < K)%nat -> near d1 (A i j) (M i j)) ->
    (forall i j, (i < K)%nat -> (j < K)%nat -> near d2 (B i j) (N i j)) ->
    forall i j, (i < K)%nat -> (j < K)%nat -> near (INR K * eta + (d1 + d2)) (fmatmul ar odot A B i j) (mm K M N i j).
  Proof using Hok Hod.
    intros HM HN HA HB i k Hi Hk. eapply near_trans.
    - apply (order_dot u ar Hok K odot (A i) (fun j => B j k) Hod).
      + intros j Hj. eapply near_nonneg; [|apply HA; auto]. auto.
      + intros j Hj. eapply near_nonneg; [|apply HB; auto]. auto.
    - unfold mm. apply near_sum. intros j Hj. apply near_mul; auto.
  Qed.

  Context {Inp Key : Type}.
  Variable split : Key -> nat -> list Key.
  Hypothesis Hsplit : split_ok split.
  Variable get_init_dist : Inp -> nat -> R.
  Variable get_trans_matrix : Inp -> nat -> nat -> R.
  Variable get_obs_lls : Inp -> nat -> R.
  Variable dummy_like : Inp -> Inp.
  Let fobj : Filter Inp Key FDFilterState :=
    fd_build_filter ar K osum odot get_init_dist get_trans_matrix get_obs_lls.
  Let sobj : Smoother Inp Key FDFilterState FDSmootherState :=
    fd_build_smoother ar odot get_trans_matrix dummy_like.

  Variables (x0 : Inp) (xs : list Inp) (L : R).
  Hypothesis HL : 0 <= L.
  Hypothesis Hinit : (forall j, (j < K)%nat -> 0 <= get_init_dist x0 j) /\
    near L (lsum (get_init_dist x0) (seq 0 K)) 1.
  Hypothesis Hsteps : forall x, In x xs -> forall i, (i < K)%nat ->
    (forall j, (j < K)%nat -> 0 <= get_trans_matrix x i j) /\
    Rabs (get_obs_lls x i) <= L /\
    near L (lsum (fun j => get_trans_matrix x i j * exp (get_obs_lls x j)) (seq 0 K)) 1.
  Let n1 := INR (S (length xs)).
  Let kappa := step_error u K xs L.
  Hypothesis Hsmall : n1 * kappa <= 1.
  Let ss := map (step_of get_trans_matrix get_obs_lls) xs.
  Let init := get_init_dist x0.
  Hypothesis Hpred : forall t, predicted K init ss t.
  Hypothesis Hne : xs <> [].

  Lemma kappa_ge : (2 * INR K + 2) * eta <= kappa.
  Proof using Hok HL.
    assert (He0 : 0 <= eta) by (apply (eta_nonneg u ar Hok)).
    unfold kappa, step_error. fold eta. pose proof (pos_INR K). pose proof (pos_INR (S (length xs))).
    apply Rmult_le_compat_r; auto. nra.
  Qed.

  Lemma joint_nonneg t j : (t <= length ss)%nat -> (j < K)%nat -> 0 <= joint_at K init (firstn t ss) t j.
  Proof using HK HL Hinit Hsteps.
    intros Ht Hj. unfold init, ss. rewrite <- (prefix_joint K get_init_dist get_trans_matrix get_obs_lls x0 xs t 0 j Ht HK Hj).
    destruct (slice_mass K get_init_dist get_trans_matrix get_obs_lls x0 xs L HL Hinit Hsteps 0 (S t)) with (i := 0%nat) as [Hq _]; auto; try lia.
    unfold ss in Ht. rewrite map_length in Ht. lia.
  Qed.

  Lemma smoother_accuracy par1 key1 par2 key2 :
    exists fstates sstates,
      filter split fobj (x0 :: xs) par1 key1 = Ok fstates /\
      smoother split dummy_like ffs_inputs sobj fstates (Some xs) par2 key2 = Ok sstates /\
      length sstates = S (length xs) /\
      forall t s, nth_error sstates t = Some s -> forall j, (j < K)%nat ->
        near (INR (S (length xs) - t) * ((4 * n1 + 1) * kappa)) (fsdist s j) (posterior K init ss t j).
  Proof using All.
    assert (He0 : 0 <= eta) by (apply (eta_nonneg u ar Hok)).
    pose proof kappa_ge as Hkg. pose proof (pos_INR K) as HKn.
    assert (Hk0 : 0 <= kappa) by nra.
    assert (Hn1 : 1 <= n1) by (unfold n1; rewrite S_INR; pose proof (pos_INR (length xs)); lra).
    assert (Hek : eta <= kappa) by nra.
    assert (Hkn : kappa <= n1 * kappa) by nra.
    assert (Hlen : length ss = length xs) by (unfold ss; apply map_length).
    destruct (filter_accuracy u ar Hok K osum odot Hos Hod split Hsplit get_init_dist get_trans_matrix get_obs_lls
                x0 xs L HL Hinit Hsteps Hsmall par1 key1 HK) as (fsts & Hf & Hfl & Hacc).
    assert (HZ : forall t, (t <= length ss)%nat -> 0 < evidence K init (firstn t ss)).
    { intros t Ht. apply (evidence_pos K get_init_dist get_trans_matrix get_obs_lls x0 xs L HL Hinit Hsteps t HK Ht). }
    assert (Hpn : forall t j, (t <= length ss)%nat -> (j < K)%nat -> 0 <= posterior K init (firstn t ss) t j).
    { intros t j Ht Hj. apply Rmult_le_pos; [now apply joint_nonneg|]. left. apply Rinv_0_lt_compat. auto. }
    (* filter distributions up to scale *)
    assert (Hfd : forall t f, nth_error fsts t = Some f -> exists c, 0 < c /\
              forall j, (j < K)%nat -> near (2 * n1 * kappa) (ffdist f j) (c * posterior K init (firstn t ss) t j)).
    { intros t f Hft. assert (Htl : (t < length fsts)%nat) by (apply nth_error_Some; congruence).
      destruct (Hacc t f Hft) as (Hev & H0 & H1). destruct t as [|t].
      - exists (evidence K init (firstn 0 ss)). split; [exact Hev|]. intros j Hj.
        replace (evidence K init (firstn 0 ss) * posterior K init (firstn 0 ss) 0 j) with (init j).
        + eapply near_weak; [| |apply H0; auto]; [fold eta; lra|now apply Hinit].
        + unfold posterior. replace (joint_at K init (firstn 0 ss) 0 j) with (init j).
          * field. unfold init, ss in *. lra.
          * rewrite joint_at_prod by (simpl; auto; lia). simpl. rewrite walk_tot_nil, Rmult_1_r.
            rewrite (lsum_seq_ext _ (fun x => if Nat.eqb j x then init x else 0)).
            -- symmetry. apply (lsum_seq_delta init). exact Hj.
            -- intros x Hx. unfold idm. rewrite Nat.eqb_sym. destruct (Nat.eqb j x); ring.
      - exists 1. split; [lra|]. intros j Hj. rewrite Rmult_1_l.
        destruct (H1 ltac:(lia)) as [_ H2].
        eapply near_weak; [| |apply H2; auto].
        + fold kappa. assert (INR (S (S t)) <= n1) by (apply le_INR; lia). nra.
        + apply Hpn; auto. lia. }
    assert (Hbn : forall t s i j, nth_error ss t = Some s -> (i < K)%nat -> (j < K)%nat -> 0 <= tr s i j).
    { intros t s i j Hs Hi Hj. unfold ss in Hs. rewrite nth_error_map in Hs.
      destruct (nth_error xs t) as [x|] eqn:Ex; [|discriminate]. injection Hs as <-.
      apply (Hsteps x (nth_error_In _ _ Ex) i Hi). exact Hj. }
    set (e := (4 * n1 + 1) * kappa).
    destruct (smoother_interval split dummy_like ffs_inputs sobj
                (fun a b s => forall i j, (i < K)%nat -> (j < K)%nat ->
                   0 <= mprod K (rev (slice (Bs K init ss) a b)) i j /\
                   near (INR (b - a) * e - INR K * eta) (fsm_a s i j) (mprod K (rev (slice (Bs K init ss) a b)) i j))
                fsts xs par2 key2 Hsplit Hne Hfl) as (sts & H1 & H2 & H3).
    - intros i j k x y Hij Hjk Hk Hx Hy p q Hp Hq.
      rewrite (slice_app (Bs K init ss) i j k) by (rewrite ?Bs_length; lia). rewrite rev_app_distr.
      rewrite (mprod_app K _ _ p q Hp Hq). split.
      + apply lsum_nonneg. intros v Hv. apply in_seq in Hv. apply Rmult_le_pos; [apply Hy | apply Hx]; auto; lia.
      + cbn [smoother_combine sobj fd_build_smoother fd_smoother_combine fsm_a]. unfold fsmoothing_operator.
        replace (INR (k - i) * e - INR K * eta)
          with (INR K * eta + ((INR (k - j) * e - INR K * eta) + (INR (j - i) * e - INR K * eta))).
        * apply fmatmul_near; auto; intros; try apply Hy; try apply Hx; auto.
        * replace (k - i)%nat with ((j - i) + (k - j))%nat by lia. rewrite plus_INR. ring.
    - intros fT x k HfT i j Hi Hj. rewrite <- Hlen.
      rewrite (slice_one (Bs K init ss) _ _ (Bs_last K init ss)). cbn [rev app mprod].
      rewrite (mm_id_r K _ i j Hi Hj).
      assert (HP := Hpn (length ss) j ltac:(lia) Hj). rewrite firstn_all in HP. split; [exact HP|].
      cbn [sobj fd_build_smoother convert_filter_to_smoother_state fd_convert fsm_a].
      destruct (Hacc _ _ HfT) as (_ & _ & Hd).
      destruct Hd as [_ Hd]; [destruct xs; [congruence|simpl; lia]|].
      specialize (Hd j Hj). rewrite <- Hlen in Hd at 2 3.
      fold init ss in Hd. rewrite firstn_all in Hd.
      eapply near_weak; [|exact HP|exact Hd]. fold kappa n1.
      replace (S (length ss) - length ss)%nat with 1%nat by lia. unfold e. cbn [INR]. nra.
    - intros t f x k Hft Hx i j Hi Hj.
      assert (Hs : nth_error ss t = Some (step_of get_trans_matrix get_obs_lls x)) by (unfold ss; now rewrite nth_error_map, Hx).
      assert (Htl : (t < length xs)%nat) by (apply nth_error_Some; congruence).
      rewrite (slice_one (Bs K init ss) _ _ (Bs_nth K init ss t _ Hs)). cbn [rev app mprod].
      rewrite (mm_id_r K _ i j Hi Hj).
      assert (HPos : 0 < lsum (fun j => tr (step_of get_trans_matrix get_obs_lls x) j i * posterior K init (firstn t ss) t j) (seq 0 K)).
      { pose proof (Hpred t (step_of get_trans_matrix get_obs_lls x) i Hs Hi) as Hp. 
        rewrite (lsum_seq_ext _ (fun j => tr (step_of get_trans_matrix get_obs_lls x) j i * posterior K init (firstn t ss) t j)) in Hp
          by (intros; ring). exact Hp. }
      split.
      + unfold back. apply Rmult_le_pos; [|left; now apply Rinv_0_lt_compat].
        apply Rmult_le_pos; [eapply Hbn; eauto | apply Hpn; auto; lia].
      + cbn [sobj fd_build_smoother smoother_prepare fd_smoother_prepare fsm_a].
        destruct (Hfd t f Hft) as (c & Hc & Hn).
        eapply near_weak; [| |apply (reverse_kernel_near (2 * n1 * kappa) c (ffdist f)
             (fun j => posterior K init (firstn t ss) t j) (get_trans_matrix x) i); auto].
        * replace (S t - t)%nat with 1%nat by lia. unfold e. cbn [INR]. nra.
        * unfold back. apply Rmult_le_pos; [|left; now apply Rinv_0_lt_compat].
          apply Rmult_le_pos; [eapply Hbn; eauto | apply Hpn; auto; lia].
        * nra.
        * intros v Hv. apply Hpn; auto; lia.
        * intros v Hv. apply (Hsteps x (nth_error_In _ _ Hx) v Hv). exact Hi.
    - exists fsts, sts. split; [exact Hf|]. split; [exact H1|]. split; [exact H2|].
      intros t s Ht j Hj.
      assert (Htl : (t < length sts)%nat) by (apply nth_error_Some; congruence).
      destruct (H3 t s Ht 0%nat j HK Hj) as [Hq1 Hq2].
      rewrite <- Hlen in Hq1, Hq2 at 1. rewrite <- Hlen in Hq2.
      rewrite (back_prod K init ss HZ t) in Hq1, Hq2 by (auto; lia).
      eapply near_weak; [|exact Hq1|exact Hq2]. rewrite Hlen. fold e. nra.
  Qed.
End Smooth.
