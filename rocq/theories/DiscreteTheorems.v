From Coq Require Import Reals List Arith Lia Lra.
From Verif Require Import Ext ScanModel ScanProofs DriverSpec DriverProofs DiscreteModel DiscreteSpec
  DiscreteHyp Sums DiscreteProofs.
Import ListNotations.
Open Scope R_scope.

Lemma finite_rows K s : stochastic K (tr s) -> finite_lls K s -> rows_possible K s.
Proof.
  intros Hst Hf i Hi. destruct (Hst i Hi) as [Hnn Hs].
  destruct (lsum_pos_ex (tr s i) (seq 0 K)) as (j & Hj & Hp); [lra|].
  apply (lsum_pos _ _ j); auto.
  - intros a Ha. apply in_seq in Ha. apply Rmult_le_pos; [apply Hnn; lia|]. left. apply Hf; lia.
  - apply in_seq in Hj. apply Rmult_lt_0_compat; auto. apply Hf; lia.
Qed.

Lemma Forall2_nth {A B} (R : A -> B -> Prop) l m t a :
  Forall2 R l m -> nth_error l t = Some a -> exists b, nth_error m t = Some b /\ R a b.
Proof.
  intros H. revert t. induction H; intros [|t] Ht; simpl in Ht; try discriminate.
  - injection Ht as <-. eexists; split; [reflexivity | eauto].
  - simpl. auto.
Qed.
Lemma Forall2_nth_r {A B} (R : A -> B -> Prop) l m t b :
  Forall2 R l m -> nth_error m t = Some b -> exists a, nth_error l t = Some a /\ R a b.
Proof.
  intros H. revert t. induction H; intros [|t] Ht; simpl in Ht; try discriminate.
  - injection Ht as <-. eexists; split; [reflexivity | eauto].
  - simpl. auto.
Qed.

Section T.
  Variable K : nat.
  Hypothesis HK : (0 < K)%nat.
  Context {Inp Key : Type}.
  Variable split : Key -> nat -> list Key.
  Hypothesis Hsplit : split_ok split.
  Variable get_init_dist : Inp -> nat -> ext.
  Variable get_trans_matrix : Inp -> nat -> nat -> ext.
  Variable get_obs_lls : Inp -> nat -> ext.
  Variable dummy_like : Inp -> Inp.

  Let fobj : Filter Inp Key DiscreteFilterState :=
    discrete_build_filter K get_init_dist get_trans_matrix get_obs_lls.
  Let sobj : Smoother Inp Key DiscreteFilterState DiscreteSmootherState :=
    discrete_build_smoother K get_trans_matrix dummy_like.

  Variables (x0 : Inp) (xs : list Inp) (init : nat -> R) (ss : list step).
  Hypothesis Hinit : good_init K (get_init_dist x0) init.
  Hypothesis Hsteps : Forall2 (fun x s => good_step K (get_trans_matrix x) (get_obs_lls x) s) xs ss.

  Lemma rep_init k : rep K (elem (discrete_init_prepare (Key:=Key) get_init_dist x0 k)) (fun _ j => init j).
  Proof using Hinit.
    intros i Hi. destruct Hinit as [[Hnn Hsum] Hv].
    assert (Hr : rowsum K (fun _ j => init j) i = 1) by exact Hsum.
    rewrite Hr. split; [lra|]. split.
    - intros j Hj. split; [now apply Hnn|]. cbn [elem discrete_init_prepare f_].
      rewrite Hv by auto. cbn [emul]. f_equal. field.
    - cbn. now rewrite ln_1.
  Qed.

  Lemma rep_step x s k : good_step K (get_trans_matrix x) (get_obs_lls x) s -> rows_possible K s ->
    rep K (elem (discrete_filter_prepare (Key:=Key) K get_trans_matrix get_obs_lls x k)) (kern s).
  Proof.
    intros (Hst & Htr & Hl) Hr i Hi.
    destruct (condition_vec_spec K (get_trans_matrix x i) (get_obs_lls x) (tr s i) (lik s)) as [H1 H2].
    - intros j Hj. now apply Htr.
    - intros j Hj. now apply Hst.
    - exact Hl.
    - now apply Hr.
    - split; [now apply Hr|]. split.
      + intros j Hj. split.
        * unfold kern. apply Rmult_le_pos; [now apply (Hst i Hi)|].
          specialize (Hl j Hj). destruct (get_obs_lls x j); simpl in Hl; try discriminate; injection Hl as <-; 
            [left; apply exp_pos | lra].
        * exact (H1 j Hj).
      + exact H2.
  Qed.

  Let Ms := (fun _ j => init j) :: map kern ss.

  Lemma lengths : length xs = length ss.
  Proof using Hsteps. clear - Hsteps. induction Hsteps; simpl; auto. Qed.

  Lemma filter_rep parallel key :
    exists states, filter split fobj (x0 :: xs) parallel key = Ok states /\
      length states = S (length ss) /\
      forall t s, nth_error states t = Some s ->
        (Forall (rows_possible K) (firstn t ss) -> rep K (elem s) (mprod K (slice Ms 0 (S t)))) /\
        nth_error (x0 :: xs) t = Some (fs_inputs s).
  Proof using HK Hsplit Hinit Hsteps.
    destruct (filter_interval split fobj
                (fun a b s => ((forall t s', (a <= S t < b)%nat -> nth_error ss t = Some s' -> rows_possible K s') ->
                                rep K (elem s) (mprod K (slice Ms a b))) /\
                              nth_error (x0 :: xs) (b - 1) = Some (fs_inputs s))
                (x0 :: xs) parallel key Hsplit) as (sts & H1 & H2 & H3).
    - discriminate.
    - intros i j k x y Hij Hjk Hk [Hx0 _] [Hy0 Hy']. split; [|exact Hy'].
      intros Hrows. assert (Hx : rep K (elem x) (mprod K (slice Ms i j))).
      { apply Hx0. intros t s' Ht. apply Hrows. lia. }
      assert (Hy : rep K (elem y) (mprod K (slice Ms j k))).
      { apply Hy0. intros t s' Ht. apply Hrows. lia. }
      cbn [filter_combine fobj discrete_build_filter discrete_filter_combine elem].
      eapply rep_eqK; [|apply rep_operator; [exact Hx | exact Hy]].
      rewrite (slice_app Ms i j k); try lia.
      + apply eqK_sym, mprod_app.
      + unfold Ms. simpl in *. rewrite map_length, <- lengths. lia.
    - intros x k [= <-]. split; [|reflexivity]. intros _.
      rewrite (slice_one Ms 0 (fun _ j => init j)) by reflexivity.
      eapply rep_eqK; [apply eqK_sym, mm_id_r|]. apply rep_init.
    - intros t x k Hx. split; [|cbn [Nat.sub]; exact Hx]. intros Hrows.
      cbn [nth_error] in Hx. destruct (Forall2_nth _ _ _ _ _ Hsteps Hx) as (s & Hs & Hg).
      rewrite (slice_one Ms (S t) (kern s)) by (simpl; rewrite nth_error_map, Hs; reflexivity).
      eapply rep_eqK; [apply eqK_sym, mm_id_r|]. apply rep_step; auto.
      apply (Hrows t); [lia|exact Hs].
    - exists sts. split; [exact H1|]. split; [rewrite H2; simpl; now rewrite lengths|].
      intros t s Ht. specialize (H3 t s Ht). cbn [Nat.sub] in H3. rewrite Nat.sub_0_r in H3.
      split; [|apply H3]. intros Hr. apply H3. intros u s' Hu Hs'. rewrite Forall_forall in Hr. apply Hr.
      apply (nth_error_In _ u). clear - Hu Hs'. destruct Hu as [_ Hu]. assert (H : (u < t)%nat) by lia. clear Hu.
      revert u ss H Hs'. induction t as [|t IH]; intros [|u] [|a l] H Hs'; simpl in *; try lia; try discriminate; auto.
      apply IH; [lia|exact Hs'].
  Qed.

  Lemma skipn_firstn_all {A} (l : list A) n : skipn n (firstn n l) = [].
  Proof. apply skipn_all2. rewrite firstn_length. lia. Qed.

  Lemma prefix_prod t i j : (t <= length ss)%nat -> (i < K)%nat -> (j < K)%nat ->
    mprod K (slice Ms 0 (S t)) i j = joint_at K init (firstn t ss) t j.
  Proof.
    intros Ht Hi Hj.
    assert (Hl : length (firstn t ss) = t) by (rewrite firstn_length; lia).
    rewrite joint_at_prod by (auto; lia).
    unfold slice, Ms. cbn [skipn Nat.sub firstn]. cbn [mprod].
    rewrite skipn_firstn_all, walk_tot_nil, Rmult_1_r.
    rewrite firstn_firstn, Nat.min_id. rewrite <- firstn_map. reflexivity.
  Qed.

  Lemma prefix_rowsum t i : (t <= length ss)%nat -> (i < K)%nat ->
    rowsum K (mprod K (slice Ms 0 (S t))) i = evidence K init (firstn t ss).
  Proof.
    intros Ht Hi. rewrite (evidence_joint_at K init _ t) by (rewrite firstn_length; lia).
    apply lsum_seq_ext. intros j Hj. now apply prefix_prod.
  Qed.

  Lemma discrete_filter_prefix parallel key :
    exists states, filter split fobj (x0 :: xs) parallel key = Ok states /\
      length states = S (length ss) /\
      map fs_inputs states = x0 :: xs /\
      forall t s, nth_error states t = Some s -> Forall (rows_possible K) (firstn t ss) ->
        0 < evidence K init (firstn t ss) /\
        (forall j, (j < K)%nat -> fdist s j = Fin (posterior K init (firstn t ss) t j)) /\
        flog_normalizing_constant s = Fin (ln (evidence K init (firstn t ss))).
  Proof using HK Hsplit Hinit Hsteps.
    destruct (filter_rep parallel key) as (sts & H1 & H2 & H3).
    exists sts. split; [exact H1|]. split; [exact H2|]. split.
    - apply nth_ext with (d := x0) (d' := x0).
      + rewrite map_length. simpl. now rewrite lengths.
      + intros n Hn. rewrite map_length in Hn.
        destruct (nth_error sts n) as [s|] eqn:E; [|apply nth_error_None in E; lia].
        destruct (H3 n s E) as [_ Hi].
        rewrite (nth_error_nth (map fs_inputs sts) n x0 (x := fs_inputs s)) by (now rewrite nth_error_map, E).
        symmetry. now apply nth_error_nth.
    - intros t s Ht Hrt.
      assert (Htl : (t <= length ss)%nat).
      { assert (t < length sts)%nat by (apply nth_error_Some; congruence). lia. }
      destruct (H3 t s Ht) as [Hr _].
      destruct (Hr Hrt 0%nat HK) as (Hp & Hf & Hg).
      rewrite prefix_rowsum in Hp, Hg by auto.
      split; [exact Hp|]. split; [|exact Hg].
      intros j Hj. destruct (Hf j Hj) as [_ Hfj].
      unfold fdist. rewrite Hfj, prefix_rowsum, prefix_prod by auto. reflexivity.
  Qed.

  Hypothesis Hrows : Forall (rows_possible K) ss.

  Lemma discrete_filter_exact parallel key :
    exists states, filter split fobj (x0 :: xs) parallel key = Ok states /\
      length states = S (length ss) /\
      map fs_inputs states = x0 :: xs /\
      forall t s, nth_error states t = Some s ->
        0 < evidence K init (firstn t ss) /\
        (forall j, (j < K)%nat -> fdist s j = Fin (posterior K init (firstn t ss) t j)) /\
        flog_normalizing_constant s = Fin (ln (evidence K init (firstn t ss))).
  Proof using HK Hsplit Hinit Hsteps Hrows.
    destruct (discrete_filter_prefix parallel key) as (sts & H1 & H2 & H3 & H4).
    exists sts. split; [exact H1|]. split; [exact H2|]. split; [exact H3|].
    intros t s Ht. apply H4; auto. rewrite <- (firstn_skipn t ss) in Hrows. now apply Forall_app in Hrows.
  Qed.

  (** ** Smoother *)
  Hypothesis Hne : ss <> [].
  (** every state has positive predictive probability at time [t + 1] *)
  Definition pred_pos (t : nat) : Prop := forall s i, nth_error ss t = Some s -> (i < K)%nat ->
    0 < lsum (fun j => posterior K init (firstn t ss) t j * tr s j i) (seq 0 K).

  (** reverse kernel at time t, as reals *)
  Definition rkern (t : nat) (s : step) : nat -> nat -> R := fun i j =>
    tr s j i * posterior K init (firstn t ss) t j /
    lsum (fun j => tr s j i * posterior K init (firstn t ss) t j) (seq 0 K).

  Definition repm (A : nat -> nat -> ext) (M : nat -> nat -> R) : Prop :=
    forall i j, (i < K)%nat -> (j < K)%nat -> A i j = Fin (M i j).

  Lemma repm_mul A B M N : repm A M -> repm B N -> repm (matmul K A B) (mm K M N).
  Proof.
    intros HA HB i k Hi Hk. unfold matmul. rewrite (esum_fin K _ (fun j => M i j * N j k)).
    - reflexivity.
    - intros j Hj. rewrite HA, HB by auto. reflexivity.
  Qed.

  Definition Rs : list (nat -> nat -> R) :=
    map (fun p => rkern (fst p) (snd p)) (combine (seq 0 (length ss)) ss)
    ++ [fun _ j => posterior K init ss (length ss) j].

  Lemma Rs_nth t s : nth_error ss t = Some s -> nth_error Rs t = Some (rkern t s).
  Proof.
    intros H. assert (Ht : (t < length ss)%nat) by (apply nth_error_Some; congruence).
    unfold Rs. rewrite nth_error_app1 by (rewrite map_length, combine_length, seq_length; lia).
    rewrite nth_error_map.
    rewrite (nth_error_combine _ _ _ t s); auto.
    rewrite (nth_error_nth' _ 0%nat) by (rewrite seq_length; lia). rewrite seq_nth by lia. reflexivity.
  Qed.
  Lemma Rs_last : nth_error Rs (length ss) = Some (fun _ j => posterior K init ss (length ss) j).
  Proof.
    unfold Rs. rewrite nth_error_app2; rewrite map_length, combine_length, seq_length, Nat.min_id; [|lia].
    now rewrite Nat.sub_diag.
  Qed.
  Lemma Rs_length : length Rs = S (length ss).
  Proof. unfold Rs. rewrite app_length, map_length, combine_length, seq_length. simpl. lia. Qed.

  (** smoothing recursion on posteriors *)
  Lemma smoothing_step t s k : pred_pos t -> nth_error ss t = Some s -> (k < K)%nat ->
    lsum (fun j => posterior K init ss (S t) j * rkern t s j k) (seq 0 K) = posterior K init ss t k.
  Proof using All.
    intros Hpred Hs Hk.
    assert (Ht : (t < length ss)%nat) by (apply nth_error_Some; congruence).
    destruct (discrete_filter_exact false None) as (sts & _ & Hlen & _ & Hex).
    assert (HZ : forall u, (u <= length ss)%nat -> 0 < evidence K init (firstn u ss)).
    { intros u Hu. destruct (nth_error sts u) as [st|] eqn:E; [|apply nth_error_None in E; lia].
      now destruct (Hex u st E). }
    pose proof (HZ t ltac:(lia)) as HZt.
    pose proof (HZ (length ss) ltac:(lia)) as HZT. rewrite firstn_all in HZT.
    assert (Hsplit_ss : firstn (S t) ss = firstn t ss ++ [s]).
    { clear - Hs. revert t Hs. induction ss as [|a l IH]; intros [|t] Hs; simpl in *; try discriminate.
      - now injection Hs as ->.
      - f_equal. now apply IH. }
    assert (Hskip : skipn t ss = s :: skipn (S t) ss).
    { clear - Hs. revert t Hs. induction ss as [|a l IH]; intros [|t] Hs; simpl in *; try discriminate.
      - now injection Hs as ->.
      - now apply IH. }
    set (al := fun j => lsum (fun x => init x * mprod K (map kern (firstn t ss)) x j) (seq 0 K)).
    assert (Hpost_t : forall j, (j < K)%nat -> posterior K init (firstn t ss) t j = al j / evidence K init (firstn t ss)).
    { intros j Hj. unfold posterior. rewrite joint_at_prod by (auto; rewrite firstn_length; lia).
      rewrite firstn_firstn, Nat.min_id, skipn_firstn_all, walk_tot_nil, Rmult_1_r. reflexivity. }
    assert (Hal1 : forall j, (j < K)%nat ->
       lsum (fun x => init x * mprod K (map kern (firstn (S t) ss)) x j) (seq 0 K)
       = lsum (fun i => al i * tr s i j) (seq 0 K) * lik s j).
    { intros j Hj. rewrite Hsplit_ss, map_app. cbn [map].
      rewrite <- lsum_scal_r.
      transitivity (lsum (fun x => lsum (fun i => init x * mprod K (map kern (firstn t ss)) x i * tr s i j * lik s j) (seq 0 K)) (seq 0 K)).
      - apply lsum_seq_ext. intros x Hx. rewrite (mprod_app K _ [kern s] x j Hx Hj).
        unfold mm at 1. rewrite <- lsum_scal. apply lsum_seq_ext. intros i Hi.
        cbn [mprod]. rewrite (mm_id_r K (kern s) i j Hi Hj). unfold kern at 2. ring.
      - rewrite lsum_swap. apply lsum_seq_ext. intros i Hi. unfold al. rewrite !lsum_scal_r. reflexivity. }
    set (pr := fun j => lsum (fun i => al i * tr s i j) (seq 0 K)).
    assert (Hprpos : forall j, (j < K)%nat -> 0 < pr j).
    { intros j Hj. pose proof (Hpred s j Hs Hj) as Hp.
      assert (He : lsum (fun i => posterior K init (firstn t ss) t i * tr s i j) (seq 0 K)
                   = pr j / evidence K init (firstn t ss)).
      { unfold pr. rewrite <- lsum_div. apply lsum_seq_ext. intros i Hi. rewrite Hpost_t by auto. field. lra. }
      rewrite He in Hp. 
      apply (Rmult_lt_compat_r (evidence K init (firstn t ss))) in Hp; auto.
      unfold Rdiv in Hp. rewrite Rmult_0_l, Rmult_assoc, Rinv_l, Rmult_1_r in Hp by lra. exact Hp. }
    assert (Hrk : forall j, (j < K)%nat -> rkern t s j k = al k * tr s k j / pr j).
    { intros j Hj. unfold rkern.
      assert (He : lsum (fun i => tr s i j * posterior K init (firstn t ss) t i) (seq 0 K)
                   = pr j / evidence K init (firstn t ss)).
      { unfold pr. rewrite <- lsum_div. apply lsum_seq_ext. intros i Hi. rewrite Hpost_t by auto. field. lra. }
      rewrite He, Hpost_t by auto. pose proof (Hprpos j Hj). field. split; lra. }
    transitivity (al k * walk_tot K (skipn t ss) k / evidence K init ss).
    - rewrite Hskip, walk_tot_cons. rewrite <- lsum_scal, <- lsum_div. apply lsum_seq_ext. intros j Hj.
      rewrite Hrk by auto. unfold posterior. rewrite joint_at_prod by (auto; lia).
      rewrite Hal1 by auto. fold (pr j). pose proof (Hprpos j Hj). unfold kern. field. split; lra.
    - unfold posterior. rewrite joint_at_prod by (auto; lia). reflexivity.
  Qed.

  Lemma reverse_prod t : (t <= length ss)%nat -> (forall u, (t <= u)%nat -> pred_pos u) -> forall i k, (i < K)%nat -> (k < K)%nat ->
    mprod K (rev (slice Rs t (S (length ss)))) i k = posterior K init ss t k.
  Proof using All.
    intros Ht. remember (length ss - t)%nat as d eqn:Hd. revert t Ht Hd.
    induction d as [|d IH]; intros t Ht Hd Hpred i k Hi Hk.
    - assert (t = length ss) by lia. subst t.
      rewrite (slice_one Rs _ _ Rs_last). cbn [rev app mprod].
      rewrite (mm_id_r K _ i k Hi Hk). reflexivity.
    - destruct (nth_error ss t) as [s|] eqn:Hs; [|apply nth_error_None in Hs; lia].
      rewrite (slice_app Rs t (S t) (S (length ss))) by (rewrite ?Rs_length; lia).
      rewrite (slice_one Rs _ _ (Rs_nth t s Hs)). rewrite rev_app_distr. cbn [rev app].
      rewrite (mprod_app K _ _ i k Hi Hk).
      rewrite <- (smoothing_step t s k (Hpred t ltac:(lia)) Hs Hk).
      apply lsum_seq_ext. intros j Hj. rewrite IH by (auto; try lia; intros u Hu; apply Hpred; lia). f_equal.
      cbn [mprod]. now rewrite (mm_id_r K (rkern t s) j k Hj Hk).
  Qed.

  Lemma discrete_smoother_suffix par1 key1 par2 key2 :
    exists fstates sstates,
      filter split fobj (x0 :: xs) par1 key1 = Ok fstates /\
      smoother split dummy_like fs_inputs sobj fstates (Some xs) par2 key2 = Ok sstates /\
      smoother split dummy_like fs_inputs sobj fstates None par2 key2 = Ok sstates /\
      length sstates = S (length ss) /\
      forall t s, nth_error sstates t = Some s -> (forall u, (t <= u)%nat -> pred_pos u) ->
        forall j, (j < K)%nat -> sdist s j = Fin (posterior K init ss t j).
  Proof using All.
    destruct (discrete_filter_exact par1 key1) as (fstates & Hf & Hlen & Hinp & Hex).
    pose proof lengths as Hlx.
    destruct (smoother_interval split dummy_like fs_inputs sobj
                (fun a b s => (forall u, (a <= u < b)%nat -> pred_pos u) -> repm (sm_a s) (mprod K (rev (slice Rs a b))))
                fstates xs par2 key2 Hsplit) as (sts & H1 & H2 & H3).
    - destruct xs; [|discriminate]. destruct ss; [congruence|discriminate].
    - lia.
    - intros i j k x y Hij Hjk Hk Hx0 Hy0 Hpred.
      assert (Hx := Hx0 (fun u Hu => Hpred u ltac:(lia))). assert (Hy := Hy0 (fun u Hu => Hpred u ltac:(lia))).
      cbn [smoother_combine sobj discrete_build_smoother discrete_smoother_combine sm_a].
      unfold smoothing_operator.
      rewrite (slice_app Rs i j k) by (rewrite ?Rs_length; lia). rewrite rev_app_distr.
      intros p q Hp Hq. rewrite (repm_mul _ _ _ _ Hy Hx p q Hp Hq). f_equal.
      symmetry. now apply mprod_app.
    - intros fT x k HfT _. rewrite Hlx in HfT |- *.
      rewrite (slice_one Rs _ _ Rs_last). cbn [rev app mprod].
      intros i j Hi Hj. cbn [sobj discrete_build_smoother convert_filter_to_smoother_state discrete_convert sm_a].
      destruct (Hex _ _ HfT) as (_ & Hd & _). rewrite Hd by auto. rewrite firstn_all.
      now rewrite (mm_id_r K _ i j Hi Hj).
    - intros t f x k Hft Hx Hpred. destruct (Forall2_nth _ _ _ _ _ Hsteps Hx) as (s & Hs & (Hst & Htr & _)).
      rewrite (slice_one Rs _ _ (Rs_nth t s Hs)). cbn [rev app mprod].
      intros i j Hi Hj. rewrite (mm_id_r K _ i j Hi Hj).
      cbn [sobj discrete_build_smoother smoother_prepare discrete_smoother_prepare sm_a].
      unfold get_reverse_kernel. destruct (Hex _ _ Hft) as (_ & Hd & _).
      rewrite (esum_fin K _ (fun j => tr s j i * posterior K init (firstn t ss) t j)).
      + rewrite Htr, Hd by auto. cbn [emul].
        rewrite ediv_fin; [reflexivity|].
        pose proof (Hpred t ltac:(lia) s i Hs Hi) as Hp.
        rewrite (lsum_seq_ext _ (fun j => tr s j i * posterior K init (firstn t ss) t j)) in Hp
          by (intros; ring). lra.
      + intros j' Hj'. rewrite Htr, Hd by auto. reflexivity.
    - exists fstates, sts. split; [exact Hf|]. split; [exact H1|]. split.
      + rewrite smoother_default_inputs, Hinp, smoother_drop_first by lia. exact H1.
      + split; [lia|]. intros t s Ht Hpred j Hj.
        assert (Htl : (t < length sts)%nat) by (apply nth_error_Some; congruence).
        unfold sdist. rewrite (H3 t s Ht (fun u Hu => Hpred u ltac:(lia)) 0%nat j HK Hj).
        rewrite Hlx. rewrite reverse_prod by (auto; lia). reflexivity.
  Qed.

  Lemma discrete_smoother_exact par1 key1 par2 key2 : (forall t, pred_pos t) ->
    exists fstates sstates,
      filter split fobj (x0 :: xs) par1 key1 = Ok fstates /\
      smoother split dummy_like fs_inputs sobj fstates (Some xs) par2 key2 = Ok sstates /\
      smoother split dummy_like fs_inputs sobj fstates None par2 key2 = Ok sstates /\
      length sstates = S (length ss) /\
      forall t s, nth_error sstates t = Some s ->
        forall j, (j < K)%nat -> sdist s j = Fin (posterior K init ss t j).
  Proof using All.
    intros Hp. destruct (discrete_smoother_suffix par1 key1 par2 key2) as (f & s & H1 & H2 & H3 & H4 & H5).
    exists f, s. repeat (split; [assumption|]). intros t st Ht. apply H5; auto.
  Qed.
End T.

(** ** Associativity *)
Section Assoc.
  Variable K : nat.
  Context {Inp : Type}.
  Notation st := (@DiscreteFilterState Inp).
  Notation same_elem := (same_elem K).

  Lemma rep_normalised e : (exists M, rep K e M) <-> normalised_elem K e.
  Proof.
    split.
    - intros [M H]. exists (fun i j => M i j / rowsum K M i), (fun i => ln (rowsum K M i)).
      split; [|split].
      + intros i Hi. destruct (H i Hi) as (Hp & Hf & _). split.
        * intros j Hj. apply Rmult_le_pos; [apply Hf; auto|]. left. now apply Rinv_0_lt_compat.
        * rewrite lsum_div. fold (rowsum K M i). unfold rowsum in *. field. lra.
      + intros i j Hi Hj. destruct (H i Hi) as (_ & Hf & _). apply Hf; auto.
      + intros i Hi. apply (H i Hi).
    - intros (p & g & Hst & Hf & Hg). exists (fun i j => exp (g i) * p i j). intros i Hi.
      destruct (Hst i Hi) as [Hnn Hs].
      assert (Hr : rowsum K (fun i j => exp (g i) * p i j) i = exp (g i)).
      { unfold rowsum. rewrite lsum_scal, Hs. lra. }
      pose proof (exp_pos (g i)). rewrite Hr. split; [auto|]. split.
      + intros j Hj. split; [apply Rmult_le_pos; [lra|auto]|]. rewrite Hf by auto. f_equal. field. lra.
      + rewrite Hg, ln_exp; auto.
  Qed.

  Lemma rep_same x y M N : rep K x M -> rep K y N -> eqK K M N -> same_elem x y.
  Proof.
    intros Hx Hy H. split.
    - intros i j Hi Hj. destruct (Hx i Hi) as (_ & Hf & _), (Hy i Hi) as (_ & Hf' & _).
      destruct (Hf j Hj) as [_ ->], (Hf' j Hj) as [_ ->].
      now rewrite (H i j Hi Hj), (rowsum_eqK K M N i H Hi).
    - intros i Hi. destruct (Hx i Hi) as (_ & _ & ->), (Hy i Hi) as (_ & _ & ->).
      now rewrite (rowsum_eqK K M N i H Hi).
  Qed.

  Lemma same_rep x y M N : rep K x M -> rep K y N -> same_elem x y -> eqK K M N.
  Proof.
    intros Hx Hy [Hf Hg] i j Hi Hj.
    destruct (Hx i Hi) as (Hp & Hfx & Hgx), (Hy i Hi) as (Hp' & Hfy & Hgy).
    destruct (Hfx j Hj) as [_ Ex], (Hfy j Hj) as [_ Ey].
    rewrite Hf, Ey in Ex by auto. rewrite Hg, Hgy in Hgx by auto.
    injection Hgx as Hl. apply ln_inv in Hl; auto. rewrite Hl in Ex. injection Ex as Ex.
    apply (f_equal (fun z => z * rowsum K M i)) in Ex. unfold Rdiv in Ex.
    rewrite !Rmult_assoc, Rinv_l, !Rmult_1_r in Ex by lra. auto.
  Qed.

  Lemma discrete_assoc :
    assoc_upto (discrete_filter_combine (Inp:=Inp) K)
      (fun s => normalised_elem K (elem s))
      (fun s1 s2 => same_elem (elem s1) (elem s2) /\ fs_inputs s1 = fs_inputs s2).
  Proof.
    constructor.
    - intros x _. repeat split; auto.
    - intros x y _ _ [[H1 H2] H3]. repeat split; auto; intros; symmetry; auto.
    - intros x y z _ _ _ [[H1 H2] H3] [[H4 H5] H6]. repeat split; try congruence; intros.
      + rewrite H1; auto.
      + rewrite H2; auto.
    - intros x y Hx Hy. apply rep_normalised in Hx, Hy. destruct Hx as [M Hx], Hy as [N Hy].
      apply rep_normalised. exists (mm K M N). cbn. now apply rep_operator.
    - intros x x' y y' Hx Hx' Hy Hy' [Ex _] [Ey Ei]. split; [|exact Ei].
      apply rep_normalised in Hx, Hx', Hy, Hy'.
      destruct Hx as [M Hx], Hx' as [M' Hx'], Hy as [N Hy], Hy' as [N' Hy'].
      cbn. eapply rep_same; [apply rep_operator; eassumption | apply rep_operator; eassumption |].
      apply mm_eqK; eapply same_rep; eauto.
    - intros x y z Hx Hy Hz. apply rep_normalised in Hx, Hy, Hz.
      destruct Hx as [M Hx], Hy as [N Hy], Hz as [P Hz]. split; [|reflexivity]. cbn.
      eapply rep_same;
        [apply rep_operator; [apply rep_operator|]; eassumption
        |apply rep_operator; [|apply rep_operator]; eassumption |].
      apply mm_assoc.
  Qed.
End Assoc.

Section Par.
  Variable K : nat.
  Hypothesis HK : (0 < K)%nat.
  Context {Inp Key : Type}.
  Variable split : Key -> nat -> list Key.
  Hypothesis Hsplit : split_ok split.
  Variable get_init_dist : Inp -> nat -> ext.
  Variable get_trans_matrix : Inp -> nat -> nat -> ext.
  Variable get_obs_lls : Inp -> nat -> ext.

  Lemma discrete_parallel x0 xs init ss key :
    good_init K (get_init_dist x0) init ->
    Forall2 (fun x s => good_step K (get_trans_matrix x) (get_obs_lls x) s) xs ss ->
    Forall (rows_possible K) ss ->
    exists ps qs,
      filter split (discrete_build_filter K get_init_dist get_trans_matrix get_obs_lls) (x0 :: xs) true key = Ok ps /\
      filter split (discrete_build_filter K get_init_dist get_trans_matrix get_obs_lls) (x0 :: xs) false key = Ok qs /\
      Forall2 (fun p q => same_elem K (elem p) (elem q) /\ fs_inputs p = fs_inputs q) ps qs.
  Proof using HK Hsplit.
    intros Hi Hs Hr.
    apply (filter_parallel split Hsplit _ (fun s => normalised_elem K (elem s))); try discriminate.
    - apply discrete_assoc.
    - intros x k [= <-]. apply rep_normalised. eexists. eapply rep_init. eassumption.
    - intros t x k Hx. cbn [nth_error] in Hx.
      destruct (Forall2_nth _ _ _ _ _ Hs Hx) as (s & Hs' & Hg). apply rep_normalised. exists (kern s).
      apply rep_step; auto. rewrite Forall_forall in Hr. apply Hr. eapply nth_error_In; eauto.
  Qed.
End Par.
