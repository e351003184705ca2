(** Where the discrete filter and smoother return NaN. *)
From Coq Require Import Reals List Arith Lia Lra.
From Verif Require Import Ext ScanModel DriverSpec DriverProofs DiscreteModel DiscreteSpec DiscreteHyp Sums
  DiscreteProofs DiscreteTheorems DiscreteWitness.
Import ListNotations.
Open Scope R_scope.

Lemma emul_NaN_l a : emul NaN a = NaN.
Proof. now destruct a. Qed.
Lemma ediv_NaN_l a : ediv NaN a = NaN.
Proof. now destruct a. Qed.
Lemma ediv_NaN_r a : ediv a NaN = NaN.
Proof. now destruct a. Qed.
Lemma emax_NaN_l a : emax NaN a = NaN.
Proof. now destruct a. Qed.
Lemma emax_NaN_r a : emax a NaN = NaN.
Proof. now destruct a. Qed.
Lemma esum_nan n f i : (i < n)%nat -> f i = NaN -> esum n f = NaN.
Proof.
  induction n as [|n IH]; intros Hi E; [lia|]. cbn [esum].
  destruct (Nat.eq_dec i n) as [->|]; [rewrite E; apply eadd_NaN_r|]. rewrite IH by (auto; lia). apply eadd_NaN_l.
Qed.
Lemma emaxn_nan n f i : (i < n)%nat -> f i = NaN -> emaxn n f = NaN.
Proof.
  induction n as [|n IH]; intros Hi E; [lia|]. cbn [emaxn].
  destruct (Nat.eq_dec i n) as [->|]; [rewrite E; apply emax_NaN_r|]. rewrite IH by (auto; lia). apply emax_NaN_l.
Qed.

Lemma lsum_zero {A} (l : list A) : lsum (fun _ => 0) l = 0.
Proof. induction l as [|a l IH]; [reflexivity|]. cbn [lsum]. rewrite IH. ring. Qed.

Section N.
  Variable K : nat.
  Hypothesis HK : (0 < K)%nat.

  (** row [i] of a matrix is NaN; all rows are *)
  Definition nan_row (A : nat -> nat -> ext) (i : nat) : Prop := forall j, (j < K)%nat -> A i j = NaN.
  Definition nan_all (A : nat -> nat -> ext) : Prop := forall i, (i < K)%nat -> nan_row A i.

  Lemma matmul_left A B i : nan_row A i -> nan_row (matmul K A B) i.
  Proof using HK.
    intros H k Hk. unfold matmul. apply (esum_nan _ _ 0%nat HK). rewrite (H 0%nat HK). apply emul_NaN_l.
  Qed.
  Lemma matmul_right A B m : (m < K)%nat -> nan_row B m -> nan_all (matmul K A B).
  Proof.
    intros Hm H i Hi k Hk. unfold matmul. apply (esum_nan _ _ m Hm). rewrite (H k Hk). apply emul_NaN_r.
  Qed.
  Lemma condition_nan_row probs lls : (forall j, (j < K)%nat -> probs j = NaN) ->
    (forall j, (j < K)%nat -> fst (condition_on_obs_vec K probs lls) j = NaN) /\
    snd (condition_on_obs_vec K probs lls) = NaN.
  Proof using HK.
    intros H. assert (W : forall j, (j < K)%nat -> cond_weights K probs lls j = NaN).
    { intros j Hj. unfold cond_weights. rewrite H by auto. apply emul_NaN_l. }
    cbn [condition_on_obs_vec fst snd]. rewrite (esum_nan _ _ 0%nat HK (W 0%nat HK)). split.
    - intros j Hj. apply ediv_NaN_r.
    - apply eadd_NaN_l.
  Qed.
  Lemma condition_nan_lls probs lls i : (i < K)%nat -> lls i = NaN ->
    snd (condition_on_obs_vec K probs lls) = NaN.
  Proof.
    intros Hi H. cbn [condition_on_obs_vec snd]. rewrite (emaxn_nan _ _ i Hi H). apply eadd_NaN_r.
  Qed.

  (** all log likelihoods are -inf: everything is NaN; otherwise a row without mass is NaN *)
  Lemma emaxn_ninf n f : (forall j, (j < n)%nat -> f j = NInf) -> emaxn n f = NInf.
  Proof.
    induction n as [|n IH]; intros H; [reflexivity|]. cbn [emaxn]. rewrite IH, H by (auto; lia). reflexivity.
  Qed.
  Lemma zero_terms (g : nat -> R) : (forall j, (j < K)%nat -> 0 <= g j) -> lsum g (seq 0 K) = 0 ->
    forall j, (j < K)%nat -> g j = 0.
  Proof.
    intros H E j Hj. destruct (Req_dec (g j) 0) as [|N]; [assumption|exfalso].
    assert (P : 0 < lsum g (seq 0 K)); [|lra].
    clear E. revert H. generalize K Hj. intros n Hn.
    assert (Hin : In j (seq 0 n)) by (apply in_seq; lia).
    intros H. assert (H' : forall k, In k (seq 0 n) -> 0 <= g k) by (intros k Hk; apply H; apply in_seq in Hk; lia).
    clear H. induction (seq 0 n) as [|a l IH]; [destruct Hin|]. cbn [lsum].
    assert (0 <= lsum g l).
    { clear - H'. induction l as [|b l IH]; [simpl; lra|]. cbn [lsum]. pose proof (H' b (or_intror (or_introl eq_refl))).
      assert (0 <= lsum g l); [|lra]. apply IH. intros k [->|Hk]; apply H'; [now left|right; now right]. }
    destruct Hin as [->|Hin].
    - pose proof (H' j (or_introl eq_refl)). lra.
    - assert (0 < lsum g l) by (apply IH; auto; intros k Hk; apply H'; now right).
      pose proof (H' a (or_introl eq_refl)). lra.
  Qed.
  Lemma impossible_row probs lls p lik :
    (forall j, (j < K)%nat -> probs j = Fin (p j)) -> (forall j, (j < K)%nat -> 0 <= p j) ->
    (forall j, (j < K)%nat -> eexp (lls j) = Fin (lik j)) ->
    lsum (fun j => p j * lik j) (seq 0 K) = 0 ->
    forall j, (j < K)%nat -> fst (condition_on_obs_vec K probs lls) j = NaN.
  Proof using HK.
    intros Hp Hn Hl Z.
    assert (Lz : forall j, (j < K)%nat -> 0 <= lik j).
    { intros j Hj. specialize (Hl j Hj). destruct (lls j); simpl in Hl; try discriminate; injection Hl as <-;
        [left; apply exp_pos|lra]. }
    assert (Hz := zero_terms (fun j => p j * lik j) (fun j Hj => Rmult_le_pos _ _ (Hn j Hj) (Lz j Hj)) Z). cbv beta in Hz.
    assert (D : (forall j, (j < K)%nat -> lls j = NInf) \/ exists m, emaxn K lls = Fin m).
    { clear - Hl. induction K as [|n IH]; [left; lia|].
      destruct IH as [A|(m & Em)]; [intros j Hj; apply Hl; lia|..]; cbn [emaxn].
      - pose proof (Hl n ltac:(lia)) as Hn'. destruct (lls n) as [r| | |] eqn:E; simpl in Hn'; try discriminate.
        + right. exists r. now rewrite (emaxn_ninf _ _ A).
        + left. intros j Hj. destruct (Nat.eq_dec j n) as [->|]; [exact E|apply A; lia].
      - right. rewrite Em. pose proof (Hl n ltac:(lia)) as Hn'. destruct (lls n) as [r| | |]; simpl in Hn'; try discriminate.
        + now exists (Rmax m r).
        + now exists m. }
    destruct D as [A|(m & Em)].
    - intros j Hj. cbn [condition_on_obs_vec fst]. unfold cond_weights at 1.
      rewrite (emaxn_ninf _ _ A), A by auto. cbn [esub eopp eadd eexp]. rewrite emul_NaN_r. apply ediv_NaN_l.
    - assert (W : forall j, (j < K)%nat -> cond_weights K probs lls j = Fin 0).
      { intros j Hj. unfold cond_weights. rewrite Hp, Em, (eexp_sub _ _ (lik j)) by auto. cbn [emul]. f_equal.
        rewrite <- Rmult_assoc, (Hz j Hj). ring. }
      intros j Hj. cbn [condition_on_obs_vec fst]. rewrite W by auto. rewrite (esum_fin K _ (fun _ => 0)) by exact W.
      rewrite lsum_zero. apply ediv_00.
  Qed.

  Context {Inp Key : Type}.
  Variable split : Key -> nat -> list Key.
  Hypothesis Hsplit : split_ok split.
  Variable get_init_dist : Inp -> nat -> ext.
  Variable get_trans_matrix : Inp -> nat -> nat -> ext.
  Variable get_obs_lls : Inp -> nat -> ext.
  Variable dummy_like : Inp -> Inp.
  Let fobj : Filter Inp Key DiscreteFilterState :=
    discrete_build_filter K get_init_dist get_trans_matrix get_obs_lls.
  Let sobj : Smoother Inp Key DiscreteFilterState DiscreteSmootherState :=
    discrete_build_smoother K get_trans_matrix dummy_like.

  (** a step with an impossible row: NaN distributions from that step on, NaN constants after it *)
  Lemma filter_nan x0 xs s x t i parallel key :
    nth_error xs t = Some x -> good_step K (get_trans_matrix x) (get_obs_lls x) s -> (i < K)%nat ->
    lsum (fun j => tr s i j * lik s j) (seq 0 K) = 0 ->
    exists states, filter split fobj (x0 :: xs) parallel key = Ok states /\
      forall u st, nth_error states u = Some st -> (t < u)%nat ->
        (forall j, (j < K)%nat -> fdist st j = NaN) /\
        ((S t < u)%nat -> flog_normalizing_constant st = NaN).
  Proof using HK Hsplit.
    intros Hx (Hst & Htr & Hl) Hi Z.
    destruct (filter_interval split fobj
      (fun a b st => ((a = S t)%nat -> (S t < b)%nat -> nan_row (f_ (elem st)) i /\ ((S (S t) < b)%nat -> log_g (elem st) i = NaN)) /\
                     ((a < S t < b)%nat -> nan_all (f_ (elem st)) /\
                        ((S (S t) < b)%nat -> forall m, (m < K)%nat -> log_g (elem st) m = NaN)))
      (x0 :: xs) parallel key Hsplit) as (sts & H1 & H2 & H3).
    - discriminate.
    - intros a j k p q Haj Hjk Hk [P1 P2] [Q1 Q2].
      cbn [filter_combine fobj discrete_build_filter discrete_filter_combine elem filtering_operator f_ log_g condition_on_obs fst snd].
      split.
      + intros -> Hk'. destruct (P1 eq_refl ltac:(lia)) as [A _].
        destruct (condition_nan_row (f_ (elem p) i) (log_g (elem q)) A) as [C D]. split.
        * apply matmul_left. exact C.
        * intros _. rewrite D. apply eadd_NaN_r.
      + intros Ha. destruct (Nat.lt_trichotomy j (S t)) as [L|[->|L]].
        * destruct (Q2 ltac:(lia)) as [A B]. split.
          -- apply (matmul_right _ _ 0%nat HK). now apply A.
          -- intros Hb m Hm. rewrite (condition_nan_lls _ _ 0%nat HK) by (apply B; auto). apply eadd_NaN_r.
        * destruct (Q1 eq_refl ltac:(lia)) as [A B]. split.
          -- now apply (matmul_right _ _ i Hi).
          -- intros Hb m Hm. rewrite (condition_nan_lls _ _ i Hi) by (apply B; auto). apply eadd_NaN_r.
        * destruct (P2 ltac:(lia)) as [A _]. split.
          -- intros m Hm. apply matmul_left. exact (proj1 (condition_nan_row _ (log_g (elem q)) (A m Hm))).
          -- intros _ m Hm. rewrite (proj2 (condition_nan_row _ (log_g (elem q)) (A m Hm))). apply eadd_NaN_r.
    - intros y k _. split; intros; lia.
    - intros u y k Hy. split; [|intros; lia]. intros [= ->] _. split; [|lia].
      cbn [nth_error] in Hy. rewrite Hx in Hy. injection Hy as <-. intros j Hj.
      apply (impossible_row _ _ (tr s i) (lik s)); auto. intros j' Hj'. now apply (Hst i Hi).
    - exists sts. split; [exact H1|]. intros u st Hu Ht. destruct (H3 u st Hu) as [_ H].
      destruct (H ltac:(lia)) as [A B]. split.
      + intros j Hj. now apply (A 0%nat HK).
      + intros Hb. apply B; [lia|exact HK].
  Qed.

  (** a state without predictive probability: NaN at that time and before *)
  Lemma smoother_nan (fs : list (@DiscreteFilterState Inp)) xs t f x i (p : nat -> R) (A : nat -> nat -> R) parallel key :
    length fs = S (length xs) -> nth_error fs t = Some f -> nth_error xs t = Some x -> (i < K)%nat ->
    (forall j, (j < K)%nat -> fdist f j = Fin (p j) /\ 0 <= p j) ->
    (forall a b, (a < K)%nat -> (b < K)%nat -> get_trans_matrix x a b = Fin (A a b) /\ 0 <= A a b) ->
    lsum (fun j => p j * A j i) (seq 0 K) = 0 ->
    exists states, smoother split dummy_like fs_inputs sobj fs (Some xs) parallel key = Ok states /\
      forall u st, nth_error states u = Some st -> (u <= t)%nat -> forall j, (j < K)%nat -> sdist st j = NaN.
  Proof using HK Hsplit.
    intros Hlen Hf Hx Hi Hp HA Z.
    destruct (smoother_interval split dummy_like fs_inputs sobj
      (fun a b st => ((a <= t)%nat -> (b = S t)%nat -> nan_row (sm_a st) i) /\
                     ((a <= t)%nat -> (S t < b)%nat -> nan_all (sm_a st)))
      fs xs parallel key Hsplit) as (sts & H1 & H2 & H3).
    - destruct xs; [destruct t; discriminate|discriminate].
    - exact Hlen.
    - intros a j k q r Haj Hjk Hk [P1 P2] [Q1 Q2].
      cbn [smoother_combine sobj discrete_build_smoother discrete_smoother_combine sm_a]. unfold smoothing_operator. split.
      + intros Ha ->. apply matmul_left. apply Q1; lia.
      + intros Ha Hk'. destruct (le_lt_dec j t) as [L|L].
        * intros m Hm. apply matmul_left. now apply Q2.
        * destruct (Nat.eq_dec j (S t)) as [->|N].
          -- apply (matmul_right _ _ i Hi). now apply P1.
          -- apply (matmul_right _ _ 0%nat HK). apply P2; [lia|lia|exact HK].
    - intros g y k Hg. assert (t < length xs)%nat by (apply nth_error_Some; congruence). split; intros; lia.
    - intros u g y k Hg Hy. split; [|intros; lia]. intros Hu [= ->]. rewrite Hf in Hg. injection Hg as <-.
      rewrite Hx in Hy. injection Hy as <-. intros j Hj.
      cbn [sobj discrete_build_smoother smoother_prepare discrete_smoother_prepare sm_a]. unfold get_reverse_kernel.
      assert (Hz := zero_terms (fun j => p j * A j i) (fun j Hj => Rmult_le_pos _ _ (proj2 (Hp j Hj)) (proj2 (HA j i Hj Hi))) Z).
      cbv beta in Hz.
      rewrite (esum_fin K _ (fun _ => 0)).
      + rewrite (proj1 (HA j i Hj Hi)), (proj1 (Hp j Hj)). cbn [emul]. rewrite Rmult_comm, (Hz j Hj).
        rewrite lsum_zero. apply ediv_00.
      + intros j' Hj'. rewrite (proj1 (HA j' i Hj' Hi)), (proj1 (Hp j' Hj')). cbn [emul]. now rewrite Rmult_comm, (Hz j' Hj').
    - exists sts. split; [exact H1|]. intros u st Hu Ht j Hj. destruct (H3 u st Hu) as [_ H].
      assert (t < length xs)%nat by (apply nth_error_Some; congruence). now apply (H Ht ltac:(lia) 0%nat HK).
  Qed.
End N.
