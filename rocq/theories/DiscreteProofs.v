From Coq Require Import Reals List Arith Lia Lra.
From Verif Require Import Ext ScanModel ScanProofs DriverSpec DriverProofs DiscreteModel DiscreteSpec Sums.
Import ListNotations.
Open Scope R_scope.

(** ** Extended-float lemmas *)
Lemma esum_fin n (f : nat -> ext) (g : nat -> R) :
  (forall i, (i < n)%nat -> f i = Fin (g i)) -> esum n f = Fin (lsum g (seq 0 n)).
Proof.
  induction n; intros H; [reflexivity|].
  cbn [esum]. rewrite IHn by (intros; apply H; lia). rewrite H by lia. cbn [eadd].
  now rewrite lsum_seq_S.
Qed.

Lemma ediv_fin a b : b <> 0 -> ediv (Fin a) (Fin b) = Fin (a / b).
Proof. intros H. simpl. now destruct (Req_EM_T b 0). Qed.

Lemma elog_fin a : 0 < a -> elog (Fin a) = Fin (ln a).
Proof. intros H. simpl. now destruct (Rlt_dec 0 a). Qed.

(** finite-or-minus-infinity arrays with at least one finite entry have a finite maximum *)
Lemma emaxn_fin n (f : nat -> ext) (l : nat -> R) :
  (forall i, (i < n)%nat -> eexp (f i) = Fin (l i)) ->
  (emaxn n f = NInf /\ forall i, (i < n)%nat -> f i = NInf) \/
  (exists m, emaxn n f = Fin m).
Proof.
  induction n; intros H; [left; split; [reflexivity|lia]|].
  cbn [emaxn].
  specialize (IHn ltac:(intros; apply H; lia)). pose proof (H n ltac:(lia)) as Hn.
  destruct (f n) eqn:E; simpl in Hn; try discriminate;
    destruct IHn as [[-> IH]|[m ->]]; simpl.
  - right; eauto.
  - right; eauto.
  - left; split; auto. intros i Hi. destruct (Nat.eq_dec i n); [subst; auto|apply IH; lia].
  - right; eauto.
Qed.

Lemma eexp_sub a m l : eexp a = Fin l -> eexp (esub a (Fin m)) = Fin (l * exp (- m)).
Proof.
  destruct a; simpl; intros [= <-]; try discriminate; simpl.
  - rewrite <- exp_plus. f_equal.
  - f_equal. lra.
Qed.

Section WithK.
  Variable K : nat.
  Let S_ (f : nat -> R) := lsum f (seq 0 K).

  Lemma condition_vec_spec probs lls (p l : nat -> R) :
    (forall j, (j < K)%nat -> probs j = Fin (p j)) ->
    (forall j, (j < K)%nat -> 0 <= p j) ->
    (forall j, (j < K)%nat -> eexp (lls j) = Fin (l j)) ->
    0 < S_ (fun j => p j * l j) ->
    (forall j, (j < K)%nat ->
       fst (condition_on_obs_vec K probs lls) j = Fin (p j * l j / S_ (fun j => p j * l j))) /\
    snd (condition_on_obs_vec K probs lls) = Fin (ln (S_ (fun j => p j * l j))).
  Proof.
    intros Hp Hnn Hl Hpos.
    destruct (emaxn_fin K lls l Hl) as [[_ Hall]|[m Hm]].
    { exfalso. destruct (lsum_pos_ex _ _ Hpos) as (j & Hj & Hjp). apply in_seq in Hj.
      specialize (Hl j ltac:(lia)). rewrite (Hall j) in Hl by lia. simpl in Hl. injection Hl as Hl.
      rewrite <- Hl in Hjp. lra. }
    set (e := exp (- m)). assert (He : 0 < e) by apply exp_pos.
    assert (Hw : forall j, (j < K)%nat -> cond_weights K probs lls j = Fin (p j * l j * e)).
    { intros j Hj. unfold cond_weights. rewrite Hm, Hp, (eexp_sub _ _ _ (Hl j Hj)) by auto.
      simpl. f_equal. unfold e. ring. }
    assert (Hnorm : esum K (cond_weights K probs lls) = Fin (S_ (fun j => p j * l j) * e)).
    { rewrite (esum_fin K _ (fun j => p j * l j * e)) by auto. f_equal. unfold S_. apply lsum_scal_r. }
    unfold condition_on_obs_vec. rewrite Hnorm. set (Z := S_ _) in *.
    assert (HZe : 0 < Z * e) by (apply Rmult_lt_0_compat; auto).
    split.
    - intros j Hj. cbn [fst]. rewrite Hw by auto. rewrite ediv_fin by lra.
      f_equal. field. split; lra.
    - cbn [snd]. rewrite elog_fin by auto. rewrite Hm. cbn [eadd]. f_equal.
      rewrite ln_mult by auto. unfold e. rewrite ln_exp. lra.
  Qed.

  (** ** Elements as nonnegative kernels *)
  Definition mm (M N : nat -> nat -> R) : nat -> nat -> R := fun i k => S_ (fun j => M i j * N j k).
  Definition rowsum (M : nat -> nat -> R) (i : nat) : R := S_ (M i).

  Definition rep (e : FilterScanElement) (M : nat -> nat -> R) : Prop :=
    forall i, (i < K)%nat ->
      0 < rowsum M i /\
      (forall j, (j < K)%nat -> 0 <= M i j /\ f_ e i j = Fin (M i j / rowsum M i)) /\
      log_g e i = Fin (ln (rowsum M i)).

  Definition eqK (M N : nat -> nat -> R) : Prop :=
    forall i j, (i < K)%nat -> (j < K)%nat -> M i j = N i j.

  Lemma rowsum_eqK M N i : eqK M N -> (i < K)%nat -> rowsum M i = rowsum N i.
  Proof. intros H Hi. apply lsum_seq_ext. intros j Hj. now apply H. Qed.

  Lemma rep_eqK e M N : eqK M N -> rep e M -> rep e N.
  Proof.
    intros H Hr i Hi. destruct (Hr i Hi) as (H1 & H2 & H3).
    rewrite <- (rowsum_eqK M N i H Hi). repeat split; auto;
      specialize (H2 j H0); rewrite <- (H i j Hi H0); tauto.
  Qed.

  Lemma rep_operator x y M N : rep x M -> rep y N -> rep (filtering_operator K x y) (mm M N).
  Proof.
    intros Hx Hy i Hi.
    destruct (Hx i Hi) as (Hri & Hf & Hg).
    set (r := rowsum M i) in *.
    assert (Hs : forall j, (j < K)%nat -> eexp (log_g y j) = Fin (rowsum N j)).
    { intros j Hj. destruct (Hy j Hj) as (Hp & _ & ->). simpl. now rewrite exp_ln. }
    assert (Hrow : rowsum (mm M N) i = S_ (fun j => M i j * rowsum N j)).
    { unfold rowsum, mm, S_. rewrite lsum_swap. apply lsum_seq_ext. intros j Hj. apply lsum_scal. }
    assert (Hrp : 0 < rowsum (mm M N) i).
    { rewrite Hrow. destruct (lsum_pos_ex _ _ Hri) as (j & Hj & Hjp). pose proof Hj as Hj'. apply in_seq in Hj'.
      apply (lsum_pos _ _ j); auto.
      - intros a Ha. apply in_seq in Ha. apply Rmult_le_pos; [apply Hf; lia|].
        left. apply (Hy a); lia.
      - apply Rmult_lt_0_compat; auto. apply (Hy j); lia. }
    set (R' := rowsum (mm M N) i) in *.
    assert (Hsum : S_ (fun j => M i j / r * rowsum N j) = R' / r).
    { rewrite Hrow. unfold S_. rewrite <- lsum_div. apply lsum_seq_ext. intros; field; lra. }
    destruct (condition_vec_spec (f_ x i) (log_g y) (fun j => M i j / r) (rowsum N)) as [Hc1 Hc2].
    - intros j Hj. apply Hf; auto.
    - intros j Hj. apply Rmult_le_pos; [apply Hf; auto|]. left. now apply Rinv_0_lt_compat.
    - exact Hs.
    - rewrite Hsum. apply Rdiv_lt_0_compat; auto.
    - rewrite Hsum in Hc1, Hc2. split; [auto|]. split.
      + intros k Hk. split.
        { apply lsum_nonneg. intros j Hj. apply in_seq in Hj. apply Rmult_le_pos; [apply Hf; lia|].
          apply (Hy j); lia. }
        unfold filtering_operator, matmul. cbn [f_].
        rewrite (esum_fin K _ (fun j => M i j * N j k / R')).
        * f_equal. unfold mm, S_. apply lsum_div.
        * intros j Hj. unfold condition_on_obs. cbn [fst]. rewrite Hc1 by auto.
          destruct (Hy j Hj) as (Hpj & Hfj & _). destruct (Hfj k Hk) as (_ & ->).
          cbn [emul]. f_equal. field. repeat split; lra.
      + unfold filtering_operator. cbn [log_g]. unfold condition_on_obs. cbn [snd]. rewrite Hg, Hc2.
        cbn [eadd]. f_equal. unfold Rdiv. rewrite ln_mult, ln_Rinv; auto; [lra|].
        now apply Rinv_0_lt_compat.
  Qed.

  Lemma mm_assoc A B C : eqK (mm (mm A B) C) (mm A (mm B C)).
  Proof.
    intros i l Hi Hl. unfold mm, S_.
    transitivity (lsum (fun k => lsum (fun j => A i j * B j k * C k l) (seq 0 K)) (seq 0 K)).
    { apply lsum_seq_ext; intros. symmetry. apply lsum_scal_r. }
    rewrite lsum_swap. apply lsum_seq_ext. intros j Hj.
    rewrite <- lsum_scal. apply lsum_seq_ext. intros; ring.
  Qed.

  Lemma mm_eqK A A' B B' : eqK A A' -> eqK B B' -> eqK (mm A B) (mm A' B').
  Proof.
    intros HA HB i k Hi Hk. apply lsum_seq_ext. intros j Hj. now rewrite HA, HB.
  Qed.

  Definition idm : nat -> nat -> R := fun i j => if Nat.eqb i j then 1 else 0.
  Lemma mm_id_r A : eqK (mm A idm) A.
  Proof.
    intros i j Hi Hj. unfold mm, idm, S_.
    rewrite (lsum_seq_ext _ (fun k => if Nat.eqb k j then A i k else 0)).
    - now apply lsum_seq_delta'.
    - intros k Hk. destruct (Nat.eqb k j); lra.
  Qed.
  Lemma mm_id_l A : eqK (mm idm A) A.
  Proof.
    intros i j Hi Hj. unfold mm, idm, S_.
    rewrite (lsum_seq_ext _ (fun k => if Nat.eqb i k then A k j else 0)).
    - now apply (lsum_seq_delta (fun k => A k j)).
    - intros k Hk. destruct (Nat.eqb i k); lra.
  Qed.

  Fixpoint mprod (l : list (nat -> nat -> R)) : nat -> nat -> R :=
    match l with [] => idm | M :: l' => mm M (mprod l') end.

  Lemma eqK_refl M : eqK M M. Proof. now intros i j. Qed.
  Lemma eqK_sym M N : eqK M N -> eqK N M.
  Proof. intros H i j Hi Hj. symmetry. now apply H. Qed.
  Lemma eqK_trans M N P : eqK M N -> eqK N P -> eqK M P.
  Proof. intros H H' i j Hi Hj. rewrite H; auto. Qed.

  Lemma mprod_app l m : eqK (mprod (l ++ m)) (mm (mprod l) (mprod m)).
  Proof.
    induction l as [|M l IH]; simpl.
    - apply eqK_sym, mm_id_l.
    - eapply eqK_trans; [apply mm_eqK; [apply eqK_refl | exact IH]|].
      apply eqK_sym, mm_assoc.
  Qed.

  (** Interval invariant for both scans. *)
  Definition slice {A} (l : list A) (a b : nat) : list A := firstn (b - a) (skipn a l).

  Lemma slice_app {A} (l : list A) a b c :
    (a <= b)%nat -> (b <= c)%nat -> (c <= length l)%nat ->
    slice l a c = slice l a b ++ slice l b c.
  Proof.
    intros Hab Hbc Hc. unfold slice.
    replace (c - a)%nat with ((b - a) + (c - b))%nat by lia.
    rewrite <- (firstn_skipn (b - a) (skipn a l)) at 1.
    rewrite firstn_app, firstn_firstn.
    replace (Nat.min (b - a + (c - b)) (b - a)) with (b - a)%nat by lia.
    f_equal. rewrite firstn_length, skipn_length.
    replace (b - a + (c - b) - Nat.min (b - a) (length l - a))%nat with (c - b)%nat by lia.
    f_equal. rewrite skipn_skipn'. f_equal. lia.
  Qed.

  Lemma slice_one {A} (l : list A) i x : nth_error l i = Some x -> slice l i (S i) = [x].
  Proof. intros H. unfold slice. replace (S i - i)%nat with 1%nat by lia. now apply slice_nth. Qed.

  (** ** Walk sums *)
  Definition kern (s : step) : nat -> nat -> R := fun i j => tr s i j * lik s j.

  (** Sum over continuations of [x] of the walks that sit at [j] at relative time [s]. *)
  Definition walk_at (ss : list step) (s x j : nat) : R :=
    lsum (fun p => if Nat.eqb (nth s (x :: p) 0%nat) j then walk x ss p else 0) (paths K (length ss)).
  Definition walk_tot (ss : list step) (x : nat) : R :=
    lsum (walk x ss) (paths K (length ss)).

  Lemma walk_tot_cons s ss x : walk_tot (s :: ss) x = S_ (fun y => kern s x y * walk_tot ss y).
  Proof.
    unfold walk_tot. cbn [length paths]. rewrite lsum_flat_map. apply lsum_seq_ext. intros y Hy.
    rewrite lsum_map. cbn [walk]. unfold kern. now rewrite lsum_scal.
  Qed.

  Lemma walk_at_0 ss x j : walk_at ss 0 x j = if Nat.eqb x j then walk_tot ss x else 0.
  Proof.
    unfold walk_at, walk_tot. cbn [nth]. destruct (Nat.eqb x j); auto. apply lsum_zero.
  Qed.

  Lemma walk_at_S st ss s x j :
    walk_at (st :: ss) (S s) x j = S_ (fun y => kern st x y * walk_at ss s y j).
  Proof.
    unfold walk_at. cbn [length paths]. rewrite lsum_flat_map. apply lsum_seq_ext. intros y Hy.
    rewrite lsum_map, <- lsum_scal. apply lsum_ext. intros p _. cbn [nth walk]. unfold kern.
    destruct (Nat.eqb _ j); lra.
  Qed.

  Lemma walk_at_prod : forall s ss x j, (s <= length ss)%nat -> (x < K)%nat -> (j < K)%nat ->
    walk_at ss s x j = mprod (map kern (firstn s ss)) x j * walk_tot (skipn s ss) j.
  Proof.
    induction s as [|s IH]; intros ss x j Hs Hx Hj.
    - rewrite walk_at_0. cbn [firstn map mprod skipn]. unfold idm.
      destruct (Nat.eqb_spec x j) as [->|]; lra.
    - destruct ss as [|st ss]; simpl in Hs; [lia|].
      rewrite walk_at_S. cbn [firstn map mprod skipn]. unfold mm, S_. rewrite <- lsum_scal_r.
      apply lsum_seq_ext. intros y Hy. rewrite IH by (auto; lia). ring.
  Qed.

  Lemma joint_at_prod init ss s j : (s <= length ss)%nat -> (j < K)%nat ->
    joint_at K init ss s j =
    S_ (fun x => init x * mprod (map kern (firstn s ss)) x j) * walk_tot (skipn s ss) j.
  Proof.
    intros Hs Hj. unfold joint_at. cbn [paths]. rewrite lsum_flat_map. unfold S_. rewrite <- lsum_scal_r.
    apply lsum_seq_ext. intros x Hx. rewrite lsum_map.
    rewrite Rmult_assoc, <- walk_at_prod by auto. unfold walk_at. rewrite <- lsum_scal.
    apply lsum_ext. intros p _. cbn [joint]. destruct (Nat.eqb _ j); lra.
  Qed.

  Lemma paths_in n p : In p (paths K n) -> length p = n /\ Forall (fun x => (x < K)%nat) p.
  Proof.
    revert p; induction n; simpl; intros p Hp.
    - destruct Hp as [<-|[]]; auto.
    - apply in_flat_map in Hp. destruct Hp as (x & Hx & Hp). apply in_map_iff in Hp.
      destruct Hp as (q & <- & Hq). apply in_seq in Hx. destruct (IHn q Hq). simpl. split; [lia|].
      constructor; auto; lia.
  Qed.

  Lemma evidence_joint_at init ss s : (s <= length ss)%nat ->
    evidence K init ss = S_ (fun j => joint_at K init ss s j).
  Proof.
    intros Hs. unfold evidence, joint_at, S_. rewrite lsum_swap. apply lsum_ext. intros p Hp.
    destruct (paths_in _ _ Hp) as [Hl Hf].
    symmetry. apply (lsum_seq_delta (fun _ => joint init ss p) K (nth s p 0%nat)).
    apply (proj1 (Forall_forall _ _) Hf). apply nth_In. lia.
  Qed.

  Lemma walk_tot_nil j : walk_tot [] j = 1.
  Proof. unfold walk_tot. simpl. lra. Qed.
End WithK.
