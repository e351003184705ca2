(** C08, C09: exactly when the discrete filter and smoother return NaN. *)
From Coq Require Import Reals List Arith Lia Lra Classical.
From Verif Require Import Ext ScanModel DriverSpec DriverProofs DiscreteModel DiscreteSpec DiscreteHyp Sums
  DiscreteProofs DiscreteTheorems DiscreteWitness DiscreteNan.
Import ListNotations.
Open Scope R_scope.

Lemma lik_nonneg K A lls s j : good_step K A lls s -> (j < K)%nat -> 0 <= lik s j.
Proof.
  intros (_ & _ & Hl) Hj. specialize (Hl j Hj). destruct (lls j); simpl in Hl; try discriminate; injection Hl as <-;
    [left; apply exp_pos|lra].
Qed.
Lemma lsum_nonneg {A} (g : A -> R) l : (forall a, In a l -> 0 <= g a) -> 0 <= lsum g l.
Proof.
  induction l as [|a l IH]; intros H; [simpl; lra|]. cbn [lsum]. pose proof (H a (or_introl eq_refl)).
  assert (0 <= lsum g l); [|lra]. apply IH. intros b Hb. apply H. now right.
Qed.
Lemma nth_firstn_in {A} (l : list A) u t a : In a (firstn u l) -> nth_error (firstn u l) t = Some a -> 
  nth_error l t = Some a /\ (t < u)%nat.
Proof.
  intros _ H. revert u t H. induction l as [|b l IH]; intros [|u] [|t] H; simpl in *; try discriminate; auto.
  - split; [exact H|lia].
  - destruct (IH u t H). split; [assumption|lia].
Qed.

Lemma paths_bound K n p : In p (paths K n) -> Forall (fun x => (x < K)%nat) p.
Proof.
  revert p. induction n as [|n IH]; intros p H; simpl in H.
  - destruct H as [<-|[]]. constructor.
  - apply in_flat_map in H. destruct H as (x & Hx & H). apply in_map_iff in H. destruct H as (q & <- & Hq).
    constructor; [apply in_seq in Hx; lia|now apply IH].
Qed.
Definition step_nonneg K s : Prop := (forall i j, (i < K)%nat -> (j < K)%nat -> 0 <= tr s i j) /\ forall j, (j < K)%nat -> 0 <= lik s j.
Lemma walk_nonneg K ss : Forall (step_nonneg K) ss -> forall p x, (x < K)%nat -> Forall (fun x => (x < K)%nat) p -> 0 <= walk x ss p.
Proof.
  intros H. induction H as [|s ss [Ht Hl] _ IH]; intros p x Hx Hp; [simpl; lra|].
  destruct Hp as [|y p Hy Hp]; simpl; [lra|]. apply Rmult_le_pos; [apply Rmult_le_pos; auto|auto].
Qed.
Lemma joint_at_nonneg K init ss t j : (forall i, (i < K)%nat -> 0 <= init i) -> Forall (step_nonneg K) ss ->
  0 <= joint_at K init ss t j.
Proof.
  intros Hi Hs. unfold joint_at. apply lsum_nonneg. intros p Hp. destruct (Nat.eqb (nth t p 0%nat) j); [|lra].
  apply paths_bound in Hp. destruct Hp as [|x p Hx Hp]; simpl; [lra|]. apply Rmult_le_pos; [auto|].
  now apply (walk_nonneg K).
Qed.

(** C09: in both modes, the filter distribution at time [u] is the exact posterior if every step up to [u] has
    positive mass in every row (that is, from every state, reachable or not), and NaN in every entry otherwise; the
    log constant is then also NaN from the following step on. *)
Theorem C09_discrete_filter_exact (K : nat) {Inp Key} (split : Key -> nat -> list Key)
        (get_init_dist : Inp -> nat -> ext) (get_trans_matrix : Inp -> nat -> nat -> ext)
        (get_obs_lls : Inp -> nat -> ext)
        (x0 : Inp) (xs : list Inp) (init : nat -> R) (ss : list step)
        (parallel : bool) (key : option Key) :
  (0 < K)%nat -> split_ok split ->
  good_init K (get_init_dist x0) init ->
  Forall2 (fun x s => good_step K (get_trans_matrix x) (get_obs_lls x) s) xs ss ->
  exists states,
    filter split (discrete_build_filter K get_init_dist get_trans_matrix get_obs_lls)
           (x0 :: xs) parallel key = Ok states /\
    length states = S (length ss) /\
    forall u s, nth_error states u = Some s ->
      (Forall (rows_possible K) (firstn u ss) ->
         0 < evidence K init (firstn u ss) /\
         (forall j, (j < K)%nat -> fdist s j = Fin (posterior K init (firstn u ss) u j)) /\
         flog_normalizing_constant s = Fin (ln (evidence K init (firstn u ss)))) /\
      (~ Forall (rows_possible K) (firstn u ss) ->
         (forall j, (j < K)%nat -> fdist s j = NaN) /\
         (~ Forall (rows_possible K) (firstn (u - 1) ss) -> flog_normalizing_constant s = NaN)).
Proof.
  intros HK Hs Hi Hst.
  destruct (discrete_filter_prefix K HK split Hs get_init_dist get_trans_matrix get_obs_lls x0 xs init ss Hi Hst parallel key)
    as (sts & H1 & H2 & _ & H4).
  exists sts. split; [exact H1|]. split; [exact H2|]. intros u st Hu. split; [exact (H4 u st Hu)|].
  assert (Bad : forall v, ~ Forall (rows_possible K) (firstn v ss) -> exists t s x i, (t < v)%nat /\ nth_error xs t = Some x /\
     good_step K (get_trans_matrix x) (get_obs_lls x) s /\ (i < K)%nat /\ lsum (fun j => tr s i j * lik s j) (seq 0 K) = 0).
  { intros v Hv. apply not_all_not_ex. intros Hall. apply Hv. apply Forall_forall. intros s Hin.
    destruct (In_nth_error _ _ Hin) as [t Ht]. destruct (nth_firstn_in ss v t s Hin Ht) as [Ht' Htv].
    destruct (Forall2_nth_r _ _ _ _ _ Hst Ht') as (x & Hx & Hg).
    intros i Hik. destruct (Rlt_le_dec 0 (lsum (fun j => tr s i j * lik s j) (seq 0 K))) as [|Hle]; [assumption|exfalso].
    apply (Hall t). exists s, x, i. split; [assumption|]. split; [exact Hx|]. split; [exact Hg|]. split; [exact Hik|].
    apply Rle_antisym; [exact Hle|]. apply lsum_nonneg. intros j Hj. apply in_seq in Hj.
    apply Rmult_le_pos; [apply (proj1 Hg i Hik); lia|eapply lik_nonneg; [exact Hg|lia]]. }
  intros Hb. split.
  - destruct (Bad u Hb) as (t & s & x & i & Ht & Hx & Hg & Hik & Z).
    destruct (filter_nan K HK split Hs get_init_dist get_trans_matrix get_obs_lls x0 xs s x t i parallel key Hx Hg Hik Z)
      as (sts' & E & N). rewrite H1 in E. injection E as <-. apply (N u st Hu Ht).
  - intros Hb'. destruct (Bad (u - 1)%nat Hb') as (t & s & x & i & Ht & Hx & Hg & Hik & Z).
    destruct (filter_nan K HK split Hs get_init_dist get_trans_matrix get_obs_lls x0 xs s x t i parallel key Hx Hg Hik Z)
      as (sts' & E & N). rewrite H1 in E. injection E as <-. apply (N u st Hu); lia.
Qed.
Print Assumptions C09_discrete_filter_exact.

(** C08: in both modes, and for either way of passing the inputs, the smoother returns at time [u] the exact
    posterior if from [u] on every state has positive predictive probability, and NaN in every entry otherwise. *)
Definition predictive K init ss t s i : R := lsum (fun j => posterior K init (firstn t ss) t j * tr s j i) (seq 0 K).
Theorem C08_discrete_smoother_exact (K : nat) {Inp Key} (split : Key -> nat -> list Key)
        (get_init_dist : Inp -> nat -> ext) (get_trans_matrix : Inp -> nat -> nat -> ext)
        (get_obs_lls : Inp -> nat -> ext) (dummy_like : Inp -> Inp)
        (x0 : Inp) (xs : list Inp) (init : nat -> R) (ss : list step)
        (par1 : bool) (key1 : option Key) (par2 : bool) (key2 : option Key) :
  (0 < K)%nat -> split_ok split -> ss <> [] ->
  good_init K (get_init_dist x0) init ->
  Forall2 (fun x s => good_step K (get_trans_matrix x) (get_obs_lls x) s) xs ss ->
  Forall (rows_possible K) ss ->
  exists fstates sstates,
    filter split (discrete_build_filter K get_init_dist get_trans_matrix get_obs_lls)
           (x0 :: xs) par1 key1 = Ok fstates /\
    smoother split dummy_like fs_inputs (discrete_build_smoother K get_trans_matrix dummy_like)
             fstates (Some xs) par2 key2 = Ok sstates /\
    smoother split dummy_like fs_inputs (discrete_build_smoother K get_trans_matrix dummy_like)
             fstates None par2 key2 = Ok sstates /\
    length sstates = S (length ss) /\
    forall u st, nth_error sstates u = Some st -> forall j, (j < K)%nat ->
      ((forall t s i, (u <= t)%nat -> nth_error ss t = Some s -> (i < K)%nat -> 0 < predictive K init ss t s i) ->
         sdist st j = Fin (posterior K init ss u j)) /\
      ((exists t s i, (u <= t)%nat /\ nth_error ss t = Some s /\ (i < K)%nat /\ predictive K init ss t s i = 0) ->
         sdist st j = NaN).
Proof.
  intros HK Hs Hne Hi Hst Hr.
  destruct (discrete_smoother_suffix K HK split Hs get_init_dist get_trans_matrix get_obs_lls dummy_like
      x0 xs init ss Hi Hst Hr Hne par1 key1 par2 key2) as (fs & sts & H1 & H2 & H3 & H4 & H5).
  destruct (discrete_filter_exact K HK split Hs get_init_dist get_trans_matrix get_obs_lls x0 xs init ss Hi Hst Hr par1 key1)
    as (fs' & E & L & _ & F). rewrite H1 in E. injection E as <-.
  exists fs, sts. do 4 (split; [assumption|]). intros u st Hu j Hj. split.
  - intros Hp. apply (H5 u st Hu); [|exact Hj]. intros v Hv s i. apply (Hp v s i Hv).
  - intros (t & s & i & Hut & Hts & Hik & Z).
    destruct (Forall2_nth_r _ _ _ _ _ Hst Hts) as (x & Hx & (Hgs & Htr & Hl)).
    assert (Lx : length xs = length ss) by (clear - Hst; induction Hst; simpl; auto).
    assert (Ht : (t < length ss)%nat) by (apply nth_error_Some; congruence).
    destruct (nth_error fs t) as [f|] eqn:Ef; [|apply nth_error_None in Ef; lia].
    destruct (F t f Ef) as (Zp & Fd & _).
    destruct (smoother_nan K HK split Hs get_trans_matrix dummy_like fs xs t f x i
      (posterior K init (firstn t ss) t) (tr s) par2 key2 ltac:(lia) Ef Hx Hik) as (sts' & E & N).
    + intros k Hk. split; [now apply Fd|]. unfold posterior. apply Rmult_le_pos; [|left; now apply Rinv_0_lt_compat].
      apply joint_at_nonneg; [apply Hi|]. apply Forall_forall. intros s' Hin.
      destruct (In_nth_error _ _ Hin) as [v Hv]. destruct (nth_firstn_in ss t v s' Hin Hv) as [Hv' _].
      destruct (Forall2_nth_r _ _ _ _ _ Hst Hv') as (x' & _ & Hg'). split.
      * intros a b Ha Hb. now apply (proj1 Hg' a Ha).
      * intros b Hb. now apply (lik_nonneg K _ _ _ _ Hg').
    + intros a b Ha Hb. split; [now apply Htr|]. now apply (Hgs a Ha).
    + exact Z.
    + rewrite H2 in E. injection E as <-. now apply (N u st Hu).
Qed.
Print Assumptions C08_discrete_smoother_exact.

(** a case of C09: state 1 is absorbing and cannot emit the observation, so all distributions after time 0 are NaN,
    and all constants after time 1 *)
Example C09_case T parallel : exists states,
  filter (fun (k : nat) n => repeat k n) (discrete_build_filter 2 (fun _ : nat => fun j => if Nat.eqb j 0 then Fin 1 else Fin 0)
     (fun _ i j => if Nat.eqb i 1 then (if Nat.eqb j 1 then Fin 1 else Fin 0) else Fin (1/2))
     (fun _ j => if Nat.eqb j 1 then NInf else Fin 0)) (seq 0 (S T)) parallel None = Ok states /\ length states = S T /\
  forall u s, nth_error states u = Some s -> (0 < u)%nat -> fdist s 0%nat = NaN /\ ((1 < u)%nat -> flog_normalizing_constant s = NaN).
Proof.
  set (st := {| tr := fun i j => if Nat.eqb i 1 then (if Nat.eqb j 1 then 1 else 0) else 1/2;
                lik := fun j => if Nat.eqb j 1 then 0 else 1 |}).
  destruct (C09_discrete_filter_exact 2 (fun (k : nat) n => repeat k n)
     (fun _ : nat => fun j => if Nat.eqb j 0 then Fin 1 else Fin 0)
     (fun _ i j => if Nat.eqb i 1 then (if Nat.eqb j 1 then Fin 1 else Fin 0) else Fin (1/2))
     (fun _ j => if Nat.eqb j 1 then NInf else Fin 0) 0%nat (seq 1 T) (fun j => if Nat.eqb j 0 then 1 else 0)
     (repeat st T) parallel None) as (sts & E & L & H).
  - lia.
  - intros k n. apply repeat_length.
  - split; [split|].
    + intros i Hi. destruct (Nat.eqb i 0); lra.
    + cbn. lra.
    + intros j Hj. now destruct (Nat.eqb j 0).
  - assert (G : forall a, Forall2 (fun (_ : nat) s => good_step 2 (fun i j => if Nat.eqb i 1 then (if Nat.eqb j 1 then Fin 1 else Fin 0) else Fin (1/2))
       (fun j => if Nat.eqb j 1 then NInf else Fin 0) s) (seq a T) (repeat st T)); [|apply G].
    induction T as [|T IH]; intros a; [constructor|]. cbn [seq repeat]. constructor; [|apply IH].
    split; [|split].
    + intros i Hi. split; [intros j Hj|]; cbn [tr st].
      * destruct (Nat.eqb i 1), (Nat.eqb j 1); lra.
      * destruct (Nat.eqb i 1); cbn; lra.
    + intros i j Hi Hj. cbn [tr st]. now destruct (Nat.eqb i 1), (Nat.eqb j 1).
    + intros j Hj. cbn [lik st]. destruct (Nat.eqb j 1); cbn; [reflexivity|]. now rewrite exp_0.
  - exists sts. split; [exact E|]. rewrite repeat_length in L. split; [exact L|]. intros u s Hu Hp.
    assert (Hl : (u < length sts)%nat) by (apply nth_error_Some; congruence).
    assert (B : forall v, (0 < v <= T)%nat -> ~ Forall (rows_possible 2) (firstn v (repeat st T))).
    { intros v Hv F. destruct T as [|T']; [lia|]. destruct v as [|v]; [lia|]. cbn [repeat firstn] in F.
      apply Forall_inv in F. specialize (F 1%nat ltac:(lia)). cbn in F. lra. }
    destruct (H u s Hu) as [_ N]. destruct (N (B u ltac:(lia))) as [N1 N2]. split; [apply N1; lia|].
    intros Hu1. apply N2. apply B. lia.
Qed.

