(** Lemmas about the resampling model. *)
From Coq Require Import Reals List Arith ZArith Bool Lia Lra Permutation.
From Verif Require Import Ext ScanModel ScanProofs DiscreteSpec Sums ResamplingModel ResamplingSpec.
Import ListNotations.
Open Scope R_scope.

(** ** weights *)
Lemma eexp_uw e : is_logit e -> eexp e = Fin (uw e).
Proof. intros [->|[x ->]]; reflexivity. Qed.
Lemma uw_nonneg e : 0 <= uw e.
Proof. destruct e; simpl; try lra. left; apply exp_pos. Qed.
Lemma uw_pos x : 0 < uw (Fin x).
Proof. apply exp_pos. Qed.
Lemma esuml_fin (l : list R) : esuml (map Fin l) = Fin (lsum (fun x => x) l).
Proof. induction l; simpl; [reflexivity|]. now rewrite IHl. Qed.
Lemma esuml_uw l : Forall is_logit l -> esuml (map eexp l) = Fin (lsum uw l).
Proof.
  induction 1; simpl; [reflexivity|]. rewrite eexp_uw by easy. now rewrite IHForall.
Qed.
Lemma valid_sum_pos l : valid_logits l -> 0 < lsum uw l.
Proof.
  intros [_ Hex]. apply Exists_exists in Hex. destruct Hex as (e & Hin & x & ->).
  apply lsum_pos with (Fin x); auto using uw_pos. intros; apply uw_nonneg.
Qed.
Lemma logsumexp_valid l : valid_logits l -> logsumexp l = Fin (ln (lsum uw l)).
Proof.
  intros H. unfold logsumexp. rewrite esuml_uw by apply H. simpl.
  destruct (Rlt_dec 0 (lsum uw l)) as [|n]; [reflexivity|]. elim n. now apply valid_sum_pos.
Qed.
Lemma weight_one l e : valid_logits l -> is_logit e ->
  eexp (esub e (logsumexp l)) = Fin (uw e / lsum uw l).
Proof.
  intros H He. rewrite logsumexp_valid by easy. pose proof (valid_sum_pos _ H).
  destruct He as [->|[x ->]]; simpl.
  - f_equal. unfold Rdiv. ring.
  - f_equal. rewrite exp_plus, exp_Ropp, exp_ln by easy. reflexivity.
Qed.
Lemma valid_logit_nth l i : valid_logits l -> (i < length l)%nat -> is_logit (nth i l NInf).
Proof. intros [H _] Hi. rewrite Forall_forall in H. apply H. now apply nth_In. Qed.
Lemma map_nth_seq {A B} (f : A -> B) (l : list A) d :
  map f l = map (fun i => f (nth i l d)) (seq 0 (length l)).
Proof.
  induction l; simpl; [reflexivity|]. f_equal. now rewrite IHl, <- seq_shift, map_map.
Qed.
Lemma weights_valid l : valid_logits l ->
  weights l = map (fun i => Fin (wt l i)) (seq 0 (length l)).
Proof.
  intros H. unfold weights. rewrite (map_nth_seq _ l NInf). apply map_ext_in. intros i Hi.
  apply in_seq in Hi. rewrite weight_one; [reflexivity|easy|]. apply valid_logit_nth; [easy|lia].
Qed.
Lemma weights_length l : length (weights l) = length l.
Proof. apply map_length. Qed.
Lemma valid_length l : valid_logits l -> (0 < length l)%nat.
Proof. intros [_ H]. destruct l; [inversion H|simpl; lia]. Qed.
Lemma wt_nonneg l i : valid_logits l -> 0 <= wt l i.
Proof.
  intros H. unfold wt. apply Rmult_le_pos; [apply uw_nonneg|]. left. apply Rinv_0_lt_compat.
  now apply valid_sum_pos.
Qed.
Lemma lsum_nth_seq {A} (f : A -> R) l d : lsum f l = lsum (fun i => f (nth i l d)) (seq 0 (length l)).
Proof.
  transitivity (lsum (fun x => x) (map f l)); [now rewrite lsum_map|].
  rewrite (map_nth_seq f l d), lsum_map. reflexivity.
Qed.
Lemma wt_sum l : valid_logits l -> cdf (wt l) (length l) = 1.
Proof.
  intros H. unfold cdf, wt. rewrite lsum_div, <- lsum_nth_seq. field.
  apply Rgt_not_eq. now apply valid_sum_pos.
Qed.

(** ** cumulative sums *)
Lemma cdf_0 w : cdf w 0 = 0. Proof. reflexivity. Qed.
Lemma cdf_S w i : cdf w (S i) = cdf w i + w i.
Proof. apply lsum_seq_S. Qed.
Lemma cdf_mono w i j : (forall k, 0 <= w k) -> (i <= j)%nat -> cdf w i <= cdf w j.
Proof.
  intros Hw. induction 1; [lra|]. rewrite cdf_S. specialize (Hw m). lra.
Qed.

(** ** inverse CDF: uniqueness of the specification *)
Lemma inverse_at_unique N w u i j :
  (forall k, 0 <= w k) -> inverse_at N w u i -> inverse_at N w u j -> i = j.
Proof.
  assert (A : forall i j, (forall k, 0 <= w k) -> inverse_at N w u i -> inverse_at N w u j ->
    (i < j)%nat -> False).
  { clear i j. intros i j Hw (H1 & H2 & H3) (H4 & H5 & H6) Hlt.
    destruct H5 as [->|H5]; [lia|]. destruct H3 as [H3| ->]; [|lia].
    pose proof (cdf_mono w (S i) j Hw Hlt). lra. }
  intros Hw Hi Hj. destruct (lt_eq_lt_dec i j) as [[H|H]|H]; auto; exfalso; eauto.
Qed.

Definition Fw (w : nat -> R) (N : nat) : list ext := map (fun i => Fin (w i)) (seq 0 N).
Lemma Fw_length w N : length (Fw w N) = N.
Proof. unfold Fw. now rewrite map_length, seq_length. Qed.
Lemma Fw_nth w N i : (i < N)%nat -> nth i (Fw w N) NaN = Fin (w i).
Proof.
  intros H. unfold Fw. rewrite (nth_indep _ NaN (Fin (w 0%nat))) by (now rewrite map_length, seq_length).
  rewrite (map_nth (fun i => Fin (w i))). now rewrite seq_nth.
Qed.

(** the numba loop *)
Lemma advance_spec w N u : forall fuel j,
  (j < N)%nat -> (N - 1 - j <= fuel)%nat ->
  (j = 0%nat \/ cdf w j < u) ->
  exists j', advance fuel u (Fw w N) j (Fin (cdf w (S j))) = (j', Fin (cdf w (S j'))) /\
    (j <= j')%nat /\ inverse_at N w u j'.
Proof.
  induction fuel as [|fuel IH]; intros j Hj Hf Hl; cbn [advance].
  - exists j. repeat split; auto. right; lia.
  - rewrite Fw_length. simpl egtb. destruct (Rlt_dec (cdf w (S j)) u) as [Hlt|Hge]; simpl andb.
    + destruct (Nat.ltb_spec j (N - 1)) as [Hj'|Hj'].
      * rewrite Fw_nth by lia. simpl eadd. rewrite <- (cdf_S w (S j)).
        destruct (IH (S j)) as (j' & E & L & I); [lia|lia|now right|].
        exists j'. split; [exact E|]. split; [lia|exact I].
      * exists j. repeat split; auto. right; lia.
    + exists j. repeat split; auto. left; lra.
Qed.

Lemma numba_loop_spec w N : (forall k, 0 <= w k) -> forall su j,
  sorted su -> (j < N)%nat ->
  (j = 0%nat \/ forall u, In u su -> cdf w j < u) ->
  length (numba_loop su (Fw w N) j (Fin (cdf w (S j)))) = length su /\
  forall n, (n < length su)%nat ->
    inverse_at N w (nth n su 0) (nth n (numba_loop su (Fw w N) j (Fin (cdf w (S j)))) 0%nat).
Proof.
  intros Hw. induction su as [|u r IH]; intros j Hs Hj Hl; cbn [numba_loop length].
  - split; [reflexivity|]. intros n Hn; lia.
  - rewrite Fw_length.
    destruct (advance_spec w N u N j) as (j' & E & L & I); [easy|lia| |].
    { destruct Hl as [Hl|Hl]; [now left|right; apply Hl; now left]. }
    rewrite E. destruct (IH j') as (IH1 & IH2).
    + intros a b Hab. apply (Hs (S a) (S b)). simpl; lia.
    + apply I.
    + destruct I as (I1 & [I2|I2] & I3); [now left|right].
      intros v Hv. destruct (In_nth r v 0 Hv) as (n & Hn & <-).
      apply Rlt_le_trans with u; [easy|]. apply (Hs 0%nat (S n)). simpl; lia.
    + split; [simpl; now rewrite IH1|]. intros [|n] Hn; simpl; [exact I|]. apply IH2; lia.
Qed.

Lemma clip_id N i : (i < N)%nat -> clip 0 (N - 1) i = i.
Proof. unfold clip. lia. Qed.

Lemma inverse_cdf_cpu_spec w N su : (0 < N)%nat -> (forall k, 0 <= w k) -> sorted su ->
  length (inverse_cdf_cpu su (Fw w N)) = length su /\
  forall n, (n < length su)%nat ->
    inverse_at N w (nth n su 0) (nth n (inverse_cdf_cpu su (Fw w N)) 0%nat).
Proof.
  intros HN Hw Hs. unfold inverse_cdf_cpu, inverse_cdf_numba. rewrite Fw_nth by easy.
  replace (Fin (w 0%nat)) with (Fin (cdf w 1)) by (rewrite cdf_S, cdf_0; f_equal; ring).
  destruct (numba_loop_spec w N Hw su 0 Hs HN (or_introl eq_refl)) as (A & B).
  rewrite map_length. split; [exact A|]. intros n Hn.
  rewrite (nth_indep _ 0%nat (clip 0 (length (Fw w N) - 1) 0)) by (rewrite map_length; lia).
  rewrite map_nth, Fw_length. specialize (B n Hn). rewrite clip_id; [exact B|]. apply B.
Qed.

(** the cumsum/searchsorted branch *)
Lemma cumsum_from_Fw w : forall N a s,
  cumsum_from (Fin s) (map (fun i => Fin (w i)) (seq a N)) =
  map (fun i => Fin (s + lsum w (seq a (S i)))) (seq 0 N).
Proof.
  induction N as [|N IH]; intros a s; [reflexivity|].
  cbn [seq map cumsum_from eadd]. f_equal; [simpl; f_equal; ring|].
  rewrite IH, <- seq_shift, map_map. apply map_ext. intros i. f_equal.
  change (seq a (S (S i))) with (a :: seq (S a) (S i)). cbn [lsum]. ring.
Qed.
Lemma cumsum_Fw w N : cumsum (Fw w N) = map (fun i => Fin (cdf w (S i))) (seq 0 N).
Proof.
  unfold cumsum, Fw. rewrite cumsum_from_Fw. apply map_ext. intros i. f_equal. unfold cdf. ring.
Qed.
Lemma filter_map_length {A B} (f : B -> bool) (g : A -> B) l :
  length (List.filter f (map g l)) = length (List.filter (fun a => f (g a)) l).
Proof. induction l; simpl; [reflexivity|]. destruct (f (g a)); simpl; now rewrite IHl. Qed.
Lemma filter_seq_prefix (p : nat -> bool) : forall N a k,
  (k <= N)%nat -> (forall i, (a <= i < a + k)%nat -> p i = true) ->
  (forall i, (a + k <= i < a + N)%nat -> p i = false) ->
  length (List.filter p (seq a N)) = k.
Proof.
  induction N as [|N IH]; intros a k Hk Ht Hf; [simpl; lia|].
  simpl. destruct k as [|k].
  - rewrite Hf by lia. apply IH; [lia|intros; lia|]. intros i Hi. apply Hf. lia.
  - rewrite Ht by lia. simpl. f_equal. apply IH; [lia| |];
    intros i Hi; [apply Ht|apply Hf]; lia.
Qed.
Lemma searchsorted_spec w N u i : (forall k, 0 <= w k) -> inverse_at N w u i ->
  clip 0 (N - 1) (searchsorted (cumsum (Fw w N)) u) = i.
Proof.
  intros Hw (H1 & H2 & H3). unfold searchsorted. rewrite cumsum_Fw, filter_map_length.
  assert (P : forall k, (k < i)%nat -> eltb (Fin (cdf w (S k))) (Fin u) = true).
  { intros k Hk. unfold eltb; simpl. destruct H2 as [->|H2]; [lia|].
    destruct (Rlt_dec (cdf w (S k)) u) as [|n]; [reflexivity|].
    elim n. pose proof (cdf_mono w (S k) i Hw Hk). lra. }
  assert (Q : forall k, (i <= k)%nat -> u <= cdf w (S i) -> eltb (Fin (cdf w (S k))) (Fin u) = false).
  { intros k Hk Hu. unfold eltb; simpl.
    destruct (Rlt_dec (cdf w (S k)) u) as [Hlt|]; [|reflexivity].
    pose proof (cdf_mono w (S i) (S k) Hw ltac:(lia)). lra. }
  destruct (Rle_dec u (cdf w (S i))) as [Hu|Hu].
  - rewrite (filter_seq_prefix _ N 0 i); [apply clip_id; lia|lia| |].
    + intros k Hk. apply P; lia.
    + intros k Hk. apply Q; [lia|easy].
  - destruct H3 as [H3|H3]; [lra|]. rewrite (filter_seq_prefix _ N 0 N); [unfold clip; lia|lia| |].
    + intros k Hk. destruct (Nat.eq_dec k i) as [->|]; [|apply P; lia].
      unfold eltb; simpl. destruct (Rlt_dec (cdf w (S i)) u) as [|n]; [reflexivity|]. elim n. lra.
    + intros k Hk. lia.
Qed.
Lemma inverse_at_exists N w u : (0 < N)%nat -> (forall k, 0 <= w k) -> exists i, inverse_at N w u i.
Proof.
  intros HN Hw. destruct (inverse_cdf_cpu_spec w N [u] HN Hw) as (_ & H).
  - intros a b Hab. simpl in Hab. replace a with 0%nat by lia. replace b with 0%nat by lia. lra.
  - eexists. apply (H 0%nat). simpl; lia.
Qed.
Lemma inverse_cdf_default_spec w N su : (0 < N)%nat -> (forall k, 0 <= w k) ->
  length (inverse_cdf_default su (Fw w N)) = length su /\
  forall n, (n < length su)%nat ->
    inverse_at N w (nth n su 0) (nth n (inverse_cdf_default su (Fw w N)) 0%nat).
Proof.
  intros HN Hw. unfold inverse_cdf_default. rewrite map_length, Fw_length. split; [reflexivity|].
  intros n Hn. rewrite (nth_indep _ 0%nat (clip 0 (N - 1) (searchsorted (cumsum (Fw w N)) 0)))
    by (rewrite map_length; lia).
  rewrite (map_nth (fun u => clip 0 (N - 1) (searchsorted (cumsum (Fw w N)) u))).
  destruct (inverse_at_exists N w (nth n su 0) HN Hw) as (i & Hi).
  rewrite (searchsorted_spec w N _ i Hw Hi). exact Hi.
Qed.

(** ** inverse_cdf as a whole *)
Lemma inverse_cdf_spec cpu su l : valid_logits l -> sorted su ->
  length (inverse_cdf cpu su l) = length su /\
  forall n, (n < length su)%nat ->
    inverse_at (length l) (wt l) (nth n su 0) (nth n (inverse_cdf cpu su l) 0%nat).
Proof.
  intros H Hs. unfold inverse_cdf. rewrite weights_valid by easy. fold (Fw (wt l) (length l)).
  destruct cpu.
  - apply inverse_cdf_cpu_spec; auto using valid_length, wt_nonneg.
  - apply inverse_cdf_default_spec; auto using valid_length, wt_nonneg.
Qed.
Lemma nth_list_ext {A} (l m : list A) d : length l = length m ->
  (forall n, (n < length l)%nat -> nth n l d = nth n m d) -> l = m.
Proof. intros. now apply nth_ext with d d. Qed.
Lemma inverse_cdf_unique cpu su l idx : valid_logits l -> sorted su -> length idx = length su ->
  (forall n, (n < length su)%nat -> inverse_at (length l) (wt l) (nth n su 0) (nth n idx 0%nat)) ->
  inverse_cdf cpu su l = idx.
Proof.
  intros H Hs HL Hi. destruct (inverse_cdf_spec cpu su l H Hs) as (A & B).
  apply nth_list_ext with 0%nat; [congruence|]. intros n Hn.
  apply (inverse_at_unique (length l) (wt l) (nth n su 0)).
  - intros; now apply wt_nonneg.
  - apply B; lia.
  - apply Hi; lia.
Qed.
Lemma inverse_cdf_platform su l : valid_logits l -> sorted su ->
  inverse_cdf true su l = inverse_cdf false su l.
Proof.
  intros H Hs. destruct (inverse_cdf_spec false su l H Hs) as (A & B).
  now apply inverse_cdf_unique.
Qed.
Lemma inverse_cdf_sorted cpu su l : valid_logits l -> sorted su -> sorted_nat (inverse_cdf cpu su l).
Proof.
  intros H Hs a b Hab. destruct (inverse_cdf_spec cpu su l H Hs) as (A & B).
  rewrite A in Hab. destruct (B a ltac:(lia)) as (A1 & A2 & A3). destruct (B b ltac:(lia)) as (B1 & B2 & B3).
  set (i := nth a (inverse_cdf cpu su l) 0%nat) in *. set (j := nth b (inverse_cdf cpu su l) 0%nat) in *.
  destruct (le_lt_dec i j) as [|Hlt]; [easy|exfalso].
  destruct A2 as [A2|A2]; [lia|]. destruct B3 as [B3|B3]; [|lia].
  pose proof (cdf_mono (wt l) (S j) i ltac:(intros; now apply wt_nonneg) Hlt).
  pose proof (Hs a b Hab). lra.
Qed.
Lemma inverse_cdf_range cpu su l i : valid_logits l -> sorted su ->
  In i (inverse_cdf cpu su l) -> (i < length l)%nat.
Proof.
  intros H Hs Hi. destruct (inverse_cdf_spec cpu su l H Hs) as (A & B).
  destruct (In_nth _ _ 0%nat Hi) as (n & Hn & <-). apply B. lia.
Qed.
(** for 0 < u <= 1 the selected weight is positive *)
Lemma inverse_at_pos l u i : valid_logits l -> 0 < u <= 1 ->
  inverse_at (length l) (wt l) u i -> 0 < wt l i.
Proof.
  intros H Hu (H1 & H2 & H3).
  assert (E1 : cdf (wt l) i < u).
  { destruct H2 as [->|]; [rewrite cdf_0; lra|easy]. }
  assert (E2 : u <= cdf (wt l) (S i)).
  { destruct H3 as [|E]; [easy|]. pose proof (valid_length _ H).
    rewrite E. replace (S (length l - 1)) with (length l) by lia. rewrite wt_sum by easy. lra. }
  rewrite cdf_S in E2. lra.
Qed.
(** for 0 < u <= 1 the specification is a half-open cell *)
Lemma inverse_at_cell l u i : valid_logits l -> 0 < u <= 1 ->
  (inverse_at (length l) (wt l) u i <->
   ((i < length l)%nat /\ cdf (wt l) i < u <= cdf (wt l) (S i))).
Proof.
  intros H Hu. split.
  - intros (H1 & H2 & H3). split; [easy|]. split.
    + destruct H2 as [->|]; [rewrite cdf_0; lra|easy].
    + destruct H3 as [|E]; [easy|]. pose proof (valid_length _ H).
      rewrite E. replace (S (length l - 1)) with (length l) by lia. rewrite wt_sum by easy. lra.
  - intros (H1 & H2 & H3). repeat split; auto.
Qed.
