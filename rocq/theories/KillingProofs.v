(** Killing resampling, effective sample size and adaptive resampling. *)
From Coq Require Import Reals List Arith ZArith Bool Lia Lra Permutation.
From Coquelicot Require Import Coquelicot.
From Verif Require Import Ext ScanModel ScanProofs DiscreteSpec Sums ResamplingModel ResamplingSpec
  ResamplingProofs SystematicProofs ConditionalProofs.
Import ListNotations.
Open Scope R_scope.

(** ** the maximum *)
Lemma emaxl_spec l : List.Forall is_logit l ->
  (emaxl l = NInf /\ List.Forall (fun e => e = NInf) l) \/
  (exists m, emaxl l = Fin m /\ In (Fin m) l /\ forall x, In (Fin x) l -> x <= m).
Proof.
  induction 1 as [|e l He _ IH]; [now left|]. cbn [emaxl].
  destruct He as [->|[x ->]].
  - destruct IH as [(-> & IH)|(m & -> & IH1 & IH2)].
    + left. split; [reflexivity|now constructor].
    + right. exists m. split; [reflexivity|]. split; [now right|]. intros y [H|H]; [discriminate|auto].
  - right. destruct IH as [(-> & IH)|(m & -> & IH1 & IH2)].
    + exists x. split; [reflexivity|]. split; [now left|]. intros y [H|H].
      * injection H as ->. lra.
      * rewrite Forall_forall in IH. specialize (IH _ H). discriminate.
    + exists (Rmax x m). split; [reflexivity|]. split.
      * unfold Rmax. destruct (Rle_dec x m); [now right|now left].
      * intros y [H|H]; [injection H as ->; apply Rmax_l|].
        apply Rle_trans with m; auto using Rmax_r.
Qed.
Lemma emaxl_valid l : valid_logits l ->
  exists m, emaxl l = Fin m /\ In (Fin m) l /\ forall e, In e l -> uw e <= exp m.
Proof.
  intros [H1 H2]. destruct (emaxl_spec l H1) as [(_ & H)|(m & A & B & C)].
  - rewrite Exists_exists in H2. destruct H2 as (e & He & x & ->). rewrite Forall_forall in H.
    specialize (H _ He). discriminate.
  - exists m. split; [easy|]. split; [easy|]. intros e He. rewrite Forall_forall in H1.
    destruct (H1 _ He) as [->|[x ->]]; simpl; [left; apply exp_pos|].
    destruct (C x He) as [H|H]; [left; now apply exp_increasing|right; now rewrite H].
Qed.

(** survival ratio *)
Definition ratio (l : list ext) (s : nat) : R :=
  match emaxl l with Fin m => uw (nth s l NInf) / exp m | _ => 0 end.
Lemma ratio_range l s : valid_logits l -> (s < length l)%nat -> 0 <= ratio l s <= 1.
Proof.
  intros H Hs. destruct (emaxl_valid l H) as (m & A & _ & C). unfold ratio. rewrite A.
  pose proof (exp_pos m). split.
  - apply Rmult_le_pos; [apply uw_nonneg|]. left. now apply Rinv_0_lt_compat.
  - apply Rle_div_l; [easy|]. rewrite Rmult_1_l. apply C. now apply nth_In.
Qed.
Lemma ratio_max l b s : valid_logits l -> (b < length l)%nat -> (s < length l)%nat ->
  (forall j, (j < length l)%nat -> wt l j <= wt l b) -> ratio l s = wt l s / wt l b.
Proof.
  intros H Hb Hs Hmax. destruct (emaxl_valid l H) as (m & A & B & C).
  pose proof (valid_sum_pos l H) as HS. unfold ratio. rewrite A.
  assert (E : uw (nth b l NInf) = exp m).
  { apply Rle_antisym; [apply C; now apply nth_In|].
    destruct (In_nth l _ NInf B) as (j & Hj & Ej). specialize (Hmax j Hj). unfold wt in Hmax.
    rewrite Ej in Hmax. simpl in Hmax. apply Rmult_le_reg_r with (/ lsum uw l); [|exact Hmax].
    now apply Rinv_0_lt_compat. }
  unfold wt. rewrite E. field. split; [lra|apply Rgt_not_eq, exp_pos].
Qed.
Lemma survived_iff l s v : valid_logits l -> (s < length l)%nat -> 0 <= v ->
  survived v (nth s l NaN) (emaxl l) = if Rle_dec v (ratio l s) then true else false.
Proof.
  intros H Hs Hv. destruct (emaxl_valid l H) as (m & A & B & C). unfold survived, ratio. rewrite A.
  rewrite (nth_indep _ NaN NInf) by easy.
  pose proof (exp_pos m) as Hm.
  destruct (valid_logit_nth l s H Hs) as [->|[x ->]]; simpl uw.
  - simpl. destruct (Rlt_dec 0 v) as [H0|H0].
    + simpl. destruct (Rle_dec v (0 / exp m)) as [D|D]; [|reflexivity].
      unfold Rdiv in D. rewrite Rmult_0_l in D. lra.
    + assert (v = 0) by lra. subst v. destruct (Req_EM_T 0 0) as [_|N]; [|elim N; reflexivity].
      simpl. destruct (Rle_dec 0 (0 / exp m)) as [D|D]; [reflexivity|].
      elim D. unfold Rdiv. rewrite Rmult_0_l. lra.
  - pose proof (exp_pos x) as Hx. assert (Er : exp x / exp m = exp (x - m)).
    { unfold Rminus. now rewrite exp_plus, exp_Ropp. }
    simpl. destruct (Rlt_dec 0 v) as [H0|H0].
    + simpl. rewrite Er. destruct (Rle_dec (ln v) (x + - m)) as [D|D].
      * destruct (Rle_dec v (exp (x - m))) as [F|F]; [reflexivity|]. elim F.
        rewrite <- (exp_ln v) by easy. destruct D as [D|D]; [left; now apply exp_increasing|right; now rewrite D].
      * destruct (Rle_dec v (exp (x - m))) as [F|F]; [|reflexivity]. elim D.
        rewrite <- (ln_exp (x + - m)). destruct F as [F|F]; [left; now apply ln_increasing|right; now rewrite F].
    + assert (v = 0) by lra. subst v. destruct (Req_EM_T 0 0) as [_|N]; [|elim N; reflexivity].
      simpl. destruct (Rle_dec 0 (exp x / exp m)) as [D|D]; [reflexivity|].
      elim D. rewrite Er. left; apply exp_pos.
Qed.

(** ** unbiasedness *)
Lemma killing_slot_law l s m o : valid_logits l -> (s < length l)%nat ->
  is_RInt (fun v => if Nat.eq_dec (killing_index l v s o) m then 1 else 0) 0 1
    (ratio l s * (if Nat.eq_dec s m then 1 else 0) + (1 - ratio l s) * (if Nat.eq_dec o m then 1 else 0)).
Proof.
  intros H Hs. pose proof (ratio_range l s H Hs) as Hr. set (r := ratio l s) in *.
  set (a := if Nat.eq_dec s m then 1 else 0). set (b := if Nat.eq_dec o m then 1 else 0).
  apply is_RInt_ext with (fun v => plus b (scal (a - b) (if Rle_dec v r then 1 else 0))).
  - intros v Hv. rewrite Rmin_left, Rmax_right in Hv by lra. unfold killing_index.
    rewrite survived_iff by (try easy; lra). fold r. unfold plus, scal; simpl; unfold mult; simpl.
    destruct (Rle_dec v r); fold a; fold b; ring.
  - apply is_RInt_val with (plus (scal (1 - 0) b) (scal (a - b) (clamp r))).
    + apply (is_RInt_plus (V:=R_NormedModule)); [apply (is_RInt_const (V:=R_NormedModule))|].
      apply (is_RInt_scal (V:=R_NormedModule)). apply is_RInt_indicator. intros u Hu.
      destruct (Rle_dec u r); split; intros; try reflexivity; lra.
    + unfold plus, scal, clamp; simpl; unfold mult; simpl. rewrite Rmin_right, Rmax_right by lra. ring.
Qed.
(** probability that slot [s] ends with parent [m], when the replacement index has law [wt l] *)
Definition slot_prob (l : list ext) (s m : nat) : R :=
  ratio l s * (if Nat.eq_dec s m then 1 else 0) + (1 - ratio l s) * wt l m.
Lemma killing_expectation l s m : valid_logits l -> (s < length l)%nat -> (m < length l)%nat ->
  is_RInt (fun v => lsum (fun o => wt l o * (if Nat.eq_dec (killing_index l v s o) m then 1 else 0))
                         (seq 0 (length l))) 0 1 (slot_prob l s m).
Proof.
  intros H Hs Hm.
  apply is_RInt_val with (lsum (fun o => scal (wt l o) (ratio l s * (if Nat.eq_dec s m then 1 else 0)
     + (1 - ratio l s) * (if Nat.eq_dec o m then 1 else 0))) (seq 0 (length l))).
  - apply is_RInt_lsum. intros o _. apply (is_RInt_scal (V:=R_NormedModule)). now apply killing_slot_law.
  - unfold scal; simpl; unfold mult; simpl.
    set (a := if Nat.eq_dec s m then 1 else 0). set (r := ratio l s). unfold slot_prob. fold a r.
    transitivity (lsum (fun o => (r * a) * wt l o + (1 - r) * (wt l o * (if Nat.eq_dec o m then 1 else 0)))
                       (seq 0 (length l))).
    { apply lsum_ext. intros; ring. }
    rewrite lsum_plus, !lsum_scal. rewrite <- (lsum_seq_delta' (wt l) (length l) m) by easy.
    pose proof (wt_sum l H) as W. unfold cdf in W. rewrite W.
    rewrite Rmult_1_r. f_equal. f_equal. apply lsum_ext. intros o _.
    destruct (Nat.eq_dec o m); [subst|]; try (rewrite Nat.eqb_refl); try (rewrite (proj2 (Nat.eqb_neq _ _)) by easy); ring.
Qed.
Lemma ratio_wt l : valid_logits l ->
  exists M, 0 < M /\ forall s, ratio l s = uw (nth s l NInf) / M.
Proof.
  intros H. destruct (emaxl_valid l H) as (m & A & B & C). exists (exp m). split; [apply exp_pos|].
  intros s. unfold ratio. now rewrite A.
Qed.
Lemma killing_total l m : valid_logits l -> (m < length l)%nat ->
  lsum (fun s => slot_prob l s m) (seq 0 (length l)) = INR (length l) * wt l m.
Proof.
  intros H Hm. destruct (ratio_wt l H) as (M & HM & ER). pose proof (valid_sum_pos l H) as HS.
  transitivity (lsum (fun s => (if Nat.eqb s m then ratio l s else 0) + (wt l m - ratio l s * wt l m))
                     (seq 0 (length l))).
  { apply lsum_ext. intros s _. unfold slot_prob. destruct (Nat.eq_dec s m) as [->|E].
    - rewrite Nat.eqb_refl. ring.
    - rewrite (proj2 (Nat.eqb_neq s m)) by easy. ring. }
  rewrite lsum_plus, (lsum_seq_delta' (ratio l)) by easy. rewrite lsum_minus, lsum_scal_r.
  assert (E1 : lsum (fun _ : nat => wt l m) (seq 0 (length l)) = INR (length l) * wt l m).
  { generalize (length l) as n. induction n; [simpl; ring|]. rewrite lsum_seq_S, S_INR, IHn. ring. }
  assert (E2 : lsum (ratio l) (seq 0 (length l)) = lsum uw l / M).
  { rewrite (lsum_nth_seq uw l NInf), <- lsum_div. apply lsum_ext. intros; apply ER. }
  rewrite E1, E2, ER. unfold wt. field. lra.
Qed.

(** ** pivot slot weights *)
Lemma set_at_map {A B} (f : A -> B) l i v : map f (set_at l i v) = set_at (map f l) i (f v).
Proof. revert i; induction l; intros [|i]; simpl; auto. now rewrite IHl. Qed.
Lemma log1mexp_logit e : is_logit e -> uw e <= 1 -> is_logit (log1mexp e) /\ uw (log1mexp e) = 1 - uw e.
Proof.
  intros He H1. unfold log1mexp. rewrite eexp_uw by easy. simpl.
  destruct (Rlt_dec 0 (1 + - uw e)) as [C|C].
  - split; [right; eauto|]. simpl. rewrite exp_ln by easy. ring.
  - destruct (Req_EM_T (1 + - uw e) 0) as [D|D]; [|lra]. split; [now left|]. simpl. lra.
Qed.
Lemma emaxl_sub_uw l m e : emaxl l = Fin m -> is_logit e -> uw (esub e (Fin m)) = uw e / exp m.
Proof. intros _ _. rewrite uw_shift, exp_Ropp. reflexivity. Qed.
Lemma lsum_set_at l i v : (i < length l)%nat ->
  lsum uw (set_at l i v) = lsum uw (set_at l i NInf) + uw v.
Proof.
  revert i. induction l as [|a l IH]; intros [|i] Hi; simpl in *; try lia; [ring|].
  rewrite IH by lia. ring.
Qed.
Lemma Forall_set_at l i v : List.Forall is_logit l -> is_logit v -> List.Forall is_logit (set_at l i v).
Proof.
  intros H. revert i. induction H; intros [|i] Hv; simpl; constructor; auto.
Qed.
Lemma killing_pivot_weights_eq l p : valid_logits l -> (p < length l)%nat ->
  exists pw : nat -> R,
    killing_pivot_weights l (length l) p = map (fun s => Fin (pw s)) (seq 0 (length l)) /\
    (forall s, (s < length l)%nat -> 0 <= pw s) /\
    lsum pw (seq 0 (length l)) = 1 /\
    (forall s, (s < length l)%nat -> s <> p -> pw s = (1 - ratio l s) / INR (length l)).
Proof.
  intros H Hp. destruct (emaxl_valid l H) as (m & A & B & C). unfold killing_pivot_weights. rewrite A.
  set (N := length l) in *. assert (HN : 0 < INR N) by (apply lt_0_INR; lia).
  set (pl0 := map (fun l0 => esub l0 (elog (Fin (INR N)))) _).
  assert (Elog : elog (Fin (INR N)) = Fin (ln (INR N))).
  { simpl. destruct (Rlt_dec 0 (INR N)) as [|n]; [reflexivity|lra]. }
  assert (P0 : List.Forall is_logit pl0 /\ length pl0 = N /\
     forall s, (s < N)%nat -> uw (nth s pl0 NInf) = (1 - ratio l s) / INR N).
  { unfold pl0. rewrite map_map, Elog. rewrite map_length. split; [|split; [reflexivity|]].
    - rewrite Forall_forall. intros e He. apply in_map_iff in He. destruct He as (e0 & <- & He).
      apply is_logit_shift, log1mexp_logit.
      + apply is_logit_shift. destruct H as [H _]. rewrite Forall_forall in H. auto.
      + rewrite uw_shift, exp_Ropp. apply Rle_div_l; [apply exp_pos|]. rewrite Rmult_1_l. auto.
    - intros s Hs. set (f := fun x => esub (log1mexp (esub x (Fin m))) (Fin (ln (INR N)))).
      rewrite (nth_indep _ NInf (f NInf)) by (now rewrite map_length). rewrite map_nth. unfold f.
      rewrite uw_shift, exp_Ropp, exp_ln by easy.
      assert (Hl : is_logit (nth s l NInf)) by now apply valid_logit_nth.
      assert (Hin : In (nth s l NInf) l) by now apply nth_In.
      destruct (log1mexp_logit (esub (nth s l NInf) (Fin m))) as (_ & ->).
      + now apply is_logit_shift.
      + rewrite uw_shift, exp_Ropp. apply Rle_div_l; [apply exp_pos|]. rewrite Rmult_1_l. auto.
      + rewrite uw_shift, exp_Ropp. unfold ratio. rewrite A. unfold Rdiv. ring. }
  destruct P0 as (P1 & P2 & P3). clearbody pl0.
  set (pl1 := set_at pl0 p NInf).
  assert (Q1 : List.Forall is_logit pl1) by (apply Forall_set_at; [easy|now left]).
  set (Q := lsum uw pl1).
  assert (Qs : Q = lsum (fun s => if Nat.eqb s p then 0 else (1 - ratio l s) / INR N) (seq 0 N)).
  { unfold Q. rewrite (lsum_nth_seq uw pl1 NInf). unfold pl1. rewrite set_at_length, P2.
    apply lsum_ext. intros s Hs. apply in_seq in Hs. destruct (Nat.eqb_spec s p) as [->|E].
    - rewrite set_at_same by lia. reflexivity.
    - rewrite set_at_other by congruence. apply P3. lia. }
  assert (Qr : 0 <= Q < 1).
  { split; [unfold Q; apply lsum_nonneg; intros; apply uw_nonneg|]. rewrite Qs.
    apply Rle_lt_trans with (lsum (fun s => if Nat.eqb s p then 0 else / INR N) (seq 0 N)).
    - apply lsum_le. intros s Hs. apply in_seq in Hs. destruct (Nat.eqb s p); [lra|].
      pose proof (ratio_range l s H ltac:(unfold N in *; lia)) as Hr. unfold Rdiv.
      rewrite <- (Rmult_1_l (/ INR N)) at 2. apply Rmult_le_compat_r; [left; now apply Rinv_0_lt_compat|lra].
    - assert (E : lsum (fun s => if Nat.eqb s p then 0 else / INR N) (seq 0 N) = 1 - / INR N).
      { transitivity (lsum (fun s => / INR N - (if Nat.eqb s p then / INR N else 0)) (seq 0 N)).
        - apply lsum_ext. intros s _. destruct (Nat.eqb s p); ring.
        - rewrite lsum_minus, (lsum_seq_delta' (fun _ => / INR N)) by easy. f_equal.
          assert (G : forall n c, lsum (fun _ : nat => c) (seq 0 n) = INR n * c).
          { induction n; intros c; [simpl; ring|]. rewrite lsum_seq_S, S_INR, IHn. ring. }
          rewrite G. field. lra. }
      rewrite E. assert (0 < / INR N) by now apply Rinv_0_lt_compat. lra. }
  assert (L1 : is_logit (logsumexp pl1) /\ uw (logsumexp pl1) = Q).
  { unfold logsumexp. rewrite esuml_uw by easy. fold Q. simpl.
    destruct (Rlt_dec 0 Q) as [D|D].
    - split; [right; eauto|]. simpl. now apply exp_ln.
    - destruct (Req_EM_T Q 0) as [F|F]; [|lra]. split; [now left|]. simpl. lra. }
  destruct L1 as (L1 & L2).
  destruct (log1mexp_logit (logsumexp pl1) L1 ltac:(lra)) as (M1 & M2). rewrite L2 in M2.
  set (pi := log1mexp (logsumexp pl1)) in *.
  assert (Epi : exists x, pi = Fin x).
  { destruct M1 as [M1|M1]; [|easy]. rewrite M1 in M2. simpl in M2. lra. }
  set (pl2 := set_at pl1 p pi).
  assert (Lp1 : length pl1 = N) by (unfold pl1; now rewrite set_at_length).
  assert (Lp2 : length pl2 = N) by (unfold pl2; now rewrite set_at_length).
  assert (R1 : valid_logits pl2).
  { split; [apply Forall_set_at; easy|]. rewrite Exists_exists. exists pi. split; [|easy].
    pose proof (nth_In pl2 NInf (n:=p) ltac:(lia)) as K. unfold pl2 in K at 1.
    rewrite set_at_same in K by lia. exact K. }
  assert (R2 : lsum uw pl2 = 1).
  { unfold pl2. rewrite lsum_set_at by lia.
    assert (E : set_at pl1 p NInf = pl1).
    { unfold pl1. clear. revert p. induction pl0; intros [|p]; simpl; auto. now rewrite IHpl0. }
    rewrite E. fold Q. lra. }
  exists (wt pl2). split; [|split; [|split]].
  - change (map (fun l0 => eexp (esub l0 (logsumexp pl2))) pl2) with (weights pl2).
    rewrite weights_valid by easy. now rewrite Lp2.
  - intros; now apply wt_nonneg.
  - rewrite <- (wt_sum pl2 R1), Lp2. reflexivity.
  - intros s Hs Hne. unfold wt. rewrite R2. unfold pl2, pl1.
    rewrite set_at_other, set_at_other by auto. rewrite P3 by easy. field. lra.
Qed.
Lemma killing_pivot_law l p : valid_logits l -> (p < length l)%nat ->
  exists pw : nat -> R,
    killing_pivot_weights l (length l) p = map (fun s => Fin (pw s)) (seq 0 (length l)) /\
    (forall s, (s < length l)%nat -> 0 <= pw s) /\
    lsum pw (seq 0 (length l)) = 1 /\
    (forall s, (s < length l)%nat -> slot_prob l s p = INR (length l) * wt l p * pw s).
Proof.
  intros H Hp. destruct (killing_pivot_weights_eq l p H Hp) as (pw & A & B & C & D).
  exists pw. split; [easy|]. split; [easy|]. split; [easy|].
  assert (HN : 0 < INR (length l)) by (apply lt_0_INR; lia).
  assert (G : forall s, (s < length l)%nat -> s <> p ->
     slot_prob l s p = INR (length l) * wt l p * pw s).
  { intros s Hs Hne. rewrite D by easy. unfold slot_prob.
    destruct (Nat.eq_dec s p) as [E|_]; [contradiction|]. field. lra. }
  intros s Hs. destruct (Nat.eq_dec s p) as [->|Hne]; [|auto].
  assert (T : lsum (fun s => slot_prob l s p - INR (length l) * wt l p * pw s) (seq 0 (length l)) = 0).
  { rewrite lsum_minus, lsum_scal, C, killing_total by easy. ring. }
  assert (T' : lsum (fun s => if Nat.eqb s p then slot_prob l s p - INR (length l) * wt l p * pw s else 0)
                    (seq 0 (length l)) = 0).
  { refine (eq_trans _ T). apply lsum_ext. intros t Ht. apply in_seq in Ht. destruct (Nat.eqb_spec t p) as [->|E]; [reflexivity|].
    rewrite (G t) by (try easy; lia). ring. }
  rewrite (lsum_seq_delta' (fun s => slot_prob l s p - INR (length l) * wt l p * pw s)) in T' by easy. lra.
Qed.

(** ** effective sample size *)
Lemma esub_fin a b : esub (Fin a) (Fin b) = Fin (a - b). Proof. reflexivity. Qed.
Lemma double_logit e : is_logit e -> is_logit (emul (Fin 2) e) /\ uw (emul (Fin 2) e) = uw e ^ 2.
Proof.
  intros [->|[x ->]]; simpl.
  - unfold inf_times. destruct (Rlt_dec 0 2); [|lra]. split; [now left|]. simpl. ring.
  - split; [right; eauto|]. rewrite Rmult_1_r, <- exp_plus. f_equal. ring.
Qed.
Lemma valid_double l : valid_logits l -> valid_logits (map (emul (Fin 2)) l).
Proof.
  intros [H1 H2]. split.
  - rewrite Forall_forall in *. intros e He. apply in_map_iff in He. destruct He as (e0 & <- & He).
    apply double_logit; auto.
  - rewrite Exists_exists in *. destruct H2 as (e & He & x & ->). exists (Fin (2 * x)).
    split; [|eauto]. apply in_map_iff. exists (Fin x). auto.
Qed.
Lemma lsum_double l : List.Forall is_logit l -> lsum uw (map (emul (Fin 2)) l) = lsum (fun e => uw e ^ 2) l.
Proof.
  intros H. rewrite lsum_map. apply lsum_ext. intros e He. rewrite Forall_forall in H.
  apply double_logit; auto.
Qed.
Lemma sumsq_pos l : valid_logits l -> 0 < lsum (fun e => uw e ^ 2) l.
Proof. intros H. rewrite <- lsum_double by apply H. apply valid_sum_pos. now apply valid_double. Qed.
Lemma log_ess_eq l : valid_logits l -> log_ess l = Fin (ln (ess_spec (map uw l))).
Proof.
  intros H. unfold log_ess. rewrite !logsumexp_valid by (try easy; now apply valid_double).
  simpl emul. rewrite esub_fin. f_equal. rewrite lsum_double by apply H.
  pose proof (valid_sum_pos l H). pose proof (sumsq_pos l H). unfold ess_spec. rewrite !lsum_map.
  unfold Rdiv. rewrite ln_mult, ln_Rinv; [|easy| |now apply Rinv_0_lt_compat].
  - replace (lsum (fun a => uw a) l) with (lsum uw l) by reflexivity.
    simpl (_ ^ 2) at 2. rewrite Rmult_1_r, ln_mult by easy. simpl. ring.
  - apply pow_lt. exact H0.
Qed.
Lemma ess_spec_pos l : valid_logits l -> 0 < ess_spec (map uw l).
Proof.
  intros H. unfold ess_spec. rewrite !lsum_map. apply Rdiv_lt_0_compat.
  - apply pow_lt. now apply valid_sum_pos.
  - now apply sumsq_pos.
Qed.
Lemma ess_eq l : valid_logits l -> ess l = Fin (ess_spec (map uw l)).
Proof.
  intros H. unfold ess. rewrite log_ess_eq by easy. simpl. now rewrite exp_ln by now apply ess_spec_pos.
Qed.
(** elementary inequalities on lists of nonnegative reals *)
Lemma sum_sq_ge v : List.Forall (fun x => 0 <= x) v -> lsum (fun x => x ^ 2) v <= (lsum (fun x => x) v) ^ 2.
Proof.
  induction 1 as [|a v Ha Hv IH]; simpl; [lra|]. simpl in IH.
  assert (0 <= lsum (fun x => x) v) by (apply lsum_nonneg; rewrite Forall_forall in Hv; auto).
  assert (0 <= a * lsum (fun x => x) v) by now apply Rmult_le_pos. nra.
Qed.
(** sum of squared deviations from a *)
Lemma dev_sum v a : lsum (fun x => (x - a) ^ 2) v =
  lsum (fun x => x ^ 2) v - 2 * a * lsum (fun x => x) v + INR (length v) * a ^ 2.
Proof. induction v as [|x v IH]; [simpl; ring|]. cbn [lsum length]. rewrite S_INR, IH. ring. Qed.
Lemma cauchy v : (0 < length v)%nat ->
  INR (length v) * lsum (fun x => x ^ 2) v - (lsum (fun x => x) v) ^ 2 =
  INR (length v) * lsum (fun x => (x - lsum (fun x => x) v / INR (length v)) ^ 2) v.
Proof.
  intros H. assert (0 < INR (length v)) by now apply lt_0_INR. rewrite dev_sum. field. lra.
Qed.
Lemma ess_bounds l : valid_logits l -> 1 <= ess_spec (map uw l) <= INR (length l).
Proof.
  intros H. unfold ess_spec. pose proof (sumsq_pos l H) as HQ.
  assert (HF : List.Forall (fun x => 0 <= x) (map uw l)).
  { rewrite Forall_forall. intros x Hx. apply in_map_iff in Hx. destruct Hx as (e & <- & _). apply uw_nonneg. }
  rewrite <- (lsum_map (fun x => x ^ 2) uw) in HQ. split.
  - apply Rle_div_r; [easy|]. rewrite Rmult_1_l. now apply sum_sq_ge.
  - apply Rle_div_l; [easy|]. pose proof (valid_length l H).
    pose proof (cauchy (map uw l) ltac:(rewrite map_length; lia)) as E. rewrite map_length in E.
    assert (0 <= INR (length l) * lsum (fun x => (x - lsum (fun x0 => x0) (map uw l) / INR (length l)) ^ 2) (map uw l)).
    { apply Rmult_le_pos; [apply pos_INR|]. apply lsum_nonneg. intros; apply pow2_ge_0. }
    lra.
Qed.
Lemma ess_max_iff l : valid_logits l ->
  (ess_spec (map uw l) = INR (length l) <->
   forall i j, (i < length l)%nat -> (j < length l)%nat -> wt l i = wt l j).
Proof.
  intros H. pose proof (valid_length l H) as HL. pose proof (valid_sum_pos l H) as HS.
  pose proof (sumsq_pos l H) as HQ. rewrite <- (lsum_map (fun x => x ^ 2) uw) in HQ.
  pose proof (cauchy (map uw l) ltac:(rewrite map_length; lia)) as E. rewrite map_length in E.
  assert (HN : 0 < INR (length l)) by now apply lt_0_INR.
  set (mu := lsum (fun x => x) (map uw l) / INR (length l)) in *.
  assert (K : ess_spec (map uw l) = INR (length l) <-> lsum (fun x => (x - mu) ^ 2) (map uw l) = 0).
  { unfold ess_spec. split; intros F.
    - apply (f_equal (fun x => x * lsum (fun x => x ^ 2) (map uw l))) in F.
      unfold Rdiv in F. rewrite Rmult_assoc, Rinv_l, Rmult_1_r in F by lra.
      assert (INR (length l) * lsum (fun x => (x - mu) ^ 2) (map uw l) = 0) by lra.
      apply Rmult_integral in H0. destruct H0; [lra|easy].
    - rewrite F, Rmult_0_r in E. apply Rmult_eq_reg_r with (lsum (fun x => x ^ 2) (map uw l)); [|lra].
      unfold Rdiv. rewrite Rmult_assoc, Rinv_l, Rmult_1_r by lra. lra. }
  rewrite K. clear K. split.
  - intros F i j Hi Hj. assert (G : forall k, (k < length l)%nat -> uw (nth k l NInf) = mu).
    { intros k Hk. assert (Z : (uw (nth k l NInf) - mu) ^ 2 = 0).
      { apply (lsum_zero_all (fun x => (x - mu) ^ 2) (map uw l)); [intros; apply pow2_ge_0|easy|].
        apply in_map. now apply nth_In. }
      simpl in Z. rewrite Rmult_1_r in Z. apply Rmult_integral in Z. lra. }
    unfold wt. now rewrite !G.
  - intros G. rewrite lsum_map, (lsum_nth_seq _ l NInf). refine (eq_trans _ (lsum_zero (seq 0 (length l)))).
    assert (U : forall k, (k < length l)%nat -> uw (nth k l NInf) = uw (nth 0 l NInf)).
    { intros k Hk. specialize (G k 0%nat Hk HL). unfold wt in G.
      apply Rmult_eq_reg_r in G; [easy|]. apply Rinv_neq_0_compat. lra. }
    apply lsum_ext. intros k Hk. apply in_seq in Hk. rewrite U by lia.
    assert (Em : mu = uw (nth 0 l NInf)).
    { unfold mu. rewrite lsum_map, (lsum_nth_seq _ l NInf).
      rewrite (lsum_ext _ (fun _ => uw (nth 0 l NInf))) by (intros q Hq; apply in_seq in Hq; apply U; lia).
      assert (Gs : forall n c, lsum (fun _ : nat => c) (seq 0 n) = INR n * c).
      { induction n; intros c; [simpl; ring|]. rewrite lsum_seq_S, S_INR, IHn. ring. }
      rewrite Gs. field. lra. }
    rewrite Em. ring.
Qed.
Lemma one_mass_sq v : List.Forall (fun x => 0 <= x) v ->
  lsum (fun x => x ^ 2) v = (lsum (fun x => x) v) ^ 2 ->
  forall i j, (i < j < length v)%nat -> nth i v 0 = 0 \/ nth j v 0 = 0.
Proof.
  induction 1 as [|a v Ha Hv IH]; intros E i j Hij; simpl in Hij; [lia|].
  assert (S0 : 0 <= lsum (fun x => x) v) by (apply lsum_nonneg; rewrite Forall_forall in Hv; auto).
  pose proof (sum_sq_ge v Hv) as G. cbn [lsum] in E.
  assert (P0 : 0 <= a * lsum (fun x => x) v) by now apply Rmult_le_pos.
  assert (Q : a * lsum (fun x => x) v = 0) by nra.
  destruct j as [|j]; [lia|]. destruct i as [|i]; simpl.
  - apply Rmult_integral in Q. destruct Q as [Q|Q]; [now left|right].
    apply (lsum_zero_all (fun x => x) v); [rewrite Forall_forall in Hv; auto|easy|].
    apply nth_In. lia.
  - apply IH; [nra|lia].
Qed.
Lemma ess_one_iff l : valid_logits l ->
  (ess_spec (map uw l) = 1 <-> exists i, (i < length l)%nat /\ wt l i = 1).
Proof.
  intros H. pose proof (valid_length l H) as HL. pose proof (valid_sum_pos l H) as HS.
  pose proof (sumsq_pos l H) as HQ.
  assert (HF : List.Forall (fun x => 0 <= x) (map uw l)).
  { rewrite Forall_forall. intros x Hx. apply in_map_iff in Hx. destruct Hx as (e & <- & _). apply uw_nonneg. }
  assert (NF : forall k, nth k (map uw l) 0 = uw (nth k l NInf)).
  { intros k. change 0 with (uw NInf). apply map_nth. }
  unfold ess_spec. rewrite !lsum_map. split.
  - intros E. assert (E' : lsum (fun x => x ^ 2) (map uw l) = (lsum (fun x => x) (map uw l)) ^ 2).
    { rewrite !lsum_map. apply (f_equal (fun x => x * lsum (fun e => uw e ^ 2) l)) in E.
      unfold Rdiv in E. rewrite Rmult_assoc, Rinv_l, Rmult_1_r, Rmult_1_l in E by lra. now symmetry. }
    destruct H as [_ He]. apply Exists_exists in He. destruct He as (e & He & x & ->).
    destruct (In_nth l _ NInf He) as (i & Hi & Ei). exists i. split; [easy|].
    assert (Z : forall j, (j < length l)%nat -> j <> i -> uw (nth j l NInf) = 0).
    { intros j Hj Hne. rewrite <- !NF. assert (Hpos : 0 < nth i (map uw l) 0) by (rewrite NF, Ei; apply uw_pos).
      destruct (lt_eq_lt_dec i j) as [[C|C]|C]; [|lia|].
      - destruct (one_mass_sq _ HF E' i j) as [D|D]; [rewrite map_length; lia|lra|easy].
      - destruct (one_mass_sq _ HF E' j i) as [D|D]; [rewrite map_length; lia|easy|lra]. }
    unfold wt. rewrite (lsum_nth_seq uw l NInf).
    rewrite (lsum_ext _ (fun j => if Nat.eqb j i then uw (nth j l NInf) else 0)).
    + rewrite (lsum_seq_delta' (fun j => uw (nth j l NInf))) by easy.
      rewrite Ei. pose proof (uw_pos x). field. lra.
    + intros j Hj. apply in_seq in Hj. destruct (Nat.eqb_spec j i); [easy|]. apply Z; [lia|easy].
  - intros (i & Hi & E). unfold wt in E.
    assert (E1 : uw (nth i l NInf) = lsum uw l).
    { apply (f_equal (fun x => x * lsum uw l)) in E. unfold Rdiv in E.
      rewrite Rmult_assoc, Rinv_l, Rmult_1_r, Rmult_1_l in E by lra. easy. }
    assert (Z : forall j, (j < length l)%nat -> j <> i -> uw (nth j l NInf) = 0).
    { intros j Hj Hne.
      assert (T : lsum (fun k => if Nat.eqb k i then 0 else uw (nth k l NInf)) (seq 0 (length l)) = 0).
      { transitivity (lsum (fun k => uw (nth k l NInf) - (if Nat.eqb k i then uw (nth k l NInf) else 0)) (seq 0 (length l))).
        - apply lsum_ext. intros k _. destruct (Nat.eqb k i); ring.
        - rewrite lsum_minus, <- (lsum_nth_seq uw l NInf), (lsum_seq_delta' (fun k => uw (nth k l NInf))) by easy. lra. }
      assert (T0 : forall k, In k (seq 0 (length l)) -> 0 <= (if Nat.eqb k i then 0 else uw (nth k l NInf))).
      { intros k _. destruct (Nat.eqb k i); [lra|apply uw_nonneg]. }
      pose proof (lsum_zero_all _ _ T0 T j) as K.
      cbv beta in K. rewrite (proj2 (Nat.eqb_neq j i)) in K by easy. apply K. apply in_seq. lia. }
    assert (E2 : lsum (fun e => uw e ^ 2) l = lsum uw l ^ 2).
    { rewrite (lsum_nth_seq (fun e => uw e ^ 2) l NInf).
      rewrite (lsum_ext _ (fun j => if Nat.eqb j i then uw (nth j l NInf) ^ 2 else 0)).
      - rewrite (lsum_seq_delta' (fun j => uw (nth j l NInf) ^ 2)) by easy. now rewrite E1.
      - intros j Hj. apply in_seq in Hj. destruct (Nat.eqb_spec j i); [easy|]. rewrite Z; [ring|lia|easy]. }
    rewrite E2. replace (lsum (fun a => uw a) l) with (lsum uw l) by reflexivity. field. lra.
Qed.
Lemma ess_shift l c : valid_logits l -> ess (map (fun e => eadd e (Fin c)) l) = ess l.
Proof.
  intros H. assert (E : map (fun e => eadd e (Fin c)) l = map (fun e => esub e (Fin (- c))) l).
  { apply map_ext. intros e. unfold esub. simpl. now rewrite Ropp_involutive. }
  rewrite E, !ess_eq by (try easy; now apply valid_shift). f_equal. unfold ess_spec.
  rewrite !lsum_map.
  rewrite (lsum_ext (fun a => uw (esub a (Fin (- c)))) (fun a => uw a * exp c)).
  rewrite (lsum_ext (fun a => uw (esub a (Fin (- c))) ^ 2) (fun a => uw a ^ 2 * (exp c ^ 2))).
  - rewrite !lsum_scal_r. pose proof (sumsq_pos l H). pose proof (exp_pos c).
    change (lsum (fun a => uw a) l) with (lsum uw l).
    set (A := lsum uw l) in *. set (B := lsum (fun e => uw e ^ 2) l) in *. set (C := exp c) in *.
    field. lra.
  - intros a _. rewrite uw_shift, Ropp_involutive. ring.
  - intros a _. rewrite uw_shift, Ropp_involutive. ring.
Qed.

(** ** adaptive resampling *)
Lemma adaptive_test l t : valid_logits l -> 0 < t ->
  eltb (log_ess l) (elog (Fin (t * INR (length l)))) =
  if Rlt_dec (ess_spec (map uw l)) (t * INR (length l)) then true else false.
Proof.
  intros H Ht. rewrite log_ess_eq by easy. pose proof (valid_length l H).
  assert (0 < t * INR (length l)) by (apply Rmult_lt_0_compat; [easy|now apply lt_0_INR]).
  pose proof (ess_spec_pos l H). unfold eltb, elog.
  destruct (Rlt_dec 0 (t * INR (length l))) as [_|n]; [|lra]. simpl.
  destruct (Rlt_dec (ln _) (ln _)) as [A|A], (Rlt_dec _ _) as [B|B]; try reflexivity.
  - elim B. now apply ln_lt_inv.
  - elim A. now apply ln_increasing.
Qed.
Lemma map2_nth_d {A B C} (f : A -> B -> C) d1 d2 d : forall l m i,
  (i < length l)%nat -> (i < length m)%nat -> nth i (map2 f l m) d = f (nth i l d1) (nth i m d2).
Proof.
  induction l as [|a l IH]; intros [|b m] [|i] H1 H2; simpl in *; try lia; [reflexivity|].
  apply IH; lia.
Qed.
