From Coq Require Import Reals List Arith ZArith Bool Lia Lra Permutation.
From Verif Require Import Ext ScanModel ScanProofs DriverSpec DriverProofs DiscreteSpec Sums
  ResamplingModel ResamplingSpec ResamplingProofs ConditionalProofs KillingProofs SystematicProofs
  ConditionalLaw SmcModel SmcSpec.
Import ListNotations.
Open Scope R_scope.

Lemma shift_is_esub c l : shift_logits c l = map (fun e => esub e (Fin (- c))) l.
Proof. unfold shift_logits. apply map_ext. intros e. unfold esub. destruct e; simpl; auto. now rewrite Ropp_involutive. Qed.
Lemma valid_shift_logits c l : valid_logits l -> valid_logits (shift_logits c l).
Proof. rewrite shift_is_esub. apply valid_shift. Qed.
Lemma lsum_shift_logits c l : lsum uw (shift_logits c l) = lsum uw l * exp c.
Proof. rewrite shift_is_esub, lsum_uw_shift. now rewrite Ropp_involutive. Qed.
Lemma shift_length c l : length (shift_logits c l) = length l.
Proof. apply map_length. Qed.
Lemma wt_shift_logits c l i : valid_logits l -> (i < length l)%nat -> wt (shift_logits c l) i = wt l i.
Proof. intros. rewrite shift_is_esub. now apply wt_shift. Qed.
Lemma logsumexp_shift c l : valid_logits l ->
  logsumexp (shift_logits c l) = Fin (ln (lsum uw l) + c).
Proof.
  intros H. rewrite logsumexp_valid by now apply valid_shift_logits.
  rewrite lsum_shift_logits, ln_mult, ln_exp; auto using exp_pos. now apply valid_sum_pos.
Qed.
Lemma zeros_valid n : (0 < n)%nat -> valid_logits (zeros n).
Proof.
  intros H. split.
  - apply Forall_forall. intros x Hx. apply repeat_spec in Hx. right. now exists 0.
  - apply Exists_exists. exists (Fin 0). split; eauto. destruct n; [lia|]. now left.
Qed.
Lemma lsum_uw_zeros n : lsum uw (zeros n) = INR n.
Proof.
  induction n; [reflexivity|]. change (zeros (S n)) with (Fin 0 :: zeros n). rewrite S_INR.
  simpl lsum. rewrite IHn. simpl. rewrite exp_0. lra.
Qed.
Lemma map2_length {A B C} (f : A -> B -> C) : forall l m, length l = length m -> length (map2 f l m) = length l.
Proof. induction l; destruct m; simpl; intros; auto; discriminate. Qed.

Lemma map2_len {A B C} (f : A -> B -> C) : forall l m, length (map2 f l m) = Nat.min (length l) (length m).
Proof. induction l; destruct m; simpl; auto. Qed.

Lemma eadd_logit_inv a b : is_logit (eadd a b) -> is_logit b -> is_logit a.
Proof. intros H [->|[x ->]]; destruct a; simpl in *; destruct H as [H|[y H]]; try discriminate; try (now left); right; eauto. Qed.
Lemma uw_eadd a b : is_logit a -> is_logit b -> uw (eadd a b) = uw a * uw b.
Proof. intros [->|[x ->]] [->|[y ->]]; simpl; try lra. apply exp_plus. Qed.
Lemma eadd_logit a b : is_logit a -> is_logit b -> is_logit (eadd a b).
Proof. intros [->|[x ->]] [->|[y ->]]; simpl; (now left) || (right; eauto). Qed.

(** the evidence increment as a weighted average *)
Lemma increment_eq pots lw : length pots = length lw -> valid_logits lw -> valid_logits (map2 eadd pots lw) ->
  esub (logsumexp (map2 eadd pots lw)) (logsumexp lw)
  = Fin (ln (weighted_average lw (fun i => nth i pots NaN))).
Proof.
  intros Hl Hv Hn. rewrite !logsumexp_valid by assumption.
  unfold esub; simpl. f_equal. unfold weighted_average.
  assert (E : lsum (fun i => wt lw i * uw (nth i pots NaN)) (seq 0 (length lw))
              = lsum uw (map2 eadd pots lw) / lsum uw lw).
  { rewrite <- lsum_div. rewrite (lsum_nth_seq _ _ NInf), map2_length, Hl by assumption.
    apply lsum_seq_ext. intros i Hi. unfold wt.
    rewrite (map2_nth_d eadd NaN NInf NInf) by lia.
    assert (Hli : is_logit (nth i lw NInf)) by (now apply valid_logit_nth).
    assert (Hs : is_logit (nth i (map2 eadd pots lw) NInf)) by (apply valid_logit_nth; [assumption|rewrite map2_length; lia]).
    rewrite (map2_nth_d eadd NaN NInf NInf) in Hs by lia.
    rewrite uw_eadd; [unfold Rdiv; ring| |assumption]. now apply (eadd_logit_inv _ (nth i lw NInf)). }
  rewrite E. unfold Rdiv. rewrite ln_mult, ln_Rinv; auto using valid_sum_pos, Rinv_0_lt_compat. 
Qed.

Lemma bind_ok {A B} (r : result A) (f : A -> result B) b : bind r f = Ok b -> exists a, r = Ok a /\ f a = Ok b.
Proof. destruct r; simpl; intros H; [eauto|discriminate]. Qed.

(** ** Runs of filters whose states may be errors *)
Section Runs.
  Context {Inp Key St : Type}.
  Variable split : Key -> nat -> list Key.
  Hypothesis Hsplit : split_ok split.
  Variable initp prep : Inp -> option Key -> result St.
  Variable comb : St -> St -> result St.
  Let obj : Filter Inp Key (result St) :=
    {| init_prepare := initp; filter_prepare := prep;
       filter_combine := fun r1 r2 => bind r1 (fun s1 => bind r2 (fun s2 => comb s1 s2)) |}.
  Lemma run_steps inputs key states :
    filter split obj inputs false (Some key) = Ok (map Ok states) ->
    length states = length inputs /\
    (forall x, nth_error inputs 0 = Some x ->
       exists k s, nth_error (split key (length inputs)) 0 = Some k /\
                   initp x (Some k) = Ok s /\ nth_error states 0 = Some s) /\
    (forall t x s, nth_error inputs (S t) = Some x -> nth_error states t = Some s ->
       exists k p s', nth_error (split key (length inputs)) (S t) = Some k /\
                      prep x (Some k) = Ok p /\ comb s p = Ok s' /\ nth_error states (S t) = Some s').
  Proof using Hsplit.
    intros H. destruct inputs as [|a inputs0] eqn:Ei; [discriminate|]. rewrite <- Ei in *.
    destruct (filter_sequential split Hsplit obj inputs (Some key) ltac:(subst; discriminate)) as (st & E & L & R0 & RS).
    rewrite E in H. injection H as ->. rewrite map_length in L. split; [exact L|].
    assert (Hk : forall t, (t < length inputs)%nat -> exists k, nth_error (split key (length inputs)) t = Some k).
    { intros t Ht. destruct (nth_error (split key (length inputs)) t) eqn:En; [eauto|].
      apply nth_error_None in En. rewrite Hsplit in En. lia. }
    split.
    - intros x Hx. specialize (R0 x Hx). destruct (Hk 0%nat) as (k & Hk0); [subst; simpl; lia|].
      rewrite nth_error_map in R0. unfold child_key in R0. rewrite Hk0 in R0.
      destruct (nth_error states 0) as [s|] eqn:Es; [|discriminate]. simpl in R0.
      injection R0 as R0. exists k, s. auto.
    - intros t x s Hx Hs. specialize (RS t x (Ok s) Hx).
      rewrite !nth_error_map, Hs in RS. specialize (RS eq_refl).
      destruct (Hk (S t)) as (k & Hkt). { apply nth_error_Some. congruence. }
      unfold child_key in RS. rewrite Hkt in RS.
      destruct (nth_error states (S t)) as [s'|] eqn:Es; [|discriminate]. simpl in RS.
      injection RS as RS. symmetry in RS. apply bind_ok in RS. destruct RS as (p & Hp & Hc).
      exists k, p, s'. auto.
  Qed.
End Runs.

Lemma shift_map2 pots lw g : length pots = length lw ->
  (forall i, (i < length lw)%nat -> nth i pots NaN = Fin g) -> map2 eadd pots lw = shift_logits g lw.
Proof.
  revert lw. induction pots as [|a pots IH]; destruct lw as [|b lw]; simpl; intros L H; auto; try discriminate.
  rewrite IH; [|lia|intros i Hi; apply (H (S i)); lia].
  rewrite (H 0%nat ltac:(lia)). unfold shift_logits. simpl. f_equal. destruct b; simpl; auto. f_equal. lra.
Qed.

Section PF.
  Context {Key X Inp : Type}.
  Variable dX : X.
  Variable split : Key -> nat -> list Key.
  Hypothesis Hsplit : split_ok split.
  Variable init_sample : Key -> Inp -> X.
  Variable propagate_sample : Key -> X -> Inp -> X.
  Variable log_potential : X -> X -> Inp -> ext.
  Variable resampling_fn : Resampling Key X.
  Hypothesis Hres : resampler_ok dX resampling_fn.
  Variable N : nat.
  Hypothesis HN : (0 < N)%nat.
  Variable dummy : X.
  Let init := pf_init_prepare split init_sample N.
  Let prep := pf_filter_prepare (Key:=Key) (X:=X) (Inp:=Inp) N dummy.
  Let comb := pf_filter_combine split propagate_sample log_potential resampling_fn.
  Let pf := pf_build_filter split init_sample propagate_sample log_potential resampling_fn N dummy.

  Definition wf (s : PFState Key X Inp) :=
    length (pf_particles s) = N /\ length (pf_log_weights s) = N.

  Lemma init_facts x k s : init x (Some k) = Ok s ->
    wf s /\ valid_logits (pf_log_weights s) /\ pf_log_normalizing_constant s = Fin 0 /\
    pf_model_inputs s = x /\ pf_key s = k /\
    pf_particles s = map (fun k' => init_sample k' x) (split k N).
  Proof using Hsplit HN.
    unfold init, pf_init_prepare. intros H. injection H as <-. unfold wf. simpl.
    rewrite map_length, Hsplit. unfold zeros at 1. rewrite repeat_length.
    split; [easy|]. split; [now apply zeros_valid|]. split; [|auto].
    rewrite logsumexp_valid, lsum_uw_zeros by now apply zeros_valid.
    assert (0 < INR N) by (apply lt_0_INR; lia). unfold elog. destruct (Rlt_dec 0 (INR N)); [|lra].
    unfold esub; simpl. f_equal. lra.
  Qed.

  (** everything one combination does *)
  Lemma comb_facts s p s' : wf s -> valid_logits (pf_log_weights s) -> comb s p = Ok s' ->
    exists k0 ks idx lw anc,
      split (pf_key s) (N + 1) = k0 :: ks /\
      resampling_fn k0 (pf_log_weights s) (pf_particles s) N = Ok (idx, lw, anc) /\
      wf s' /\ length anc = N /\ length lw = N /\ length idx = N /\ valid_logits lw /\
      pf_key s' = pf_key p /\ pf_model_inputs s' = pf_model_inputs p /\
      pf_ancestor_indices s' = idx /\
      pf_particles s' = map2 (fun k x => propagate_sample k x (pf_model_inputs p)) ks anc /\
      (forall i d, (i < N)%nat ->
         nth i (pf_log_weights s') d =
         eadd (log_potential (nth i anc dX) (nth i (pf_particles s') dX) (pf_model_inputs p)) (nth i lw NInf)) /\
      pf_log_weights s' = map2 eadd (map2 (fun a x => log_potential a x (pf_model_inputs p)) anc (pf_particles s')) lw /\
      (forall j, (j < N)%nat -> (nth j idx 0 < N)%nat /\ nth j anc dX = nth (nth j idx 0%nat) (pf_particles s) dX) /\
      pf_log_normalizing_constant s' =
        eadd (esub (logsumexp (pf_log_weights s')) (logsumexp lw)) (pf_log_normalizing_constant s).
  Proof using Hres HN Hsplit.
    intros [W1 W2] Hv. unfold comb, pf_filter_combine. rewrite W2.
    destruct (split (pf_key s) (N + 1)) as [|k0 ks] eqn:Es; [discriminate|].
    assert (Lks : length ks = N). { pose proof (Hsplit (pf_key s) (N + 1)%nat) as L. rewrite Es in L. simpl in L. lia. }
    intros H. apply bind_ok in H. destruct H as ([[idx lw] anc] & Hr & H).
    destruct (Hres _ _ _ _ _ _ _ Hv (eq_trans W1 (eq_sym W2)) HN Hr) as (L1 & L2 & L3 & Hlw & Hj).
    rewrite Lks, L3, L2, Nat.eqb_refl in H. simpl in H. injection H as <-. simpl.
    exists k0, ks, idx, lw, anc. unfold wf. simpl.
    repeat match goal with |- _ /\ _ => split end; auto; try lia;
      try (rewrite ?map2_len; lia).
    - intros i d Hi.
      rewrite (map2_nth_d eadd NaN NInf) by (rewrite ?map2_len; lia).
      rewrite (map2_nth_d _ dX dX) by (rewrite ?map2_len; lia). reflexivity.
    - intros j Hjn. rewrite <- W2 at 1. now apply Hj.
  Qed.

  (** C32: the evidence as a sum of log weighted averages *)
  Lemma pf_evidence inputs key states :
    filter split pf inputs false (Some key) = Ok (map Ok states) ->
    (forall t s, nth_error states t = Some s -> valid_logits (pf_log_weights s)) ->
    exists inc : nat -> R,
      (forall t s s', nth_error states t = Some s -> nth_error states (S t) = Some s' ->
         exists k0 ks idx lw anc,
           split (pf_key s) (N + 1) = k0 :: ks /\
           resampling_fn k0 (pf_log_weights s) (pf_particles s) N = Ok (idx, lw, anc) /\
           inc t = ln (weighted_average lw (fun i =>
                     log_potential (nth i anc dX) (nth i (pf_particles s') dX) (pf_model_inputs s')))) /\
      (forall t s, nth_error states t = Some s ->
         pf_log_normalizing_constant s = Fin (lsum inc (seq 0 t))).
  Proof using Hres HN Hsplit.
    intros Hrun Hval. destruct (run_steps split Hsplit _ _ _ _ _ _ Hrun) as (L & H0 & HS).
    assert (Hwf : forall t s, nth_error states t = Some s -> wf s).
    { induction t as [|t IH]; intros s Hs.
      - destruct (nth_error inputs 0) as [x|] eqn:Ex.
        + destruct (H0 x eq_refl) as (k & s0 & _ & Hi & Hs0). rewrite Hs in Hs0. injection Hs0 as ->.
          apply (init_facts _ _ _ Hi).
        + apply nth_error_None in Ex. assert (0 < length states)%nat by (apply nth_error_Some; congruence). lia.
      - assert (Hlt : (S t < length states)%nat) by (apply nth_error_Some; congruence).
        destruct (nth_error inputs (S t)) as [x|] eqn:Ex; [|apply nth_error_None in Ex; lia].
        destruct (nth_error states t) as [s0|] eqn:Es0; [|apply nth_error_None in Es0; lia].
        destruct (HS t x s0 Ex Es0) as (k & p & s' & _ & Hp & Hc & Hs'). rewrite Hs in Hs'. injection Hs' as ->.
        destruct (comb_facts _ _ _ (IH _ eq_refl) (Hval _ _ Es0) Hc) as (? & ? & ? & ? & ? & _ & _ & W & _). exact W. }
    set (v := fun t => match nth_error states t with Some s => fin_val (pf_log_normalizing_constant s) | None => 0 end).
    exists (fun t => v (S t) - v t).
    assert (Hfin : forall t s, nth_error states t = Some s -> exists r, pf_log_normalizing_constant s = Fin r).
    { induction t as [|t IH]; intros s Hs.
      - destruct (nth_error inputs 0) as [x|] eqn:Ex.
        + destruct (H0 x eq_refl) as (k & s0 & _ & Hi & Hs0). rewrite Hs in Hs0. injection Hs0 as ->.
          destruct (init_facts _ _ _ Hi) as (_ & _ & Hz & _). eauto.
        + apply nth_error_None in Ex. assert (0 < length states)%nat by (apply nth_error_Some; congruence). lia.
      - assert (Hlt : (S t < length states)%nat) by (apply nth_error_Some; congruence).
        destruct (nth_error inputs (S t)) as [x|] eqn:Ex; [|apply nth_error_None in Ex; lia].
        destruct (nth_error states t) as [s0|] eqn:Es0; [|apply nth_error_None in Es0; lia].
        destruct (HS t x s0 Ex Es0) as (k & p & s' & _ & Hp & Hc & Hs'). pose proof Hs as Hs2. rewrite Hs in Hs'. injection Hs' as ->.
        destruct (comb_facts _ _ _ (Hwf _ _ Es0) (Hval _ _ Es0) Hc) as
          (k0 & ks & idx & lw & anc & _ & _ & _ & _ & _ & _ & Hlw & _ & _ & _ & _ & _ & _ & _ & Hz).
        destruct (IH _ eq_refl) as (r & Hr). rewrite Hz, Hr, !logsumexp_valid; auto; [|now apply (Hval (S t))]. simpl. eauto. }
    assert (Hstep : forall t s s', nth_error states t = Some s -> nth_error states (S t) = Some s' ->
         exists k0 ks idx lw anc,
           split (pf_key s) (N + 1) = k0 :: ks /\
           resampling_fn k0 (pf_log_weights s) (pf_particles s) N = Ok (idx, lw, anc) /\
           v (S t) - v t = ln (weighted_average lw (fun i =>
                     log_potential (nth i anc dX) (nth i (pf_particles s') dX) (pf_model_inputs s')))).
    { intros t s s' Hs Hs'.
      destruct (nth_error inputs (S t)) as [x|] eqn:Ex.
      2:{ apply nth_error_None in Ex. assert (S t < length states)%nat by (apply nth_error_Some; congruence). lia. }
      destruct (HS t x s Ex Hs) as (k & p & s2 & _ & Hp & Hc & Hs2). rewrite Hs' in Hs2. injection Hs2 as <-.
      destruct (comb_facts _ _ _ (Hwf _ _ Hs) (Hval _ _ Hs) Hc) as
        (k0 & ks & idx & lw & anc & E1 & E2 & W' & La & Ll & Li & Hlw & Hk & Hin & Hai & Hp' & Hnth & Hnl & Hanc & Hz).
      exists k0, ks, idx, lw, anc. split; [exact E1|]. split; [exact E2|].
      unfold v. rewrite Hs, Hs'.
      destruct (Hfin _ _ Hs) as (r & Hr). rewrite Hr in *.
      pose proof (Hval _ _ Hs') as Hv'. rewrite Hz. rewrite Hnl in Hv' |- *.
      rewrite increment_eq; auto; [|rewrite ?map2_len; destruct W'; lia].
      simpl. rewrite Hin. ring_simplify. f_equal. unfold weighted_average. apply lsum_seq_ext. intros i Hi.
      rewrite (map2_nth_d _ dX dX) by (destruct W'; lia). reflexivity. }
    split; [exact Hstep|].
    induction t as [|t IH]; intros s Hs.
    - destruct (nth_error inputs 0) as [x|] eqn:Ex.
      + destruct (H0 x eq_refl) as (k & s0 & _ & Hi & Hs0). rewrite Hs in Hs0. injection Hs0 as ->.
        destruct (init_facts _ _ _ Hi) as (_ & _ & Hz & _). exact Hz.
      + apply nth_error_None in Ex. assert (0 < length states)%nat by (apply nth_error_Some; congruence). lia.
    - assert (Hlt : (S t < length states)%nat) by (apply nth_error_Some; congruence).
      destruct (nth_error states t) as [s0|] eqn:Es0; [|apply nth_error_None in Es0; lia].
      rewrite lsum_seq_S. specialize (IH _ eq_refl). destruct (Hfin _ _ Hs) as (r & Hr).
      unfold v at 3 4. rewrite Hs, Es0, IH, Hr. simpl. f_equal. lra.
  Qed.

  (** constant potentials *)
  Lemma comb_constant s p s' g z : wf s -> valid_logits (pf_log_weights s) ->
    pf_log_normalizing_constant s = Fin z ->
    (forall a x, log_potential a x (pf_model_inputs p) = Fin g) ->
    comb s p = Ok s' ->
    wf s' /\ valid_logits (pf_log_weights s') /\ pf_log_normalizing_constant s' = Fin (z + g).
  Proof using Hres HN Hsplit.
    intros W Hv Hz Hg Hc.
    destruct (comb_facts _ _ _ W Hv Hc) as
        (k0 & ks & idx & lw & anc & E1 & E2 & W' & La & Ll & Li & Hlw & Hk & Hin & Hai & Hp' & Hnth & Hnl & Hanc & Hzz).
    assert (E : pf_log_weights s' = shift_logits g lw).
    { rewrite Hnl. apply shift_map2. rewrite map2_len; destruct W'; lia.
      intros i Hi. rewrite (map2_nth_d _ dX dX) by (destruct W'; lia). apply Hg. }
    split; [exact W'|]. rewrite Hzz, E. split; [now apply valid_shift_logits|].
    rewrite logsumexp_shift, logsumexp_valid, Hz by assumption. simpl. f_equal. lra.
  Qed.
  Lemma pf_constant inputs key states (g : nat -> R) :
    filter split pf inputs false (Some key) = Ok (map Ok states) ->
    (forall t x a b, nth_error inputs (S t) = Some x -> log_potential a b x = Fin (g t)) ->
    forall t s, nth_error states t = Some s ->
      pf_log_normalizing_constant s = Fin (lsum g (seq 0 t)).
  Proof using Hres HN Hsplit.
    intros Hrun Hg. destruct (run_steps split Hsplit _ _ _ _ _ _ Hrun) as (L & H0 & HS).
    assert (Hall : forall t s, nth_error states t = Some s -> wf s /\ valid_logits (pf_log_weights s) /\
       pf_log_normalizing_constant s = Fin (lsum g (seq 0 t))).
    { induction t as [|t IH]; intros s Hs.
      - destruct (nth_error inputs 0) as [x|] eqn:Ex.
        + destruct (H0 x eq_refl) as (k & s0 & _ & Hi & Hs0). rewrite Hs in Hs0. injection Hs0 as ->.
          destruct (init_facts _ _ _ Hi) as (A & B & C & _). auto.
        + apply nth_error_None in Ex. assert (0 < length states)%nat by (apply nth_error_Some; congruence). lia.
      - assert (Hlt : (S t < length states)%nat) by (apply nth_error_Some; congruence).
        destruct (nth_error inputs (S t)) as [x|] eqn:Ex; [|apply nth_error_None in Ex; lia].
        destruct (nth_error states t) as [s0|] eqn:Es0; [|apply nth_error_None in Es0; lia].
        destruct (HS t x s0 Ex Es0) as (k & p & s' & _ & Hp & Hc & Hs'). rewrite Hs in Hs'. injection Hs' as ->.
        destruct (IH _ eq_refl) as (W & V & Z). rewrite lsum_seq_S.
        apply (comb_constant s0 p); auto. intros a b.
        unfold pf_filter_prepare in Hp. injection Hp as <-. simpl. eapply Hg; eauto. }
    intros t s Hs. now apply Hall.
  Qed.

  (** rescaling the weights of an intermediate state *)
  Definition same_up_to_scale (s s' : PFState Key X Inp) : Prop :=
    pf_key s' = pf_key s /\ pf_particles s' = pf_particles s /\
    pf_ancestor_indices s' = pf_ancestor_indices s /\ pf_model_inputs s' = pf_model_inputs s /\
    pf_log_normalizing_constant s' = pf_log_normalizing_constant s /\
    exists d, pf_log_weights s' = shift_logits d (pf_log_weights s).
  Lemma map2_shift pots d : forall lw, map2 eadd pots (shift_logits d lw) = shift_logits d (map2 eadd pots lw).
  Proof.
    induction pots as [|a pots IH]; destruct lw; simpl; auto. rewrite IH. f_equal.
    destruct a, e; simpl; auto. f_equal. lra.
  Qed.
  Lemma comb_scale s s1 p r : resampler_scale_free resampling_fn ->
    wf s -> valid_logits (pf_log_weights s) -> same_up_to_scale s s1 ->
    comb s p = Ok r -> valid_logits (pf_log_weights r) ->
    exists r1, comb s1 p = Ok r1 /\ same_up_to_scale r r1.
  Proof using Hres HN Hsplit.
    intros Hsf W Hv (S1 & S2 & S3 & S4 & S5 & d & S6) Hc Hvr.
    destruct (comb_facts _ _ _ W Hv Hc) as
        (k0 & ks & idx & lw & anc & E1 & E2 & W' & La & Ll & Li & Hlw & Hk & Hin & Hai & Hp' & Hnth & Hnl & Hanc & Hzz).
    destruct (Hsf _ _ _ _ d _ _ _ Hv E2) as (e & E3).
    assert (Lks : length ks = N). { pose proof (Hsplit (pf_key s) (N + 1)%nat) as L. rewrite E1 in L. simpl in L. lia. }
    unfold comb, pf_filter_combine. rewrite S1, S6, shift_length. destruct W as [W1 W2]. rewrite W2, E1, S2, E3.
    simpl. rewrite shift_length, Ll, La, Lks, Nat.eqb_refl. simpl. eexists. split; [reflexivity|].
    rewrite <- Hp', map2_shift, <- Hnl. unfold same_up_to_scale; simpl.
    repeat split; auto. 
    - rewrite !logsumexp_shift, !logsumexp_valid in * by auto. rewrite S5, Hzz.
      destruct (pf_log_normalizing_constant s); simpl; auto. f_equal. lra.
    - now exists e.
  Qed.
  Lemma run_scale : resampler_scale_free resampling_fn -> forall ps s s1 rs,
    wf s -> valid_logits (pf_log_weights s) -> same_up_to_scale s s1 ->
    scan_states (fun r p => filter_combine pf r p) (Ok s) ps = map Ok rs ->
    Forall (fun r => valid_logits (pf_log_weights r)) rs ->
    exists rs1, scan_states (fun r p => filter_combine pf r p) (Ok s1) ps = map Ok rs1 /\
                Forall2 same_up_to_scale rs rs1.
  Proof using Hres HN Hsplit.
    intros Hsf. induction ps as [|p ps IH]; intros s s1 rs W V Hss Hrun Hval; simpl in Hrun.
    - destruct rs; [|discriminate]. exists []. split; [reflexivity|constructor].
    - destruct rs as [|r rs]; [discriminate|]. simpl in Hrun. injection Hrun as Hr Hrun.
      destruct p as [p|e]; [|discriminate]. simpl in Hr, Hrun. unfold bind in Hr, Hrun. rewrite Hr in Hrun. inversion_clear Hval as [|? ? Vr Vrs].
      destruct (comb_scale s s1 p r Hsf W V Hss Hr Vr) as (r1 & Hr1 & Hss1).
      assert (W' : wf r) by (destruct (comb_facts _ _ _ W V Hr) as (? & ? & ? & ? & ? & _ & _ & W' & _); exact W').
      destruct (IH r r1 rs W' Vr Hss1 Hrun Vrs) as (rs1 & Hrs1 & HF).
      exists (r1 :: rs1). split; [|now constructor]. simpl.
      unfold comb in Hr1. rewrite Hr1. f_equal. exact Hrs1.
  Qed.
End PF.
