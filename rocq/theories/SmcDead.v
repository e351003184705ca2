(** The particle filter is unbiased when potentials may vanish. *)
From Coq Require Import Reals List Arith Bool Lia Lra FunctionalExtensionality.
From Verif Require Import Ext ScanModel ScanProofs DriverSpec DriverProofs DiscreteSpec Sums
  ResamplingModel ResamplingSpec ResamplingProofs ConditionalProofs KillingProofs SystematicProofs
  ConditionalLaw SmcModel SmcSpec SmcProofs SmcRuns UnbiasedSpec KeyProofs Martingale SmcUnbiased SurvivalSpec.
Import ListNotations.
Open Scope R_scope.

Lemma logits_dichotomy l : Forall is_logit l -> valid_logits l \/ l = repeat NInf (length l).
Proof.
  induction l as [|a l IH]; intros H; [now right|]. inversion_clear H as [|? ? Ha Hl].
  destruct Ha as [->|(r & ->)].
  - destruct (IH Hl) as [(A & B)|E].
    + left. split; [constructor; auto; now left|]. now constructor 2.
    + right. simpl. now rewrite <- E.
  - left. split; [constructor; auto; right; eauto|]. constructor. eauto.
Qed.
Lemma logsumexp_dead n : logsumexp (repeat NInf n) = NInf.
Proof.
  unfold logsumexp. assert (E : esuml (map eexp (repeat NInf n)) = Fin 0).
  { induction n as [|n IH]; [reflexivity|]. simpl. rewrite IH. simpl. f_equal. lra. }
  rewrite E. simpl. destruct Rlt_dec; [lra|]. destruct Req_EM_T; [reflexivity|lra].
Qed.
Lemma lsum_dead n : lsum uw (repeat NInf n) = 0.
Proof. induction n as [|n IH]; simpl; [reflexivity|]. rewrite IH. simpl. lra. Qed.
Lemma dead_not_valid n : ~ valid_logits (repeat NInf n).
Proof. intros H. apply valid_sum_pos in H. rewrite lsum_dead in H. lra. Qed.
Lemma logsumexp_logit l : Forall is_logit l -> is_logit (logsumexp l).
Proof.
  intros H. destruct (logits_dichotomy l H) as [V|E].
  - rewrite logsumexp_valid by exact V. right. eauto.
  - rewrite E, logsumexp_dead. now left.
Qed.
Lemma map2_logit pots lw : Forall is_logit pots -> Forall is_logit lw -> Forall is_logit (map2 eadd pots lw).
Proof.
  intros Hp. revert lw. induction Hp as [|a pots Ha Hp IH]; intros [|b lw] Hl; simpl; try constructor.
  - inversion_clear Hl. now apply eadd_logit.
  - inversion_clear Hl. now apply IH.
Qed.

Section Dead.
  Context {Key U X Inp : Type}.
  Variable keq : forall a b : Key, {a = b} + {a <> b}.
  Variable mean : (U -> R) -> R.
  Variable good : (U -> R) -> Prop.
  Hypothesis Hm : expectation_ok mean good.
  Variable dX : X.
  Variable split : Key -> nat -> list Key.
  Hypothesis Hsplit : split_ok split.
  Variable initial : U -> Inp -> X.
  Variable propagate : U -> X -> Inp -> X.
  Variable log_potential : X -> X -> Inp -> ext.
  Hypothesis Hlog : forall a b x, is_logit (log_potential a b x).
  Variable res : U -> list ext -> list X -> nat -> result (list nat * list ext * list X).
  Hypothesis Hres : resampler_ok dX res.
  Hypothesis Htot : resampler_total res.
  Hypothesis Hrev : (forall a b x, exists r, log_potential a b x = Fin r) \/ resampler_revives res.
  Variable N : nat.
  Hypothesis Hunb : resampler_unbiased mean good N res.
  Hypothesis HN : (0 < N)%nat.
  Variable dummy : X.
  Variable phi : X -> R.

  Let step := pf_step (U := U) split propagate log_potential res N dummy.
  Let val := pf_val (Key := Key) mean dX propagate log_potential N phi.
  Definition live (s : PFState Key X Inp) := valid_logits (pf_log_weights s) /\ exists z, pf_log_normalizing_constant s = Fin z.
  Definition dead (s : PFState Key X Inp) := pf_log_normalizing_constant s = NInf /\ resampler_revives res.
  Definition dinv (s : PFState Key X Inp) := wf N s /\ Forall is_logit (pf_log_weights s) /\ (live s \/ dead s).

  Lemma dpots_logit anc ys x : Forall is_logit (map2 (fun a y => log_potential a y x) anc ys).
  Proof using Hlog. revert ys. induction anc as [|a anc IH]; intros [|y ys]; simpl; constructor; auto. Qed.

  Lemma dstep_facts w s x k : dinv s -> exists kr kp s' idx lw anc,
    split (pf_key s) (N + 1) = kr :: kp /\ length kp = N /\
    res (w kr) (pf_log_weights s) (pf_particles s) N = Ok (idx, lw, anc) /\
    length lw = N /\ length anc = N /\
    (live s -> forall j, (j < N)%nat -> nth j anc dX = nth (nth j idx 0%nat) (pf_particles s) dX) /\
    step w s x k = Ok s' /\ dinv s' /\ pf_key s' = k /\
    pf_ancestor_indices s' = idx /\
    (pf_log_normalizing_constant s = NInf -> pf_log_normalizing_constant s' = NInf) /\
    forall r, val r s' = uw (pf_log_normalizing_constant s) *
      lsum (fun j => wt lw j * (let y := propagate (nth j (map w kp) (w kr)) (nth j anc dX) x in
                uw (log_potential (nth j anc dX) y x) * fk_from mean propagate log_potential r phi y)) (seq 0 N).
  Proof using Hsplit Hlog Hres Htot Hrev HN.
    intros ((W1 & W2) & HL & HS).
    pose proof (Hsplit (pf_key s) (N + 1)%nat) as L.
    destruct (split (pf_key s) (N + 1)) as [|kr kp] eqn:Ek; [simpl in L; lia|].
    assert (Lk : length kp = N) by (simpl in L; lia).
    assert (R : exists idx lw anc, res (w kr) (pf_log_weights s) (pf_particles s) N = Ok (idx, lw, anc) /\
       length lw = N /\ length anc = N /\ valid_logits lw /\
       (live s -> forall j, (j < N)%nat -> nth j anc dX = nth (nth j idx 0%nat) (pf_particles s) dX)).
    { destruct (logits_dichotomy _ HL) as [V|E].
      - destruct (Htot (w kr) (pf_log_weights s) (pf_particles s) V ltac:(congruence)) as ([[idx lw] anc] & E).
        rewrite W2 in E. destruct (Hres _ _ _ _ _ _ _ V (eq_trans W1 (eq_sym W2)) HN E) as (L1 & L2 & L3 & L4 & L5).
        exists idx, lw, anc. repeat split; auto; try apply L4. intros _ j Hj. now apply L5.
      - destruct HS as [(V & _)|(_ & Hv)]; [rewrite E in V; now apply dead_not_valid in V|].
        rewrite W2 in E. rewrite E. destruct (Hv (w kr) (pf_particles s) N HN W1) as (idx & lw & anc & Er & L1 & L2 & L3 & L4).
        exists idx, lw, anc. split; [exact Er|]. split; [exact L2|]. split; [exact L3|]. split; [exact L4|].
        intros (V & _). rewrite E in V. now apply dead_not_valid in V. }
    destruct R as (idx & lw & anc & Er & Ll & La & Vl & Hj).
    set (ys := map2 (fun k x0 => propagate (w k) x0 x) kp anc).
    set (pots := map2 (fun a x0 => log_potential a x0 x) anc ys).
    assert (Ly : length ys = N) by (unfold ys; rewrite map2_len; lia).
    assert (Lp : length pots = length lw) by (unfold pots; rewrite map2_len; lia).
    assert (Hp : Forall is_logit pots) by apply dpots_logit.
    assert (Hn : Forall is_logit (map2 eadd pots lw)) by (apply map2_logit; auto; apply Vl).
    assert (Lnw : length (map2 eadd pots lw) = N) by (rewrite map2_len; lia).
    set (s' := {| pf_key := k; pf_particles := ys; pf_log_weights := map2 eadd pots lw; pf_ancestor_indices := idx;
                  pf_model_inputs := x; pf_log_normalizing_constant :=
                    eadd (esub (logsumexp (map2 eadd pots lw)) (logsumexp lw)) (pf_log_normalizing_constant s) |}).
    assert (Es : step w s x k = Ok s').
    { unfold step, pf_step, pf_filter_combine. rewrite W2, Ek, Er. cbn [bind]. rewrite Lk, La, Ll, Nat.eqb_refl. reflexivity. }
    assert (Ed : pf_log_normalizing_constant s = NInf -> pf_log_normalizing_constant s' = NInf).
    { intros E. cbn [s' pf_log_normalizing_constant]. rewrite E, (logsumexp_valid lw Vl).
      destruct (logsumexp_logit _ Hn) as [->|(z & ->)]; reflexivity. }
    assert (En : map2 eadd pots lw = repeat NInf N -> (exists z, pf_log_normalizing_constant s = Fin z) -> pf_log_normalizing_constant s' = NInf).
    { intros E (z & Ez). cbn [s' pf_log_normalizing_constant]. rewrite E, logsumexp_dead, Ez, (logsumexp_valid lw Vl). reflexivity. }
    exists kr, kp, s', idx, lw, anc.
    split; [reflexivity|]. split; [exact Lk|]. split; [exact Er|]. split; [exact Ll|]. split; [exact La|]. split; [exact Hj|].
    split; [exact Es|]. split.
    { split; [split; auto|]. split; [exact Hn|]. destruct HS as [(V & z & Z)|(D & Hv)].
      - destruct (logits_dichotomy _ Hn) as [V'|E].
        + left. split; [exact V'|]. cbn [s' pf_log_normalizing_constant]. rewrite Z, (increment_eq _ lw Lp Vl V'). simpl. eauto.
        + right. rewrite Lnw in E. split; [apply En; eauto|]. destruct Hrev as [Hf|Hv]; [|exact Hv]. exfalso.
          assert (V' : valid_logits (map2 eadd pots lw)).
          { apply map2_finite_valid; auto. intros e He. destruct (In_nth _ _ NaN He) as (i & Hi & <-). unfold pots in *. rewrite map2_len in Hi.
            rewrite (map2_nth_d _ dX dX) by lia. apply Hf. }
          rewrite E in V'. now apply dead_not_valid in V'.
      - right. split; auto. }
    split; [reflexivity|]. split; [reflexivity|]. split; [exact Ed|]. intros r. unfold val, pf_val.
    destruct HS as [(V & z & Z)|(D & _)].
    2:{ rewrite Ed, D by exact D. cbn [uw]. ring. }
    assert (Hlsum : forall f : nat -> X -> R, lsum (fun j => wt lw j * (uw (nth j pots NaN) * f j (nth j ys dX))) (seq 0 N)
              = lsum (fun j => wt lw j * (let y := propagate (nth j (map w kp) (w kr)) (nth j anc dX) x in
                   uw (log_potential (nth j anc dX) y x) * f j y)) (seq 0 N)).
    { intros f. apply lsum_seq_ext. intros j Hlt. unfold pots.
      rewrite (map2_nth_d (fun a y => log_potential a y x) dX dX) by lia.
      unfold ys. rewrite (map2_nth_d _ kr dX) by lia. rewrite map_nth. reflexivity. }
    refine (eq_trans _ (f_equal (Rmult _) (Hlsum (fun _ y => fk_from mean propagate log_potential r phi y)))). rewrite Z.
    destruct (logits_dichotomy _ Hn) as [V'|E].
    - cbn [s' pf_log_normalizing_constant pf_log_weights pf_particles]. rewrite Z, (increment_eq _ lw Lp Vl V'). cbn [eadd uw].
      pose proof (exp_ln_avg lw _ (fun i => fk_from mean propagate log_potential r phi (nth i ys dX)) z Lp Vl V' Hp) as Q.
      rewrite Ll in Q. exact Q.
    - rewrite Lnw in E. rewrite En by eauto. cbn [uw].
      rewrite (lsum_seq_ext (fun j => wt lw j * (uw (nth j pots NaN) * fk_from mean propagate log_potential r phi (nth j ys dX))) (fun _ => 0)).
      + rewrite lsum_zero. ring.
      + intros j Hlt. assert (Q : uw (nth j (map2 eadd pots lw) NInf) = 0) by (rewrite E, nth_repeat; reflexivity).
        rewrite (map2_nth_d eadd NaN NInf NInf) in Q by lia. rewrite uw_eadd in Q.
        * unfold wt, Rdiv. transitivity ((uw (nth j pots NaN) * uw (nth j lw NInf)) * / lsum uw lw * fk_from mean propagate log_potential r phi (nth j ys dX)); [ring|].
          rewrite Q. ring.
        * rewrite Forall_forall in Hp. apply Hp, nth_In. lia.
        * apply valid_logit_nth; [exact Vl|lia].
  Qed.

  Lemma expectation_zero ks w : expectation keq mean ks (fun _ : Key -> U => 0) w = 0.
  Proof using Hm.
    revert w. induction ks as [|k ks IH]; intros w; cbn [expectation]; [reflexivity|].
    rewrite (functional_extensionality (fun u => expectation keq mean ks (fun _ => 0) (assign keq w k u)) (fun _ => 0)).
    - apply (proj1 Hm 0).
    - intros u. apply IH.
  Qed.

  Lemma dfair r : fk_from_good mean good propagate log_potential r phi ->
    fair keq mean split (N + 1) step pf_key dinv val r.
  Proof using Hm Hsplit Hlog Hres Htot Hrev Hunb HN.
    intros Hg x r' s k w -> Hs Hnd. cbn [fk_from_good] in Hg. destruct Hg as (Hg & _).
    destruct (dstep_facts w s x k Hs) as (kr & kp & _ & _ & _ & _ & E1 & Lk & _).
    destruct (proj2 (proj2 Hs)) as [Hlive|(D & _)].
    2:{ rewrite (expectation_ext keq mean _ _ (fun _ => 0)).
        - rewrite expectation_zero. unfold val, pf_val. rewrite D. cbn [uw]. ring.
        - intros w' _. destruct (dstep_facts w' s x k Hs) as (? & ? & s2 & ? & ? & ? & _ & _ & _ & _ & _ & _ & Es & _ & _ & _ & _ & Hv).
          rewrite Es. cbn [run_val]. rewrite Hv, D. cbn [uw]. ring. }
    rewrite E1 in Hnd |- *. inversion_clear Hnd as [|? ? Hkr Hnd']. cbn [expectation].
    set (M := fun y => fk_from mean propagate log_potential (x :: r') phi y).
    set (z := uw (pf_log_normalizing_constant s)).
    destruct (Hunb (pf_log_weights s) (pf_particles s) (fun i => M (nth i (pf_particles s) dX))) as (Gf & Mf).
    { apply Hlive. } { apply Hs. } { destruct Hs as ((A & B) & _). congruence. }
    assert (LN : length (pf_log_weights s) = N) by apply Hs. rewrite LN in Gf, Mf.
    match type of Mf with mean ?f = _ => set (F := f) in * end.
    assert (E : (fun u => expectation keq mean kp (fun w0 => run_val val r' (step w0 s x k)) (assign keq w kr u))
                = (fun u => z * F u + 0 * 0)).
    { apply functional_extensionality. intros u.
      destruct (dstep_facts (assign keq w kr u) s x k Hs) as (kr' & kp' & s1 & idx & lw & anc & E1' & _ & Er & Ll & La & Hj & _).
      rewrite E1 in E1'. injection E1' as <- <-. rewrite assign_same in Er. specialize (Hj Hlive).
      set (h := fun j u => let y := propagate u (nth j anc dX) x in
                 uw (log_potential (nth j anc dX) y x) * fk_from mean propagate log_potential r' phi y).
      rewrite (expectation_ext keq mean kp _ (fun w0 => 0 +
        lsum (fun p => fst (snd p) * snd (snd p) (w0 (fst p))) (combine kp (map (fun j => (z * wt lw j, h j)) (seq 0 (length kp)))))).
      - rewrite (expectation_sum keq mean good Hm kp) with (2 := eq_trans (map_length _ _) (seq_length _ _)).
        + rewrite lsum_map, Lk. unfold F. rewrite Er. rewrite Rmult_0_l, Rplus_0_r, Rplus_0_l, <- lsum_scal.
          apply lsum_seq_ext. intros j Hlt. cbn [fst snd]. rewrite <- Hj by assumption. unfold M, h. cbn [fk_from]. ring.
        + exact Hnd'.
        + intros ag Hag. apply in_map_iff in Hag. destruct Hag as (j & <- & _). cbn [snd]. apply Hg.
      - intros w' Hw'.
        assert (Hu : w' kr = u) by (rewrite (Hw' kr Hkr); apply assign_same).
        destruct (dstep_facts w' s x k Hs) as (kr' & kp' & s2 & idx' & lw' & anc' & E2' & _ & Er' & _ & _ & _ & Es & _ & _ & _ & _ & Hv).
        rewrite E1 in E2'. injection E2' as <- <-. rewrite Hu, Er in Er'. injection Er' as <- <- <-.
        rewrite Es. cbn [run_val]. rewrite Hv, (seq_combine kp _ _ w' (w' kr)), Rplus_0_l, Lk.
        fold z. rewrite <- lsum_scal. apply lsum_seq_ext. intros j Hlt. unfold h. ring. }
    rewrite E. destruct Hm as (Hc & Hl). destruct (Hl F (fun _ => 0) z 0 Gf (proj1 (Hc 0))) as (_ & Q).
    rewrite Q, (proj2 (Hc 0)), Mf. unfold val, pf_val. fold z. rewrite Rmult_0_l, Rplus_0_r. reflexivity.
  Qed.

  Lemma scan_all_ok w ks inputs : forall s, length ks = length inputs -> dinv s ->
    exists states, scan_states (fun prev (xk : Inp * option Key) =>
          filter_combine (seeded_pf split initial propagate log_potential res N dummy w) prev
            (filter_prepare (seeded_pf split initial propagate log_potential res N dummy w) (fst xk) (snd xk)))
          (Ok s) (combine inputs (map Some ks)) = map Ok states /\ length states = length inputs.
  Proof using Hsplit Hlog Hres Htot Hrev HN mean phi.
    revert ks. induction inputs as [|x inputs IH]; intros [|k ks] s L I; try discriminate; [exists []; auto|].
    simpl in L. cbn [combine map scan_states fst snd].
    destruct (dstep_facts w s x k I) as (? & ? & s' & ? & ? & ? & _ & _ & _ & _ & _ & _ & E & I' & _).
    change (filter_combine _ (Ok s) _) with (step w s x k). rewrite E.
    destruct (IH ks s' ltac:(lia) I') as (st & E' & L'). exists (s' :: st). cbn [map length]. rewrite <- E', L'. auto.
  Qed.

  Theorem pf_unbiased_dead x0 inputs key w0 : NoDup (consumed split key N (length inputs)) ->
    fk_good mean good initial propagate log_potential x0 inputs phi ->
    exists est : (Key -> U) -> R,
      (forall w, exists states s,
         filter split (seeded_pf split initial propagate log_potential res N dummy w) (x0 :: inputs) false (Some key) = Ok (map Ok states) /\
         nth_error states (length inputs) = Some s /\
         estimate (pf_log_normalizing_constant s) (pf_log_weights s) (map phi (pf_particles s)) (est w)) /\
      expectation keq mean (consumed split key N (length inputs)) est w0
      = feynman_kac mean initial propagate log_potential x0 inputs phi.
  Proof using Hm Hsplit Hlog Hres Htot Hrev Hunb HN.
    intros Hnd (Hg0 & Hg).
    pose proof (Hsplit key (length (x0 :: inputs))) as L.
    destruct (split key (length (x0 :: inputs))) as [|c0 ks] eqn:Ec; [discriminate|].
    simpl in L. injection L as L.
    set (s0 := fun w : Key -> U => match pf_init_prepare split (fun k => initial (w k)) N x0 (Some c0) with Ok s => s | Err _ => pf_prepared N dummy x0 c0 end).
    assert (Hs0 : forall w, pf_init_prepare split (fun k => initial (w k)) N x0 (Some c0) = Ok (s0 w)) by reflexivity.
    assert (Hi : forall w, dinv (s0 w) /\ pf_key (s0 w) = c0).
    { intros w. destruct (init_facts split Hsplit (fun k => initial (w k)) N HN _ _ _ (Hs0 w)) as (A & B & C & D & E & F).
      split; [|exact E]. split; [exact A|]. split; [apply B|]. left. split; eauto. }
    set (steps := combine inputs ks).
    assert (Hst : map fst steps = inputs).
    { unfold steps. clear - L. revert ks L. induction inputs; intros [|k ks] L; try discriminate; simpl; auto. f_equal. apply IHinputs. simpl in L. lia. }
    assert (Hok : forall w s x k, dinv s -> exists s', step w s x k = Ok s' /\ dinv s' /\ pf_key s' = k).
    { intros w' s x k Hs. destruct (dstep_facts w' s x k Hs) as (? & ? & s' & ? & ? & ? & _ & _ & _ & _ & _ & _ & E & I & K & _). eauto. }
    assert (Hfinal : forall w, exists s, final step w (s0 w) steps = Ok s /\ dinv s).
    { intros w. apply (final_ok step pf_key dinv); [exact Hok|apply Hi]. }
    exists (fun w => run_val val [] (final step w (s0 w) steps)). split.
    - intros w. destruct (Hfinal w) as (s & E & I).
      destruct (scan_all_ok w ks inputs (s0 w) L (proj1 (Hi w))) as (st & Er & Ls).
      exists (s0 w :: st), s.
      assert (Er' : filter split (seeded_pf split initial propagate log_potential res N dummy w) (x0 :: inputs) false (Some key) = Ok (map Ok (s0 w :: st))).
      { unfold filter, prepare_keys. rewrite Ec. cbn [map]. cbv zeta. cbn [seeded_pf init_prepare pf_build_filter]. rewrite Hs0. f_equal.
        cbn [map]. f_equal. exact Er. }
      split; [exact Er'|]. split.
      + assert (Hn : nth_error (map Ok (s0 w :: st)) (length inputs) = Some (final step w (s0 w) steps)).
        { cbn [map]. rewrite <- Er.
          assert (Lc : length inputs = length (combine inputs (map Some ks))) by (rewrite combine_length, map_length; lia).
          rewrite Lc at 1. rewrite scan_last. f_equal. unfold final, steps.
          generalize (Ok (s0 w)). clear - L. revert ks L. induction inputs as [|x inputs IH]; intros [|k ks] L r; try discriminate; [reflexivity|].
          simpl in L. cbn [combine map fold_left fst snd]. apply IH. lia. }
        rewrite E in Hn. rewrite nth_error_map in Hn. destruct (nth_error (s0 w :: st) (length inputs)); [|discriminate]. simpl in Hn. congruence.
      + rewrite E. cbn [run_val]. unfold val, pf_val. destruct I as ((W1 & W2) & _ & [(V & z & Z)|(D & _)]).
        * right. exists z. split; [exact Z|]. split; [exact V|]. rewrite Z, map_length, W1. cbn [uw fk_from]. f_equal. apply lsum_seq_ext. intros i Hlt. f_equal.
          rewrite (nth_indep (map phi _) 0 (phi dX)) by (rewrite map_length; lia). now rewrite map_nth.
        * left. split; [exact D|]. rewrite D. cbn [uw]. ring.
    - assert (Ecs : consumed split key N (length inputs) = split c0 N ++ used split (N + 1) c0 steps).
      { unfold consumed. change (S (length inputs)) with (length (x0 :: inputs)). rewrite Ec. simpl firstn at 1. cbn [flat_map].
        rewrite app_nil_r. f_equal. unfold steps. now rewrite used_flat. }
      rewrite Ecs in Hnd |- *. destruct (NoDup_app_inv _ _ Hnd) as (N1 & N2 & N3).
      rewrite expectation_app.
      rewrite (expectation_ext keq mean (split c0 N) _ (fun w => 0 + lsum (fun p => fst (snd p) * snd (snd p) (w (fst p)))
         (combine (split c0 N) (map (fun j : nat => (/ INR N, fun u => fk_from mean propagate log_potential inputs phi (initial u x0))) (seq 0 (length (split c0 N))))))).
      + rewrite (expectation_sum keq mean good Hm) with (2 := eq_trans (map_length _ _) (seq_length _ _)).
        * rewrite lsum_map, Hsplit. cbn [fst snd]. rewrite Rplus_0_l. unfold feynman_kac.
          rewrite lsum_const, seq_length. field. apply not_0_INR. lia.
        * exact N1.
        * intros ag Hag. apply in_map_iff in Hag. destruct Hag as (j & <- & _). exact Hg0.
      + intros w1 _. destruct (Hi w1) as (I1 & K1).
        rewrite (expectation_ext keq mean _ _ (fun w => run_val val [] (final step w (s0 w1) steps))).
        * pose proof (run_expectation keq mean split (N + 1) step pf_key dinv val) as Q.
          rewrite <- K1 at 1. rewrite Q; auto.
          -- rewrite Hst, (seq_combine _ _ _ w1 (w1 c0)), Rplus_0_l, Hsplit. unfold val, pf_val.
             destruct (init_facts split Hsplit (fun k => initial (w1 k)) N HN _ _ _ (Hs0 w1)) as (A & B & C & D & E & F).
             rewrite C, F. cbn [uw]. rewrite exp_0, Rmult_1_l. apply lsum_seq_ext. intros j Hlt.
             assert (Ew : wt (pf_log_weights (s0 w1)) j = / INR N).
             { unfold wt. change (pf_log_weights (s0 w1)) with (zeros N). rewrite lsum_uw_zeros. unfold zeros.
               rewrite (nth_indep _ NInf (Fin 0)) by (rewrite repeat_length; lia).
               rewrite nth_repeat. cbn [uw]. rewrite exp_0. unfold Rdiv. ring. }
             rewrite Ew. f_equal. f_equal.
             rewrite (nth_indep _ dX (initial (w1 c0) x0)) by (rewrite map_length, Hsplit; lia).
             rewrite (map_nth (fun k' => initial (w1 k') x0)). rewrite map_nth. reflexivity.
          -- intros w w' s x k Hs. apply pf_step_local. apply Hs.
          -- intros i. rewrite Hst. apply dfair. now apply (good_skipn mean good propagate log_potential phi).
        * intros w2 Hw2. do 2 f_equal. unfold s0. cbn [pf_init_prepare]. f_equal. apply map_ext_in. intros k' Hk'.
          now rewrite Hw2 by (now apply N3).
  Qed.
End Dead.
