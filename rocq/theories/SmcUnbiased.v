(** The particle filter estimates Feynman-Kac measures without bias. *)
From Coq Require Import Reals List Arith Bool Lia Lra FunctionalExtensionality.
From Verif Require Import Ext ScanModel ScanProofs DriverSpec DriverProofs DiscreteSpec Sums
  ResamplingModel ResamplingSpec ResamplingProofs ConditionalProofs KillingProofs SystematicProofs
  ConditionalLaw SmcModel SmcSpec SmcProofs SmcRuns UnbiasedSpec KeyProofs Martingale.
Import ListNotations.
Open Scope R_scope.

Lemma exp_ln_avg lw pots (f : nat -> R) z : length pots = length lw -> valid_logits lw ->
  valid_logits (map2 eadd pots lw) -> Forall is_logit pots ->
  exp (ln (weighted_average lw (fun i => nth i pots NaN)) + z) *
    lsum (fun i => wt (map2 eadd pots lw) i * f i) (seq 0 (length lw))
  = exp z * lsum (fun i => wt lw i * (uw (nth i pots NaN) * f i)) (seq 0 (length lw)).
Proof.
  intros L Hv Hn Hp.
  assert (Hs : 0 < lsum uw (map2 eadd pots lw)) by now apply valid_sum_pos.
  assert (Hs' : 0 < lsum uw lw) by now apply valid_sum_pos.
  assert (Hi : forall i, (i < length lw)%nat -> uw (nth i (map2 eadd pots lw) NInf) = uw (nth i pots NaN) * uw (nth i lw NInf)).
  { intros i Hi. rewrite (map2_nth_d eadd NaN NInf NInf) by lia. apply uw_eadd.
    - rewrite Forall_forall in Hp. apply Hp, nth_In. lia.
    - now apply valid_logit_nth. }
  assert (E : weighted_average lw (fun i => nth i pots NaN) = lsum uw (map2 eadd pots lw) / lsum uw lw).
  { unfold weighted_average. rewrite <- lsum_div. rewrite (lsum_nth_seq _ (map2 eadd pots lw) NInf), map2_length, L by assumption.
    apply lsum_seq_ext. intros i Hlt. rewrite Hi by assumption. unfold wt, Rdiv. ring. }
  rewrite exp_plus, E, exp_ln by (apply Rdiv_lt_0_compat; lra).
  rewrite <- !lsum_scal. apply lsum_seq_ext. intros i Hlt. unfold wt. rewrite Hi by assumption. field. lra.
Qed.

Lemma lsum_const {A} (c : R) (l : list A) : lsum (fun _ => c) l = INR (length l) * c.
Proof. induction l as [|a l IH]; cbn [lsum length]; [simpl; ring|]. rewrite IH, S_INR. ring. Qed.

Section Unbiased.
  Context {Key U X Inp : Type}.
  Variable keq : forall a b : Key, {a = b} + {a <> b}.
  Variable mean : (U -> R) -> R.
  Variable good : (U -> R) -> Prop.
  Hypothesis Hm : expectation_ok mean good.
  Variable dX : X.
  Variable split : Key -> nat -> list Key.
  Hypothesis Hsplit : split_ok split.
  Variable initial : U -> Inp -> X.
  Variable propagate : U -> X -> Inp -> X.
  Variable log_potential : X -> X -> Inp -> ext.
  Hypothesis Hfin : forall a b x, exists r, log_potential a b x = Fin r.
  Variable res : U -> list ext -> list X -> nat -> result (list nat * list ext * list X).
  Hypothesis Hres : resampler_ok dX res.
  Hypothesis Htot : resampler_total res.
  Variable N : nat.
  Hypothesis Hunb : resampler_unbiased mean good N res.
  Hypothesis HN : (0 < N)%nat.
  Variable dummy : X.
  Variable phi : X -> R.

  Definition seeded_pf (w : Key -> U) : Filter Inp Key (result (PFState Key X Inp)) :=
    pf_build_filter split (fun k => initial (w k)) (fun k => propagate (w k)) log_potential (fun k => res (w k)) N dummy.
  Definition pf_prepared (x : Inp) (k : Key) : PFState Key X Inp :=
    {| pf_key := k; pf_particles := repeat dummy N; pf_log_weights := zeros N;
       pf_ancestor_indices := seq 0 N; pf_model_inputs := x; pf_log_normalizing_constant := Fin 0 |}.
  Definition pf_step (w : Key -> U) (s : PFState Key X Inp) (x : Inp) (k : Key) :=
    pf_filter_combine split (fun k => propagate (w k)) log_potential (fun k => res (w k)) s (pf_prepared x k).
  Definition pf_inv (s : PFState Key X Inp) :=
    wf N s /\ valid_logits (pf_log_weights s) /\ exists z, pf_log_normalizing_constant s = Fin z.
  Definition pf_val (r : list Inp) (s : PFState Key X Inp) : R :=
    uw (pf_log_normalizing_constant s) *
    lsum (fun i => wt (pf_log_weights s) i * fk_from mean propagate log_potential r phi (nth i (pf_particles s) dX)) (seq 0 N).

  Lemma res_ok w : resampler_ok dX (fun k : Key => res (w k)).
  Proof using Hres. intros k. apply Hres. Qed.
  Lemma res_tot w : resampler_total (fun k : Key => res (w k)).
  Proof using Htot. intros k. apply Htot. Qed.

  Lemma pots_logit anc ys x : length anc = N -> length ys = N ->
    Forall is_logit (map2 (fun a y => log_potential a y x) anc ys).
  Proof using HN Hfin dX.
    intros L1 L2. apply Forall_forall. intros e He. destruct (In_nth _ _ NaN He) as (i & Hi & <-). rewrite map2_len in Hi.
    rewrite (map2_nth_d _ dX dX) by lia. right. apply Hfin.
  Qed.

  (** one step, for given seeds *)
  Lemma pf_step_facts w s x k : pf_inv s -> exists kr kp s' idx lw anc,
    split (pf_key s) (N + 1) = kr :: kp /\ length kp = N /\
    res (w kr) (pf_log_weights s) (pf_particles s) N = Ok (idx, lw, anc) /\
    length lw = N /\ length anc = N /\
    (forall j, (j < N)%nat -> nth j anc dX = nth (nth j idx 0%nat) (pf_particles s) dX) /\
    pf_step w s x k = Ok s' /\ pf_inv s' /\ pf_key s' = k /\
    forall r, pf_val r s' = uw (pf_log_normalizing_constant s) *
      lsum (fun j => wt lw j * (let y := propagate (nth j (map w kp) (w kr)) (nth j anc dX) x in
                uw (log_potential (nth j anc dX) y x) * fk_from mean propagate log_potential r phi y)) (seq 0 N).
  Proof using Hsplit Hfin Hres Htot HN.
    intros (W & V & z & Z).
    destruct (comb_succeeds dX split Hsplit (fun k => propagate (w k)) log_potential Hfin (fun k => res (w k))
                (res_ok w) (res_tot w) N HN s (pf_prepared x k) W V) as (s' & E & W' & V').
    destruct (comb_facts dX split Hsplit (fun k => propagate (w k)) log_potential (fun k => res (w k)) (res_ok w) N HN _ _ _ W V E)
      as (kr & kp & idx & lw & anc & E1 & E2 & _ & La & Ll & Li & Hlw & Hk & Hin & Hai & Hp' & Hnth & Hnl & Hj & Hz).
    assert (Lk : length kp = N). { pose proof (Hsplit (pf_key s) (N + 1)%nat) as L. rewrite E1 in L. simpl in L. lia. }
    change (pf_model_inputs (pf_prepared x k)) with x in *.
    assert (Hn : valid_logits (map2 eadd (map2 (fun a x0 => log_potential a x0 x) anc (pf_particles s')) lw)).
    { rewrite <- Hnl. exact V'. }
    assert (Lp : length (pf_particles s') = N) by apply W'.
    assert (Lq : length (map2 (fun a x0 => log_potential a x0 x) anc (pf_particles s')) = length lw).
    { rewrite map2_len. lia. }
    pose proof (pots_logit anc (pf_particles s') x La Lp) as Hp.
    rewrite Hnl, Z, (increment_eq _ lw Lq Hlw Hn) in Hz. cbn [eadd] in Hz.
    exists kr, kp, s', idx, lw, anc.
    split; [exact E1|]. split; [exact Lk|]. split; [exact E2|]. split; [exact Ll|]. split; [exact La|].
    split. { intros j Hlt. now apply Hj. }
    split; [exact E|]. split. { split; [exact W'|]. split; [exact V'|]. rewrite Hz. eauto. }
    split; [exact Hk|]. intros r. unfold pf_val. rewrite Hz, Hnl, Z. cbn [uw].
    pose proof (exp_ln_avg lw _ (fun i => fk_from mean propagate log_potential r phi (nth i (pf_particles s') dX)) z Lq Hlw Hn Hp) as Q.
    rewrite Ll in Q. rewrite Q. f_equal. apply lsum_seq_ext. intros j Hlt.
    rewrite (map2_nth_d (fun a y => log_potential a y x) dX dX) by lia. rewrite Hp'.
    rewrite (map2_nth_d _ kr dX) by lia. rewrite map_nth. reflexivity.
  Qed.

  Lemma pf_step_local w w' s x k : length (pf_log_weights s) = N -> (forall k', In k' (split (pf_key s) (N + 1)) -> w k' = w' k') ->
    pf_step w s x k = pf_step w' s x k.
  Proof.
    intros L H. unfold pf_step, pf_filter_combine. rewrite L.
    destruct (split (pf_key s) (N + 1)) as [|kr kp]; [reflexivity|].
    rewrite (H kr) by now left. destruct (res (w' kr) (pf_log_weights s) (pf_particles s) N) as [[[idx lw] anc]|e]; [|reflexivity].
    simpl. assert (E : map2 (fun k x0 => propagate (w k) x0 x) kp anc = map2 (fun k x0 => propagate (w' k) x0 x) kp anc).
    { assert (H' : forall k', In k' kp -> w k' = w' k') by (intros; apply H; now right). clear H.
      revert anc. induction kp as [|a kp IH]; intros [|b anc]; simpl; auto.
      rewrite IH, H'; auto. { now left. } intros; apply H'; now right. }
    now rewrite E.
  Qed.

  Lemma seq_combine (kp : list Key) (a : nat -> R) (h : nat -> U -> R) (w : Key -> U) d :
    lsum (fun p => fst (snd p) * snd (snd p) (w (fst p)))
         (combine kp (map (fun j => (a j, h j)) (seq 0 (length kp))))
    = lsum (fun j => a j * h j (nth j (map w kp) d)) (seq 0 (length kp)).
  Proof.
    revert a h. induction kp as [|k kp IH]; intros a h; [reflexivity|].
    cbn [length seq map combine lsum fst snd nth]. f_equal.
    rewrite <- seq_shift, !map_map, lsum_map. rewrite (IH (fun j => a (S j)) (fun j => h (S j))). reflexivity.
  Qed.

  Lemma pf_fair r : fk_from_good mean good propagate log_potential r phi ->
    fair keq mean split (N + 1) pf_step pf_key pf_inv pf_val r.
  Proof using Hm Hsplit Hfin Hres Htot Hunb HN.
    intros Hg x r' s k w -> Hs Hnd. cbn [fk_from_good] in Hg. destruct Hg as (Hg & _).
    destruct (pf_step_facts w s x k Hs) as (kr & kp & _ & _ & _ & _ & E1 & Lk & _).
    rewrite E1 in Hnd |- *. inversion_clear Hnd as [|? ? Hkr Hnd']. cbn [expectation].
    set (M := fun y => fk_from mean propagate log_potential (x :: r') phi y).
    set (z := uw (pf_log_normalizing_constant s)).
    destruct (Hunb (pf_log_weights s) (pf_particles s) (fun i => M (nth i (pf_particles s) dX))) as (Gf & Mf).
    { apply Hs. } { apply Hs. } { destruct Hs as ((A & B) & _). congruence. }
    assert (LN : length (pf_log_weights s) = N) by apply Hs. rewrite LN in Gf, Mf.
    match type of Mf with mean ?f = _ => set (F := f) in * end.
    assert (E : (fun u => expectation keq mean kp (fun w0 => run_val pf_val r' (pf_step w0 s x k)) (assign keq w kr u))
                = (fun u => z * F u + 0 * 0)).
    { apply functional_extensionality. intros u.
      destruct (pf_step_facts (assign keq w kr u) s x k Hs) as (kr' & kp' & s1 & idx & lw & anc & E1' & _ & Er & Ll & La & Hj & _).
      rewrite E1 in E1'. injection E1' as <- <-. rewrite assign_same in Er.
      set (h := fun j u => let y := propagate u (nth j anc dX) x in
                 uw (log_potential (nth j anc dX) y x) * fk_from mean propagate log_potential r' phi y).
      rewrite (expectation_ext keq mean kp _ (fun w0 => 0 +
        lsum (fun p => fst (snd p) * snd (snd p) (w0 (fst p))) (combine kp (map (fun j => (z * wt lw j, h j)) (seq 0 (length kp)))))).
      - rewrite (expectation_sum keq mean good Hm kp) with (2 := eq_trans (map_length _ _) (seq_length _ _)).
        + rewrite lsum_map, Lk. unfold F. rewrite Er. rewrite Rmult_0_l, Rplus_0_r, Rplus_0_l, <- lsum_scal.
          apply lsum_seq_ext. intros j Hlt. cbn [fst snd]. rewrite <- Hj by assumption. unfold M, h. cbn [fk_from]. ring.
        + exact Hnd'.
        + intros ag Hag. apply in_map_iff in Hag. destruct Hag as (j & <- & _). cbn [snd]. apply Hg.
      - intros w' Hw'.
        assert (Hu : w' kr = u) by (rewrite (Hw' kr Hkr); apply assign_same).
        destruct (pf_step_facts w' s x k Hs) as (kr' & kp' & s2 & idx' & lw' & anc' & E2' & _ & Er' & _ & _ & _ & Es & _ & _ & Hv).
        rewrite E1 in E2'. injection E2' as <- <-. rewrite Hu, Er in Er'. injection Er' as <- <- <-.
        rewrite Es. cbn [run_val]. rewrite Hv, (seq_combine kp _ _ w' (w' kr)), Rplus_0_l, Lk.
        fold z. rewrite <- lsum_scal. apply lsum_seq_ext. intros j Hlt. unfold h. ring. }
    rewrite E. destruct Hm as (Hc & Hl). destruct (Hl F (fun _ => 0) z 0 Gf (proj1 (Hc 0))) as (_ & Q).
    rewrite Q, (proj2 (Hc 0)), Mf. unfold pf_val. fold z. rewrite Rmult_0_l, Rplus_0_r. reflexivity.
  Qed.

  Lemma good_skipn inputs : fk_from_good mean good propagate log_potential inputs phi ->
    forall i, fk_from_good mean good propagate log_potential (skipn i inputs) phi.
  Proof.
    induction inputs as [|x inputs IH]; intros H [|i]; simpl; auto. apply IH. apply H.
  Qed.

  Theorem pf_unbiased x0 inputs key w0 : NoDup (consumed split key N (length inputs)) ->
    fk_good mean good initial propagate log_potential x0 inputs phi ->
    exists est : (Key -> U) -> R,
      (forall w, exists states s z,
         filter split (seeded_pf w) (x0 :: inputs) false (Some key) = Ok (map Ok states) /\
         nth_error states (length inputs) = Some s /\
         pf_log_normalizing_constant s = Fin z /\
         est w = exp z * lsum (fun i => wt (pf_log_weights s) i * phi (nth i (pf_particles s) dX)) (seq 0 N)) /\
      expectation keq mean (consumed split key N (length inputs)) est w0
      = feynman_kac mean initial propagate log_potential x0 inputs phi.
  Proof using Hm Hsplit Hfin Hres Htot Hunb HN.
    intros Hnd (Hg0 & Hg).
    pose proof (Hsplit key (length (x0 :: inputs))) as L.
    destruct (split key (length (x0 :: inputs))) as [|c0 ks] eqn:Ec; [discriminate|].
    simpl in L. injection L as L.
    set (s0 := fun w : Key -> U => match pf_init_prepare split (fun k => initial (w k)) N x0 (Some c0) with Ok s => s | Err _ => pf_prepared x0 c0 end).
    assert (Hs0 : forall w, pf_init_prepare split (fun k => initial (w k)) N x0 (Some c0) = Ok (s0 w)) by reflexivity.
    assert (Hi : forall w, pf_inv (s0 w) /\ pf_key (s0 w) = c0).
    { intros w. destruct (init_facts split Hsplit (fun k => initial (w k)) N HN _ _ _ (Hs0 w)) as (A & B & C & D & E & F).
      split; [|exact E]. split; [exact A|]. split; eauto. }
    set (steps := combine inputs ks).
    assert (Hst : map fst steps = inputs).
    { unfold steps. clear - L. revert ks L. induction inputs; intros [|k ks] L; try discriminate; simpl; auto. f_equal. apply IHinputs. simpl in L. lia. }
    assert (Hfinal : forall w, exists s, final pf_step w (s0 w) steps = Ok s /\ pf_inv s).
    { intros w. apply (final_ok pf_step pf_key pf_inv).
      - intros w' s x k Hs. destruct (pf_step_facts w' s x k Hs) as (? & ? & s' & ? & ? & ? & _ & _ & _ & _ & _ & _ & E & I & K & _). eauto.
      - apply Hi. }
    exists (fun w => run_val pf_val [] (final pf_step w (s0 w) steps)). split.
    - intros w. destruct (Hfinal w) as (s & E & I).
      destruct (pf_run_exists dX split Hsplit (fun k => initial (w k)) (fun k => propagate (w k)) log_potential Hfin
                  (fun k => res (w k)) (res_ok w) (res_tot w) N HN dummy (x0 :: inputs) key ltac:(discriminate)) as (states & Er & Ls & _).
      destruct I as (W & V & z & Z). exists states, s, z. split; [exact Er|]. split; [|split; [exact Z|]].
      + assert (Hn : nth_error (map Ok states) (length inputs) = Some (final pf_step w (s0 w) steps)).
        { unfold filter, prepare_keys in Er. rewrite Ec in Er. cbn [map] in Er. cbv zeta in Er. cbn [init_prepare pf_build_filter] in Er.
          rewrite Hs0 in Er. injection Er as <-.
          assert (Lc : length inputs = length (combine inputs (map Some ks))) by (rewrite combine_length, map_length; lia).
          rewrite Lc at 1. rewrite scan_last. f_equal. unfold final, steps.
          generalize (Ok (s0 w)). clear - L. revert ks L. induction inputs as [|x inputs IH]; intros [|k ks] L r; try discriminate; [reflexivity|].
          simpl in L. cbn [combine map fold_left fst snd]. apply IH. lia. }
        rewrite E in Hn. rewrite nth_error_map in Hn. destruct (nth_error states (length inputs)); [|discriminate]. simpl in Hn. congruence.
      + rewrite E. cbn [run_val]. unfold pf_val. rewrite Z. reflexivity.
    - assert (Ecs : consumed split key N (length inputs) = split c0 N ++ used split (N + 1) c0 steps).
      { unfold consumed. change (S (length inputs)) with (length (x0 :: inputs)). rewrite Ec. simpl firstn at 1. cbn [flat_map].
        rewrite app_nil_r. f_equal. unfold steps. now rewrite used_flat. }
      rewrite Ecs in Hnd |- *. destruct (NoDup_app_inv _ _ Hnd) as (N1 & N2 & N3).
      rewrite expectation_app.
      rewrite (expectation_ext keq mean (split c0 N) _ (fun w => 0 + lsum (fun p => fst (snd p) * snd (snd p) (w (fst p)))
         (combine (split c0 N) (map (fun j : nat => (/ INR N, fun u => fk_from mean propagate log_potential inputs phi (initial u x0))) (seq 0 (length (split c0 N))))))).
      + rewrite (expectation_sum keq mean good Hm) with (2 := eq_trans (map_length _ _) (seq_length _ _)).
        * rewrite lsum_map, Hsplit. cbn [fst snd]. rewrite Rplus_0_l. unfold feynman_kac.
          rewrite lsum_const, seq_length. field. apply not_0_INR. lia.
        * exact N1.
        * intros ag Hag. apply in_map_iff in Hag. destruct Hag as (j & <- & _). exact Hg0.
      + intros w1 _. destruct (Hi w1) as (I1 & K1).
        rewrite (expectation_ext keq mean _ _ (fun w => run_val pf_val [] (final pf_step w (s0 w1) steps))).
        * pose proof (run_expectation keq mean split (N + 1) pf_step pf_key pf_inv pf_val) as Q.
          rewrite <- K1 at 1. rewrite Q; auto.
          -- rewrite Hst, (seq_combine _ _ _ w1 (w1 c0)), Rplus_0_l, Hsplit. unfold pf_val.
             destruct (init_facts split Hsplit (fun k => initial (w1 k)) N HN _ _ _ (Hs0 w1)) as (A & B & C & D & E & F).
             rewrite C, F. cbn [uw]. rewrite exp_0, Rmult_1_l. apply lsum_seq_ext. intros j Hlt.
             assert (Ew : wt (pf_log_weights (s0 w1)) j = / INR N).
             { unfold wt. change (pf_log_weights (s0 w1)) with (zeros N). rewrite lsum_uw_zeros. unfold zeros.
               rewrite (nth_indep _ NInf (Fin 0)) by (rewrite repeat_length; lia).
               rewrite nth_repeat. cbn [uw]. rewrite exp_0. unfold Rdiv. ring. }
             rewrite Ew. f_equal. f_equal.
             rewrite (nth_indep _ dX (initial (w1 c0) x0)) by (rewrite map_length, Hsplit; lia).
             rewrite (map_nth (fun k' => initial (w1 k') x0)). rewrite map_nth. reflexivity.
          -- intros w' s x k Hs. destruct (pf_step_facts w' s x k Hs) as (? & ? & s' & ? & ? & ? & _ & _ & _ & _ & _ & _ & E & I & K & _). eauto.
          -- intros w w' s x k Hs. apply pf_step_local. apply Hs.
          -- intros i. rewrite Hst. apply pf_fair. now apply good_skipn.
        * intros w2 Hw2. do 2 f_equal. unfold s0. cbn [pf_init_prepare]. f_equal. apply map_ext_in. intros k' Hk'.
          now rewrite Hw2 by (now apply N3).
  Qed.
End Unbiased.
