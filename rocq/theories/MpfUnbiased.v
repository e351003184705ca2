(** The expectation of the marginal particle filter's estimates. *)
From Coq Require Import Reals List Arith Bool Lia Lra FunctionalExtensionality.
From Verif Require Import Ext ScanModel ScanProofs DriverSpec DriverProofs DiscreteSpec Sums
  ResamplingModel ResamplingSpec ResamplingProofs ConditionalProofs KillingProofs SystematicProofs
  ConditionalLaw SmcModel SmcSpec SmcProofs SmcRuns MarginalPfProofs MarginalRuns MarginalWeights
  UnbiasedSpec KeyProofs Martingale SmcUnbiased.
Import ListNotations.
Open Scope R_scope.

Section Unbiased.
  Context {Key U X Inp : Type}.
  Variable keq : forall a b : Key, {a = b} + {a <> b}.
  Variable mean : (U -> R) -> R.
  Variable good : (U -> R) -> Prop.
  Hypothesis Hm : expectation_ok mean good.
  Variable dX : X.
  Variable split : Key -> nat -> list Key.
  Hypothesis Hsplit : split_ok split.
  Variable initial : U -> Inp -> X.
  Variable propagate : U -> X -> Inp -> X.
  Variable log_potential : X -> X -> Inp -> ext.
  Hypothesis Hfin : forall a b x, exists r, log_potential a b x = Fin r.
  Variable res : U -> list ext -> list X -> nat -> result (list nat * list ext * list X).
  Hypothesis Hres : resampler_ok dX res.
  Hypothesis Htot : resampler_total res.
  Hypothesis Huni : resampler_uniform res.
  Variable N : nat.
  Hypothesis HN : (0 < N)%nat.
  Variable dummy : X.
  Variable phi : X -> R.

  Definition seeded_mpf (w : Key -> U) : Filter Inp Key (result (MPFState Key X Inp)) :=
    mpf_build_filter split (fun k => initial (w k)) (fun k => propagate (w k)) log_potential (fun k => res (w k)) N dummy.
  Definition mpf_prepared (x : Inp) (k : Key) : MPFState Key X Inp :=
    {| mpf_key := k; mpf_particles := repeat dummy N; mpf_log_weights := zeros N;
       mpf_model_inputs := x; mpf_log_normalizing_constant := Fin 0 |}.
  Definition mpf_step (w : Key -> U) (s : MPFState Key X Inp) (x : Inp) (k : Key) :=
    mpf_filter_combine split (fun k => propagate (w k)) log_potential (fun k => res (w k)) s (mpf_prepared x k).
  Definition mpf_inv (s : MPFState Key X Inp) :=
    wfm N s /\ exists z, mpf_log_normalizing_constant s = Fin z.
  Definition mpf_val (r : list Inp) (s : MPFState Key X Inp) : R :=
    uw (mpf_log_normalizing_constant s) *
    lsum (fun i => wt (mpf_log_weights s) i * fk_from mean propagate log_potential r phi (nth i (mpf_particles s) dX)) (seq 0 N).
  (** mixture of the potentials over all old particles *)
  Definition mix (s : MPFState Key X Inp) (x : Inp) (y : X) : R :=
    lsum (fun i => wt (mpf_log_weights s) i * uw (log_potential (nth i (mpf_particles s) dX) y x)) (seq 0 N).

  Lemma mix_pos s x y : wfm N s -> 0 < mix s x y.
  Proof using Hfin dX.
    intros (W1 & W2 & V). unfold mix.
    assert (P : 0 < lsum (fun i => wt (mpf_log_weights s) i) (seq 0 N)).
    { pose proof (wt_sum _ V) as Q. unfold cdf in Q. rewrite W2 in Q. change (0 < lsum (wt (mpf_log_weights s)) (seq 0 N)). rewrite Q. lra. }
    apply lsum_pos_ex in P. destruct P as (i & Hi & P). apply lsum_pos with i; auto.
    - intros j _. apply Rmult_le_pos; [now apply wt_nonneg|apply uw_nonneg].
    - apply Rmult_lt_0_compat; auto. destruct (Hfin (nth i (mpf_particles s) dX) y x) as (r & ->). apply uw_pos.
  Qed.

  (** one step, for given seeds *)
  Lemma mpf_step_facts w s x k : mpf_inv s -> exists kr kp s' idx lw anc,
    split (mpf_key s) (N + 1) = kr :: kp /\ length kp = N /\
    res (w kr) (mpf_log_weights s) (mpf_particles s) N = Ok (idx, lw, anc) /\ lw = repeat (Fin 0) N /\
    mpf_step w s x k = Ok s' /\ mpf_inv s' /\ mpf_key s' = k /\
    forall r, mpf_val r s' = uw (mpf_log_normalizing_constant s) *
      lsum (fun j => / INR N * (let y := propagate (nth j (map w kp) (w kr)) (nth (nth j idx 0%nat) (mpf_particles s) dX) x in
                mix s x y * fk_from mean propagate log_potential r phi y)) (seq 0 N).
  Proof using Hsplit Hfin Hres Htot Huni HN.
    intros (W & z & Z).
    assert (Ho : resampler_ok dX (fun k : Key => res (w k))) by (intros k'; apply Hres).
    assert (Ht : resampler_total (fun k : Key => res (w k))) by (intros k'; apply Htot).
    destruct (mpf_comb_succeeds dX split Hsplit (fun k => propagate (w k)) log_potential Hfin (fun k => res (w k))
                Ho Ht N HN s (mpf_prepared x k) W) as (s' & E & W').
    destruct (mpf_comb_facts dX split Hsplit (fun k => propagate (w k)) log_potential Hfin (fun k => res (w k)) Ho N HN _ _ _ W E)
      as (_ & Hin & Hk & kr & kp & idx & lw & anc & E1 & E2 & Hp & Hw & Hz).
    change (mpf_model_inputs (mpf_prepared x k)) with x in *. change (mpf_key (mpf_prepared x k)) with k in *.
    assert (Lk : length kp = N). { pose proof (Hsplit (mpf_key s) (N + 1)%nat) as L. rewrite E1 in L. simpl in L. lia. }
    pose proof (Huni _ _ _ _ _ _ _ E2) as El.
    assert (Wl : length (mpf_log_weights s) = N) by apply W.
    assert (Em : forall y, exp (mixture_log_weight dX log_potential s x y) = mix s x y).
    { intros y. unfold mixture_log_weight, weighted_average. rewrite Wl. apply exp_ln. now apply mix_pos. }
    assert (Lp : length (mpf_particles s') = N) by apply W'.
    assert (Ll' : length (mpf_log_weights s') = N) by apply W'.
    assert (Es : lsum (fun x' => exp (mixture_log_weight dX log_potential s x x')) (mpf_particles s')
                 = lsum (fun j => mix s x (nth j (mpf_particles s') dX)) (seq 0 N)).
    { rewrite (lsum_nth_seq _ _ dX), Lp. apply lsum_seq_ext. intros. apply Em. }
    assert (Ps : 0 < lsum (fun j => mix s x (nth j (mpf_particles s') dX)) (seq 0 N)).
    { apply lsum_pos with 0%nat. - intros. apply Rlt_le. now apply mix_pos. - apply in_seq. lia. - now apply mix_pos. }
    rewrite Es, El, lse_repeat, Z in Hz by assumption. cbn [eadd fin_val] in Hz.
    assert (PN : 0 < INR N) by (apply lt_0_INR; lia).
    exists kr, kp, s', idx, lw, anc. split; [exact E1|]. split; [exact Lk|]. split; [exact E2|]. split; [exact El|].
    split; [exact E|]. split. { split; [exact W'|]. rewrite Hz. eauto. } split; [exact Hk|].
    intros r. unfold mpf_val. rewrite Hz, Z. cbn [uw].
    assert (Ewt : forall j, (j < N)%nat -> wt (mpf_log_weights s') j =
      mix s x (nth j (mpf_particles s') dX) / lsum (fun j => mix s x (nth j (mpf_particles s') dX)) (seq 0 N)).
    { assert (Q : forall j, (j < N)%nat -> uw (nth j (mpf_log_weights s') NInf) = mix s x (nth j (mpf_particles s') dX)).
      { intros j Hj. rewrite (nth_indep _ NInf NaN), (Hw j Hj) by lia. cbn [uw]. apply Em. }
      intros j Hj. unfold wt. rewrite Q by assumption. f_equal.
      rewrite (lsum_nth_seq _ _ NInf), Ll'. apply lsum_seq_ext. exact Q. }
    set (S := lsum (fun j => mix s x (nth j (mpf_particles s') dX)) (seq 0 N)) in *.
    set (A := lsum (fun j => mix s x (nth j (mpf_particles s') dX) * fk_from mean propagate log_potential r phi (nth j (mpf_particles s') dX)) (seq 0 N)).
    assert (EA : lsum (fun i => wt (mpf_log_weights s') i * fk_from mean propagate log_potential r phi (nth i (mpf_particles s') dX)) (seq 0 N) = / S * A).
    { unfold A. rewrite <- lsum_scal. apply lsum_seq_ext. intros j Hj. rewrite Ewt by assumption. unfold Rdiv. ring. }
    rewrite EA.
    assert (EB : lsum (fun j => / INR N * (let y := propagate (nth j (map w kp) (w kr)) (nth (nth j idx 0%nat) (mpf_particles s) dX) x in
                mix s x y * fk_from mean propagate log_potential r phi y)) (seq 0 N) = / INR N * A).
    { unfold A. rewrite <- lsum_scal. apply lsum_seq_ext. intros j Hj. destruct (Hp j kr Hj) as (_ & Ep). rewrite Ep, map_nth. reflexivity. }
    transitivity (exp z * (/ INR N * A)); [|rewrite <- EB; reflexivity]. clear EA EB Ewt Es. clearbody A S.
    rewrite !Rplus_0_r. unfold Rminus. rewrite !exp_plus, exp_Ropp, !exp_ln by assumption. field. split; lra.
  Qed.

  Lemma mpf_step_local w w' s x k : length (mpf_log_weights s) = N -> (forall k', In k' (split (mpf_key s) (N + 1)) -> w k' = w' k') ->
    mpf_step w s x k = mpf_step w' s x k.
  Proof.
    intros L H. unfold mpf_step, mpf_filter_combine. rewrite L.
    destruct (split (mpf_key s) (N + 1)) as [|kr kp]; [reflexivity|].
    rewrite (H kr) by now left. destruct (res (w' kr) (mpf_log_weights s) (mpf_particles s) N) as [[[idx lw] anc]|e]; [|reflexivity].
    cbn [bind]. assert (E : map2 (fun k x0 => propagate (w k) x0 x) kp anc = map2 (fun k x0 => propagate (w' k) x0 x) kp anc).
    { assert (H' : forall k', In k' kp -> w k' = w' k') by (intros; apply H; now right). clear H.
      revert anc. induction kp as [|a kp IH]; intros [|b anc]; simpl; auto.
      rewrite IH, H'; auto. { now left. } intros; apply H'; now right. }
    change (mpf_model_inputs (mpf_prepared x k)) with x. now rewrite E.
  Qed.

  Section Fair.
  Hypothesis Hunb : resampler_unbiased mean good N res.

  (** the expected estimate after one step from a given state *)
  Lemma mpf_step_mean r s x k w : mpf_inv s -> NoDup (split (mpf_key s) (N + 1)) ->
    (forall a, good (fun u => let y := propagate u a x in mix s x y * fk_from mean propagate log_potential r phi y)) ->
    expectation keq mean (split (mpf_key s) (N + 1)) (fun w => run_val mpf_val r (mpf_step w s x k)) w
    = uw (mpf_log_normalizing_constant s) * lsum (fun i => wt (mpf_log_weights s) i *
        mean (fun u => let y := propagate u (nth i (mpf_particles s) dX) x in
                       mix s x y * fk_from mean propagate log_potential r phi y)) (seq 0 N).
  Proof using Hm Hsplit Hfin Hres Htot Hunb Huni HN.
    intros Hs Hnd Hg.
    destruct (mpf_step_facts w s x k Hs) as (kr & kp & _ & _ & _ & _ & E1 & Lk & _).
    rewrite E1 in Hnd |- *. inversion_clear Hnd as [|? ? Hkr Hnd']. cbn [expectation].
    set (M := fun a => mean (fun u => let y := propagate u a x in mix s x y * fk_from mean propagate log_potential r phi y)).
    set (z := uw (mpf_log_normalizing_constant s)).
    destruct (Hunb (mpf_log_weights s) (mpf_particles s) (fun i => M (nth i (mpf_particles s) dX))) as (Gf & Mf).
    { apply Hs. } { apply Hs. } { destruct Hs as ((A & B & _) & _). congruence. }
    assert (LN : length (mpf_log_weights s) = N) by apply Hs. rewrite LN in Gf, Mf.
    match type of Mf with mean ?f = _ => set (F := f) in * end.
    assert (E : (fun u => expectation keq mean kp (fun w0 => run_val mpf_val r (mpf_step w0 s x k)) (assign keq w kr u))
                = (fun u => z * F u + 0 * 0)).
    { apply functional_extensionality. intros u.
      destruct (mpf_step_facts (assign keq w kr u) s x k Hs) as (kr' & kp' & s1 & idx & lw & anc & E1' & _ & Er & El & _).
      rewrite E1 in E1'. injection E1' as <- <-. rewrite assign_same in Er.
      set (h := fun j u => let a := nth (nth j idx 0%nat) (mpf_particles s) dX in let y := propagate u a x in
                 mix s x y * fk_from mean propagate log_potential r phi y).
      rewrite (expectation_ext keq mean kp _ (fun w0 => 0 +
        lsum (fun p => fst (snd p) * snd (snd p) (w0 (fst p))) (combine kp (map (fun j => (z * / INR N, h j)) (seq 0 (length kp)))))).
      - rewrite (expectation_sum keq mean good Hm kp) with (2 := eq_trans (map_length _ _) (seq_length _ _)).
        + rewrite lsum_map, Lk. unfold F. rewrite Er. rewrite Rmult_0_l, Rplus_0_r, Rplus_0_l, <- lsum_scal.
          apply lsum_seq_ext. intros j Hlt. cbn [fst snd]. unfold M, h.
          assert (Ew : wt lw j = / INR N).
          { rewrite El. change (repeat (Fin 0) N) with (zeros N). unfold wt. rewrite lsum_uw_zeros. unfold zeros.
            rewrite (nth_indep _ NInf (Fin 0)) by (rewrite repeat_length; lia).
            rewrite nth_repeat. cbn [uw]. rewrite exp_0. unfold Rdiv. ring. }
          rewrite Ew. ring.
        + exact Hnd'.
        + intros ag Hag. apply in_map_iff in Hag. destruct Hag as (j & <- & _). cbn [snd]. apply Hg.
      - intros w' Hw'.
        assert (Hu : w' kr = u) by (rewrite (Hw' kr Hkr); apply assign_same).
        destruct (mpf_step_facts w' s x k Hs) as (kr' & kp' & s2 & idx' & lw' & anc' & E2' & _ & Er' & _ & Es & _ & _ & Hv).
        rewrite E1 in E2'. injection E2' as <- <-. rewrite Hu, Er in Er'. injection Er' as <- <- <-.
        rewrite Es. cbn [run_val]. rewrite Hv, (seq_combine kp _ _ w' (w' kr)), Rplus_0_l, Lk.
        fold z. rewrite <- lsum_scal. apply lsum_seq_ext. intros j Hlt. unfold h. cbv zeta. ring. }
    rewrite E. destruct Hm as (Hc & Hl). destruct (Hl F (fun _ => 0) z 0 Gf (proj1 (Hc 0))) as (_ & Q).
    rewrite Q, (proj2 (Hc 0)), Mf. rewrite Rmult_0_l, Rplus_0_r. reflexivity.
  Qed.

  (** the potential depends on the new particle only *)
  Hypothesis Hind : forall a b y x, log_potential a y x = log_potential b y x.

  Lemma mix_ind s x y a : wfm N s -> mix s x y = uw (log_potential a y x).
  Proof using Hind.
    intros (W1 & W2 & V). unfold mix.
    rewrite (lsum_seq_ext _ (fun i => wt (mpf_log_weights s) i * uw (log_potential a y x))).
    2:{ intros i _. do 2 f_equal. apply Hind. }
    rewrite (lsum_scal_r (wt (mpf_log_weights s))). pose proof (wt_sum _ V) as Q. unfold cdf in Q. rewrite W2 in Q. rewrite Q. ring.
  Qed.

  Lemma mpf_fair r : fk_from_good mean good propagate log_potential r phi ->
    fair keq mean split (N + 1) mpf_step mpf_key mpf_inv mpf_val r.
  Proof using Hm Hsplit Hfin Hres Htot Hunb Huni Hind HN.
    intros Hg x r' s k w -> Hs Hnd. cbn [fk_from_good] in Hg. destruct Hg as (Hg & _).
    assert (E : forall a, (fun u => let y := propagate u a x in mix s x y * fk_from mean propagate log_potential r' phi y)
       = (fun u => let y := propagate u a x in uw (log_potential a y x) * fk_from mean propagate log_potential r' phi y)).
    { intros a. apply functional_extensionality. intros u. cbv zeta. f_equal. apply mix_ind. apply Hs. }
    rewrite mpf_step_mean; auto.
    - unfold mpf_val. f_equal. apply lsum_seq_ext. intros i _. rewrite E. reflexivity.
    - intros a. rewrite E. apply Hg.
  Qed.

  Theorem mpf_unbiased x0 inputs key w0 : NoDup (consumed split key N (length inputs)) ->
    fk_good mean good initial propagate log_potential x0 inputs phi ->
    exists est : (Key -> U) -> R,
      (forall w, exists states s z,
         filter split (seeded_mpf w) (x0 :: inputs) false (Some key) = Ok (map Ok states) /\
         nth_error states (length inputs) = Some s /\
         mpf_log_normalizing_constant s = Fin z /\
         est w = exp z * lsum (fun i => wt (mpf_log_weights s) i * phi (nth i (mpf_particles s) dX)) (seq 0 N) /\
         length (mpf_particles s) = N) /\
      expectation keq mean (consumed split key N (length inputs)) est w0
      = feynman_kac mean initial propagate log_potential x0 inputs phi.
  Proof using Hm Hsplit Hfin Hres Htot Hunb Huni Hind HN.
    intros Hnd (Hg0 & Hg).
    pose proof (Hsplit key (length (x0 :: inputs))) as L.
    destruct (split key (length (x0 :: inputs))) as [|c0 ks] eqn:Ec; [discriminate|].
    simpl in L. injection L as L.
    set (s0 := fun w : Key -> U => match mpf_init_prepare split (fun k => initial (w k)) N x0 (Some c0) with Ok s => s | Err _ => mpf_prepared x0 c0 end).
    assert (Hs0 : forall w, mpf_init_prepare split (fun k => initial (w k)) N x0 (Some c0) = Ok (s0 w)) by reflexivity.
    assert (Hi : forall w, mpf_inv (s0 w) /\ mpf_key (s0 w) = c0).
    { intros w. destruct (mpf_init_facts split Hsplit (fun k => initial (w k)) N HN _ _ _ (Hs0 w)) as (A & B & C).
      split; [|reflexivity]. split; [|eauto]. unfold wfm. rewrite B, repeat_length. repeat split; auto; now apply repeat_valid. }
    set (steps := combine inputs ks).
    assert (Hst : map fst steps = inputs).
    { unfold steps. clear - L. revert ks L. induction inputs; intros [|k ks] L; try discriminate; simpl; auto. f_equal. apply IHinputs. simpl in L. lia. }
    assert (Hfinal : forall w, exists s, final mpf_step w (s0 w) steps = Ok s /\ mpf_inv s).
    { intros w. apply (final_ok mpf_step mpf_key mpf_inv).
      - intros w' s x k Hs. destruct (mpf_step_facts w' s x k Hs) as (? & ? & s' & ? & ? & ? & _ & _ & _ & _ & E & I & K & _). eauto.
      - apply Hi. }
    exists (fun w => run_val mpf_val [] (final mpf_step w (s0 w) steps)). split.
    - intros w. destruct (Hfinal w) as (s & E & I).
      destruct (mpf_run_exists dX split Hsplit (fun k => initial (w k)) (fun k => propagate (w k)) log_potential Hfin
                  (fun k => res (w k)) ltac:(intros k'; apply Hres) ltac:(intros k'; apply Htot) N HN dummy (x0 :: inputs) key ltac:(discriminate)) as (states & Er & Ls).
      destruct I as (W & z & Z). exists states, s, z. split; [exact Er|]. split; [|split; [exact Z|split; [|apply W]]].
      + assert (Hn : nth_error (map Ok states) (length inputs) = Some (final mpf_step w (s0 w) steps)).
        { unfold filter, prepare_keys in Er. rewrite Ec in Er. cbn [map] in Er. cbv zeta in Er. cbn [init_prepare mpf_build_filter] in Er.
          rewrite Hs0 in Er. injection Er as <-.
          assert (Lc : length inputs = length (combine inputs (map Some ks))) by (rewrite combine_length, map_length; lia).
          rewrite Lc at 1. rewrite scan_last. f_equal. unfold final, steps.
          generalize (Ok (s0 w)). clear - L. revert ks L. induction inputs as [|x inputs IH]; intros [|k ks] L r; try discriminate; [reflexivity|].
          simpl in L. cbn [combine map fold_left fst snd]. apply IH. lia. }
        rewrite E in Hn. rewrite nth_error_map in Hn. destruct (nth_error states (length inputs)); [|discriminate]. simpl in Hn. congruence.
      + rewrite E. cbn [run_val]. unfold mpf_val. rewrite Z. reflexivity.
    - assert (Ecs : consumed split key N (length inputs) = split c0 N ++ used split (N + 1) c0 steps).
      { unfold consumed. change (S (length inputs)) with (length (x0 :: inputs)). rewrite Ec. simpl firstn at 1. cbn [flat_map].
        rewrite app_nil_r. f_equal. unfold steps. now rewrite used_flat. }
      rewrite Ecs in Hnd |- *. destruct (NoDup_app_inv _ _ Hnd) as (N1 & N2 & N3).
      rewrite expectation_app.
      rewrite (expectation_ext keq mean (split c0 N) _ (fun w => 0 + lsum (fun p => fst (snd p) * snd (snd p) (w (fst p)))
         (combine (split c0 N) (map (fun j : nat => (/ INR N, fun u => fk_from mean propagate log_potential inputs phi (initial u x0))) (seq 0 (length (split c0 N))))))).
      + rewrite (expectation_sum keq mean good Hm) with (2 := eq_trans (map_length _ _) (seq_length _ _)).
        * rewrite lsum_map, Hsplit. cbn [fst snd]. rewrite Rplus_0_l. unfold feynman_kac.
          rewrite lsum_const, seq_length. field. apply not_0_INR. lia.
        * exact N1.
        * intros ag Hag. apply in_map_iff in Hag. destruct Hag as (j & <- & _). exact Hg0.
      + intros w1 _. destruct (Hi w1) as (I1 & K1).
        rewrite (expectation_ext keq mean _ _ (fun w => run_val mpf_val [] (final mpf_step w (s0 w1) steps))).
        * pose proof (run_expectation keq mean split (N + 1) mpf_step mpf_key mpf_inv mpf_val) as Q.
          rewrite <- K1 at 1. rewrite Q; auto.
          -- rewrite Hst, (seq_combine _ _ _ w1 (w1 c0)), Rplus_0_l, Hsplit. unfold mpf_val.
             destruct (mpf_init_facts split Hsplit (fun k => initial (w1 k)) N HN _ _ _ (Hs0 w1)) as (A & B & C).
             rewrite C. cbn [uw]. rewrite exp_0, Rmult_1_l. apply lsum_seq_ext. intros j Hlt.
             assert (Ew : wt (mpf_log_weights (s0 w1)) j = / INR N).
             { unfold wt. change (mpf_log_weights (s0 w1)) with (zeros N). rewrite lsum_uw_zeros. unfold zeros.
               rewrite (nth_indep _ NInf (Fin 0)) by (rewrite repeat_length; lia).
               rewrite nth_repeat. cbn [uw]. rewrite exp_0. unfold Rdiv. ring. }
             rewrite Ew. f_equal. f_equal.
             change (mpf_particles (s0 w1)) with (map (fun k' => initial (w1 k') x0) (split c0 N)).
             rewrite (nth_indep _ dX (initial (w1 c0) x0)) by (rewrite map_length, Hsplit; lia).
             rewrite (map_nth (fun k' => initial (w1 k') x0)). rewrite map_nth. reflexivity.
          -- intros w' s x k Hs. destruct (mpf_step_facts w' s x k Hs) as (? & ? & s' & ? & ? & ? & _ & _ & _ & _ & E & I & K & _). eauto.
          -- intros w w' s x k Hs. apply mpf_step_local. apply Hs.
          -- intros i. rewrite Hst. apply mpf_fair. now apply good_skipn.
        * intros w2 Hw2. do 2 f_equal. unfold s0. cbn [mpf_init_prepare]. f_equal. apply map_ext_in. intros k' Hk'.
          now rewrite Hw2 by (now apply N3).
  Qed.
  End Fair.
End Unbiased.
