(** Expectations of sums over pairs of seeds, and the first step of the marginal particle filter. *)
From Coq Require Import Reals List Arith Bool Lia Lra FunctionalExtensionality.
From Verif Require Import Ext ScanModel ScanProofs DriverSpec DriverProofs DiscreteSpec Sums
  ResamplingModel ResamplingSpec ResamplingProofs ConditionalProofs KillingProofs SystematicProofs
  ConditionalLaw SmcModel SmcSpec SmcProofs SmcRuns MarginalPfProofs MarginalRuns MarginalWeights
  UnbiasedSpec KeyProofs Martingale SmcUnbiased MpfUnbiased.
Import ListNotations.
Open Scope R_scope.

Section Linear.
  Context {U : Type}.
  Variable mean : (U -> R) -> R.
  Variable good : (U -> R) -> Prop.
  Hypothesis Hm : expectation_ok mean good.
  Definition integral (f : U -> R) (v : R) : Prop := good f /\ mean f = v.
  Lemma integral_const c : integral (fun _ => c) c.
  Proof using Hm. exact (proj1 Hm c). Qed.
  Lemma integral_good f : good f -> integral f (mean f).
  Proof. split; auto. Qed.
  Lemma integral_add f g a b : integral f a -> integral g b -> integral (fun u => f u + g u) (a + b).
  Proof using Hm.
    intros (Gf & <-) (Gg & <-). destruct (proj2 Hm f g 1 1 Gf Gg) as (G & M).
    rewrite (functional_extensionality (fun u => f u + g u) (fun u => 1 * f u + 1 * g u)) by (intros; ring).
    split; [exact G|]. rewrite M. ring.
  Qed.
  Lemma integral_scal c f a : integral f a -> integral (fun u => c * f u) (c * a).
  Proof using Hm.
    intros (Gf & <-). destruct (proj2 Hm f f c 0 Gf Gf) as (G & M).
    rewrite (functional_extensionality (fun u => c * f u) (fun u => c * f u + 0 * f u)) by (intros; ring).
    split; [exact G|]. rewrite M. ring.
  Qed.
  Lemma integral_lsum {A} (h : A -> U -> R) (v : A -> R) (l : list A) : (forall a, In a l -> integral (h a) (v a)) ->
    integral (fun u => lsum (fun a => h a u) l) (lsum v l).
  Proof using Hm.
    induction l as [|a l IH]; intros H; cbn [lsum]; [apply integral_const|].
    apply integral_add; [apply H; now left|]. apply IH. intros; apply H; now right.
  Qed.
  Lemma integral_eq f v w : integral f v -> v = w -> integral f w.
  Proof. now intros H <-. Qed.
End Linear.

Section Pairs.
  Context {Key U : Type}.
  Variable keq : forall a b : Key, {a = b} + {a <> b}.
  Variable mean : (U -> R) -> R.
  Variable good : (U -> R) -> Prop.
  Hypothesis Hm : expectation_ok mean good.
  Variable h : U -> U -> R.
  Hypothesis Hr : forall u, good (h u).
  Hypothesis Hl : forall u, good (fun v => h v u).
  Hypothesis Hd : good (fun u => h u u).
  Hypothesis Hrm : good (fun u => mean (h u)).
  Hypothesis Hlm : good (fun u => mean (fun v => h v u)).

  Lemma expectation_pairs ks : forall g C w, NoDup ks -> good g ->
    expectation keq mean ks (fun w => C + lsum (fun k => g (w k)) ks + lsum (fun k => lsum (fun k' => h (w k) (w k')) ks) ks) w
    = C + INR (length ks) * mean g + INR (length ks) * mean (fun u => h u u)
      + INR (length ks) * (INR (length ks) - 1) / 2 * (mean (fun u => mean (h u)) + mean (fun u => mean (fun v => h v u))).
  Proof using Hm Hr Hl Hd Hrm Hlm.
    induction ks as [|k ks IH]; intros g C w Hnd Hg.
    { simpl. field. }
    inversion_clear Hnd as [|? ? Hk Hnd']. cbn [expectation]. cbn [length]. rewrite S_INR.
    set (n := INR (length ks)).
    set (K := mean (fun u => mean (h u)) + mean (fun u => mean (fun v => h v u))).
    set (Z := C + n * mean g + n * mean (fun u => h u u) + n * (n - 1) / 2 * K).
    assert (E : (fun u => expectation keq mean ks (fun w0 => C + lsum (fun k0 => g (w0 k0)) (k :: ks) +
         lsum (fun k0 => lsum (fun k' => h (w0 k0) (w0 k')) (k :: ks)) (k :: ks)) (assign keq w k u))
      = (fun u => Z + (g u + (h u u + n * (mean (h u) + mean (fun v => h v u)))))).
    { apply functional_extensionality. intros u.
      assert (I1 : integral mean good (fun v => g v + (h u v + h v u)) (mean g + (mean (h u) + mean (fun v => h v u)))).
      { apply integral_add; [exact Hm|now apply integral_good|]. apply integral_add; [exact Hm|now apply integral_good|now apply integral_good]. }
      rewrite (expectation_ext keq mean ks _ (fun w0 => (C + g u + h u u) + lsum (fun k0 => (fun v => g v + (h u v + h v u)) (w0 k0)) ks
          + lsum (fun k0 => lsum (fun k' => h (w0 k0) (w0 k')) ks) ks)).
      - rewrite (IH (fun v => g v + (h u v + h v u)) (C + g u + h u u) _ Hnd' (proj1 I1)). rewrite (proj2 I1). fold n. fold K. unfold Z. field.
      - intros w' Hw'. assert (Ew : w' k = u) by (rewrite (Hw' k Hk); apply assign_same).
        cbn [lsum]. rewrite Ew. rewrite !lsum_plus. ring. }
    rewrite E.
    assert (I2 : integral mean good (fun u => Z + (g u + (h u u + n * (mean (h u) + mean (fun v => h v u)))))
        (Z + (mean g + (mean (fun u => h u u) + n * K)))).
    { apply integral_add; [exact Hm|now apply integral_const|]. apply integral_add; [exact Hm|now apply integral_good|].
      apply integral_add; [exact Hm|now apply integral_good|]. apply integral_scal; [exact Hm|].
      apply integral_add; [exact Hm|now apply integral_good|now apply integral_good]. }
    rewrite (proj2 I2). unfold Z. field.
  Qed.
End Pairs.

Section FirstStep.
  Context {Key U X Inp : Type}.
  Variable keq : forall a b : Key, {a = b} + {a <> b}.
  Variable mean : (U -> R) -> R.
  Variable good : (U -> R) -> Prop.
  Hypothesis Hm : expectation_ok mean good.
  Variable dX : X.
  Variable split : Key -> nat -> list Key.
  Hypothesis Hsplit : split_ok split.
  Variable initial : U -> Inp -> X.
  Variable propagate : U -> X -> Inp -> X.
  Variable log_potential : X -> X -> Inp -> ext.
  Hypothesis Hfin : forall a b x, exists r, log_potential a b x = Fin r.
  Variable res : U -> list ext -> list X -> nat -> result (list nat * list ext * list X).
  Hypothesis Hres : resampler_ok dX res.
  Hypothesis Htot : resampler_total res.
  Hypothesis Huni : resampler_uniform res.
  Variable N : nat.
  Hypothesis Hunb : resampler_unbiased mean good N res.
  Hypothesis HN : (0 < N)%nat.
  Variable dummy : X.
  Variable phi : X -> R.
  Variables x0 x : Inp.
  (** potential seen from [a] of a particle moved from [b] *)
  Definition cross (a b : X) : R := mean (fun e => let y := propagate e b x in uw (log_potential a y x) * phi y).
  Let h u v := cross (initial u x0) (initial v x0).
  Hypothesis Hg : forall a b, good (fun e => let y := propagate e b x in uw (log_potential a y x) * phi y).
  Hypothesis Hr : forall u, good (h u).
  Hypothesis Hl : forall u, good (fun v => h v u).
  Hypothesis Hd : good (fun u => h u u).
  Hypothesis Hrm : good (fun u => mean (h u)).
  Hypothesis Hlm : good (fun u => mean (fun v => h v u)).

  Theorem mpf_first_step key w0 : NoDup (consumed split key N 1) ->
    exists est : (Key -> U) -> R,
      (forall w, exists states s z,
         filter split (seeded_mpf split initial propagate log_potential res N dummy w) [x0; x] false (Some key) = Ok (map Ok states) /\
         nth_error states 1 = Some s /\ mpf_log_normalizing_constant s = Fin z /\
         est w = exp z * lsum (fun i => wt (mpf_log_weights s) i * phi (nth i (mpf_particles s) dX)) (seq 0 N) /\
         length (mpf_particles s) = N) /\
      expectation keq mean (consumed split key N 1) est w0
      = / INR N * mean (fun u => h u u) +
        (1 - / INR N) / 2 * (mean (fun u => mean (h u)) + mean (fun u => mean (fun v => h v u))).
  Proof using Hm Hsplit Hfin Hres Htot Hunb Huni HN Hg Hr Hl Hd Hrm Hlm.
    intros Hnd.
    pose proof (Hsplit key 2%nat) as L.
    destruct (split key 2%nat) as [|c0 [|c1 [|? ?]]] eqn:Ec; try discriminate. clear L.
    set (s0 := fun w : Key -> U => match mpf_init_prepare split (fun k => initial (w k)) N x0 (Some c0) with Ok s => s | Err _ => mpf_prepared N dummy x0 c0 end).
    assert (Hs0 : forall w, mpf_init_prepare split (fun k => initial (w k)) N x0 (Some c0) = Ok (s0 w)) by reflexivity.
    assert (Hi : forall w, mpf_inv N (s0 w) /\ mpf_key (s0 w) = c0 /\ mpf_log_normalizing_constant (s0 w) = Fin 0).
    { intros w. destruct (mpf_init_facts split Hsplit (fun k => initial (w k)) N HN _ _ _ (Hs0 w)) as (A & B & C).
      split; [|auto]. split; [|eauto]. unfold wfm. rewrite B, repeat_length. repeat split; auto; now apply repeat_valid. }
    set (stp := fun w s => mpf_step split propagate log_potential res N dummy w s x c1).
    assert (Hst : forall w w', exists s', stp w (s0 w') = Ok s' /\ mpf_inv N s').
    { intros w w'. destruct (mpf_step_facts mean dX split Hsplit propagate log_potential Hfin res Hres Htot Huni N HN dummy phi w (s0 w') x c1 (proj1 (Hi w')))
        as (? & ? & s' & ? & ? & ? & _ & _ & _ & _ & E & I & _). eauto. }
    set (val := mpf_val (Key := Key) mean dX propagate log_potential N phi).
    exists (fun w => run_val val [] (stp w (s0 w))). split.
    - intros w. destruct (Hst w w) as (s & E & W & z & Z). exists [s0 w; s], s, z. split.
      { unfold filter, prepare_keys. cbn [length map]. rewrite Ec. cbn [map combine]. cbv zeta.
        cbn [init_prepare seeded_mpf mpf_build_filter]. rewrite Hs0. cbn [map]. do 2 f_equal. match goal with |- ?l = [Ok s] => change l with [stp w (s0 w)] end. now rewrite E. }
      split; [reflexivity|]. split; [exact Z|]. split; [|apply W]. rewrite E. cbn [run_val]. unfold val, mpf_val. rewrite Z. reflexivity.
    - assert (Ecs : consumed split key N 1 = split c0 N ++ split c0 (N + 1)).
      { unfold consumed. rewrite Ec. cbn [firstn flat_map]. now rewrite !app_nil_r. }
      rewrite Ecs in Hnd |- *. destruct (NoDup_app_inv _ _ Hnd) as (N1 & N2 & N3).
      rewrite expectation_app.
      assert (PN : 0 < INR N) by (apply lt_0_INR; lia).
      rewrite (expectation_ext keq mean (split c0 N) _ (fun w => 0 + lsum (fun k => (fun _ => 0) (w k)) (split c0 N)
         + lsum (fun k => lsum (fun k' => (fun u v => / INR N * (/ INR N * h u v)) (w k) (w k')) (split c0 N)) (split c0 N))).
      + assert (I : forall f, good f -> integral mean good (fun u => / INR N * (/ INR N * f u)) (/ INR N * (/ INR N * mean f))).
        { intros f Gf. do 2 (apply integral_scal; [exact Hm|]). now apply integral_good. }
        refine (eq_trans (expectation_pairs keq mean good Hm (fun u v => / INR N * (/ INR N * h u v)) _ _ _ _ _ (split c0 N) (fun _ => 0) 0 w0 N1 _) _).
        6:{ apply Hm. }
        6:{ rewrite Hsplit, (proj2 (integral_const mean good Hm 0)), (proj2 (I _ Hd)).
          replace (fun u => mean (fun v => / INR N * (/ INR N * h u v))) with (fun u => / INR N * (/ INR N * mean (h u))).
          2:{ apply functional_extensionality. intros u. symmetry. apply (I _ (Hr u)). }
          replace (fun u => mean (fun v => / INR N * (/ INR N * h v u))) with (fun u => / INR N * (/ INR N * mean (fun v => h v u))).
          2:{ apply functional_extensionality. intros u. symmetry. apply (I _ (Hl u)). }
          rewrite (proj2 (I _ Hrm)), (proj2 (I _ Hlm)). field. lra. }
        * intros u. apply (I _ (Hr u)).
        * intros u. apply (I _ (Hl u)).
        * apply (I _ Hd).
        * replace (fun u => mean (fun v => / INR N * (/ INR N * h u v))) with (fun u => / INR N * (/ INR N * mean (h u))); [apply (I _ Hrm)|].
          apply functional_extensionality. intros u. symmetry. apply (I _ (Hr u)).
        * replace (fun u => mean (fun v => / INR N * (/ INR N * h v u))) with (fun u => / INR N * (/ INR N * mean (fun v => h v u))); [apply (I _ Hlm)|].
          apply functional_extensionality. intros u. symmetry. apply (I _ (Hl u)).
      + intros w1 _. destruct (Hi w1) as (I1 & K1 & Z1).
        rewrite (expectation_ext keq mean _ _ (fun w => run_val val [] (stp w (s0 w1)))).
        2:{ intros w2 Hw2. do 2 f_equal. unfold s0. cbn [mpf_init_prepare]. f_equal. apply map_ext_in. intros k' Hk'.
            now rewrite Hw2 by (now apply N3). }
        rewrite <- K1 at 1. unfold stp, val.
        assert (Ep : forall i, (i < N)%nat -> nth i (mpf_particles (s0 w1)) dX = initial (w1 (nth i (split c0 N) c0)) x0).
        { intros j Hlt. change (mpf_particles (s0 w1)) with (map (fun k' => initial (w1 k') x0) (split c0 N)).
          rewrite (nth_indep _ dX (initial (w1 c0) x0)) by (rewrite map_length, Hsplit; lia).
          now rewrite (map_nth (fun k' => initial (w1 k') x0)). }
        assert (Ew : forall j, (j < N)%nat -> wt (mpf_log_weights (s0 w1)) j = / INR N).
        { intros j Hlt. unfold wt. change (mpf_log_weights (s0 w1)) with (zeros N). rewrite lsum_uw_zeros. unfold zeros.
          rewrite (nth_indep _ NInf (Fin 0)) by (rewrite repeat_length; lia).
          rewrite nth_repeat. cbn [uw]. rewrite exp_0. unfold Rdiv. ring. }
        assert (Em : forall b, integral mean good (fun e => let y := propagate e b x in mix dX log_potential N (s0 w1) x y * fk_from mean propagate log_potential [] phi y)
                  (lsum (fun i => / INR N * cross (nth i (mpf_particles (s0 w1)) dX) b) (seq 0 N))).
        { intros b. rewrite (functional_extensionality (fun e => let y := propagate e b x in mix dX log_potential N (s0 w1) x y * fk_from mean propagate log_potential [] phi y)
            (fun e => lsum (fun i => / INR N * (let y := propagate e b x in uw (log_potential (nth i (mpf_particles (s0 w1)) dX) y x) * phi y)) (seq 0 N))).
          - apply (integral_lsum mean good Hm (fun i e => / INR N * (let y := propagate e b x in uw (log_potential (nth i (mpf_particles (s0 w1)) dX) y x) * phi y))).
            intros i _. exact (integral_scal mean good Hm _ _ _ (integral_good mean good _ (Hg (nth i (mpf_particles (s0 w1)) dX) b))).
          - intros e. cbv zeta. cbn [fk_from]. unfold mix. rewrite <- lsum_scal_r. apply lsum_seq_ext. intros i Hlt. rewrite Ew by assumption. ring. }
        rewrite (mpf_step_mean keq mean good Hm dX split Hsplit propagate log_potential Hfin res Hres Htot Huni N HN dummy phi Hunb [] (s0 w1) x c1 w1 I1).
        * rewrite Z1. cbn [uw]. rewrite exp_0, Rmult_1_l, lsum_const. rewrite Rmult_0_r, Rplus_0_l.
          rewrite Rplus_0_l.
          rewrite (lsum_swap (fun k k' => / INR N * (/ INR N * h (w1 k) (w1 k')))).
          rewrite (lsum_nth_seq _ (split c0 N) c0), Hsplit. apply lsum_seq_ext. intros i Hlt.
          rewrite Ew by assumption. rewrite (proj2 (Em _)). rewrite <- lsum_scal.
          rewrite (lsum_nth_seq _ (split c0 N) c0), Hsplit. apply lsum_seq_ext. intros j Hlt'.
          rewrite !Ep by assumption. unfold h. reflexivity.
        * now rewrite K1.
        * intros a. apply (Em a).
  Qed.
End FirstStep.
