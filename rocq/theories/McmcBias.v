(** The expectation of the estimate from the MCMC backward sampler with one transition, for any kernel. *)
From Coq Require Import Reals List Arith Bool Lia Lra FunctionalExtensionality.
From Coquelicot Require Import Coquelicot.
From Verif Require Import Ext ScanModel ScanProofs DriverSpec DriverProofs DiscreteSpec Sums
  ResamplingModel ResamplingSpec ResamplingProofs ConditionalProofs KillingProofs SystematicProofs
  SmcModel SmcSpec SmcProofs BackwardProofs SmcRuns UnbiasedSpec KeyProofs Martingale SmcUnbiased PathSpec PathProofs PathTracing
  FfbsSpec FfbsProofs McmcSpec McmcProofs.
Import ListNotations.
Open Scope R_scope.

Section OneStep.
  Context {Key U X Inp : Type}.
  Variable keq : forall a b : Key, {a = b} + {a <> b}.
  Variable mean : (U -> R) -> R.
  Variable good : (U -> R) -> Prop.
  Hypothesis Hm : expectation_ok mean good.
  Variable dX : X.
  Variable split : Key -> nat -> list Key.
  Hypothesis Hsplit : split_ok split.
  Variable initial : U -> Inp -> X.
  Variable propagate : U -> X -> Inp -> X.
  Variable log_potential : X -> X -> Inp -> ext.
  Hypothesis Hfin : forall a b x, exists r, log_potential a b x = Fin r.
  Variable kern : list ext -> list X -> X -> nat -> nat -> R.
  Variable res : U -> list ext -> list X -> nat -> result (list nat * list ext * list X).
  Hypothesis Hres : resampler_ok dX res.
  Hypothesis Htot : resampler_total res.
  Variable N : nat.
  Hypothesis Hunb : resampler_unbiased mean good N res.
  Hypothesis HN : (0 < N)%nat.
  Variable dummy : X.
  Variable phi : list X -> R.
  Notation St := (PFState Key X Inp).
  Notation pf w := (seeded_pf split initial propagate log_potential res N dummy w).
  Notation pinv := (pf_inv (Key := Key) (X := X) (Inp := Inp) N).
  Notation step := (pf_step split propagate log_potential res N dummy).
  Notation x_ s i := (nth i (pf_particles s) dX).
  Notation a_ s i := (nth i (pf_ancestor_indices s) 0%nat).

  Theorem one_step x0 x1 key c0 c1 w0 : split key 2 = [c0; c1] -> NoDup (consumed split key N 1) ->
    (forall xs i, (i < N)%nat -> length xs = N -> good (fun u => let y := propagate u (nth i xs dX) x1 in uw (log_potential (nth i xs dX) y x1) *
        lsum (fun k => kern (zeros N) xs y i k * phi [nth k xs dX; y]) (seq 0 N))) ->
    exists est : (Key -> U) -> R,
      (forall w, exists hist s z,
         filter split (pf w) [x0; x1] false (Some key) = Ok (map Ok (rev (s :: hist))) /\
         length hist = 1%nat /\ pinv s /\ List.Forall pinv hist /\ pf_log_normalizing_constant s = Fin z /\
         est w = exp z * lsum (fun i => wt (pf_log_weights s) i * ksum dX kern N hist (x_ s i) (a_ s i) (fun past => phi (past ++ [x_ s i]))) (seq 0 N)) /\
      expectation keq mean (consumed split key N 1) est w0
      = expectation keq mean (split c0 N) (fun w => let xs := map (fun k => initial (w k) x0) (split c0 N) in
          lsum (fun i => / INR N * mean (fun u => let y := propagate u (nth i xs dX) x1 in uw (log_potential (nth i xs dX) y x1) *
             lsum (fun k => kern (zeros N) xs y i k * phi [nth k xs dX; y]) (seq 0 N))) (seq 0 N)) w0.
  Proof using Hm Hsplit Hfin Hres Htot Hunb HN.
    intros Ek Hnd Hg.
    set (s0 := fun w : Key -> U => match pf_init_prepare split (fun k => initial (w k)) N x0 (Some c0) with Ok s => s | Err _ => pf_prepared N dummy x0 c0 end).
    assert (Hs0 : forall w, pf_init_prepare split (fun k => initial (w k)) N x0 (Some c0) = Ok (s0 w)) by reflexivity.
    assert (Hi : forall w, pinv (s0 w) /\ pf_key (s0 w) = c0).
    { intros w. destruct (init_facts split Hsplit (fun k => initial (w k)) N HN _ _ _ (Hs0 w)) as (A & B & C & D & E & F).
      split; [|exact E]. split; [exact A|]. split; eauto. }
    set (F := fun (s : St) i y => ksum dX kern N [s] y i (fun past => phi (past ++ [y]))).
    exists (fun w => match step w (s0 w) x1 c1 with Ok s => jval dX N (F (s0 w)) s | Err _ => 0 end). split.
    - intros w. destruct (pf_run_exists dX split Hsplit (fun k => initial (w k)) (fun k => propagate (w k)) log_potential Hfin
                  (fun k => res (w k)) (res_ok dX res Hres w) (res_tot res Htot w) N HN dummy [x0; x1] key ltac:(discriminate)) as (states & Er & Ls & _).
      change (filter split (pf w) [x0; x1] false (Some key) = Ok (map Ok states)) in Er.
      destruct (hstep_ok mean dX split Hsplit propagate log_potential Hfin res Hres Htot N HN dummy w ([], s0 w) x1 c1) as (hs & Ehs & Ihs & _).
      { split; [apply Hi|constructor]. }
      unfold hstep in Ehs. cbn [snd fst] in Ehs. destruct (step w (s0 w) x1 c1) as [s|e] eqn:Es; [|discriminate]. cbn [bind] in Ehs. injection Ehs as <-.
      destruct Ihs as ((W & V & z & Z) & F2). cbn [fst snd] in *.
      exists [s0 w], s, z. split.
      { rewrite Er. do 2 f_equal. pose proof Er as Er'. unfold filter, prepare_keys in Er'. cbn [length] in Er'. rewrite Ek in Er'. cbn [map] in Er'. cbv zeta in Er'.
        change (init_prepare (pf w) x0 (Some c0)) with (Ok (s0 w)) in Er'. injection Er' as Er'.
        destruct states as [|s1 [|s2 [|? ?]]]; try discriminate. cbn [map] in Er'. injection Er' as <- Er'.
        assert (E2 : step w (s0 w) x1 c1 = Ok s2) by exact Er'. rewrite Es in E2. injection E2 as ->. reflexivity. }
      split; [reflexivity|]. split; [split; [exact W|split; [exact V|eauto]]|]. split; [exact F2|]. split; [exact Z|].
      unfold jval. rewrite Z. reflexivity.
    - assert (Ecs : consumed split key N 1 = split c0 N ++ split c0 (N + 1)).
      { unfold consumed. rewrite Ek. cbn [firstn flat_map]. now rewrite !app_nil_r. }
      rewrite Ecs in Hnd |- *. destruct (NoDup_app_inv _ _ Hnd) as (N1 & N2 & N3).
      rewrite expectation_app. apply expectation_ext. intros w1 _. destruct (Hi w1) as (I1 & K1).
      rewrite (expectation_ext keq mean (split c0 (N + 1)) _ (fun w => match step w (s0 w1) x1 c1 with Ok s => jval dX N (F (s0 w1)) s | Err _ => 0 end)).
      + set (xs := map (fun k => initial (w1 k) x0) (split c0 N)). cbv zeta.
        assert (Lx : length xs = N) by (unfold xs; now rewrite map_length, Hsplit).
        assert (EF : forall i y, F (s0 w1) i y = lsum (fun k => kern (zeros N) xs y i k * phi [nth k xs dX; y]) (seq 0 N)) by reflexivity.
        rewrite <- K1 at 1. rewrite (joint_fair keq mean good Hm dX split Hsplit propagate log_potential Hfin res Hres Htot N Hunb HN dummy (F (s0 w1)) (s0 w1) x1 c1 w1 I1).
        * destruct (init_facts split Hsplit (fun k => initial (w1 k)) N HN _ _ _ (Hs0 w1)) as (A & B & C & D & E & F').
          rewrite C. cbn [uw]. rewrite exp_0, Rmult_1_l. apply lsum_seq_ext. intros i Hlt.
          assert (Ew : wt (pf_log_weights (s0 w1)) i = / INR N).
          { unfold wt. change (pf_log_weights (s0 w1)) with (zeros N). rewrite lsum_uw_zeros. unfold zeros.
            rewrite (nth_indep _ NInf (Fin 0)) by (rewrite repeat_length; lia).
            rewrite nth_repeat. cbn [uw]. rewrite exp_0. unfold Rdiv. ring. }
          rewrite Ew. reflexivity.
        * now rewrite K1.
        * intros i Hlt. exact (Hg xs i Hlt Lx).
      + intros w2 Hw2. assert (Es : s0 w2 = s0 w1); [|now rewrite Es].
        unfold s0. cbn [pf_init_prepare]. f_equal. apply map_ext_in. intros k' Hk'. now rewrite Hw2 by (now apply N3).
  Qed.
End OneStep.
