(** The filter half of unbiased backward sampling with an invariant kernel. *)
From Coq Require Import Reals List Arith Bool Lia Lra FunctionalExtensionality.
From Verif Require Import Ext ScanModel ScanProofs DriverSpec DriverProofs DiscreteSpec Sums
  ResamplingModel ResamplingSpec ResamplingProofs ConditionalProofs KillingProofs SystematicProofs
  ConditionalLaw SmcModel SmcSpec SmcProofs BackwardProofs BackwardKernels SmcRuns UnbiasedSpec KeyProofs Martingale SmcUnbiased
  PathSpec PathProofs PathTracing FfbsSpec FfbsProofs McmcSpec.
Import ListNotations.
Open Scope R_scope.

Section Kernel.
  Context {Key U X Inp : Type}.
  Variable keq : forall a b : Key, {a = b} + {a <> b}.
  Variable mean : (U -> R) -> R.
  Variable good : (U -> R) -> Prop.
  Hypothesis Hm : expectation_ok mean good.
  Variable dX : X.
  Variable split : Key -> nat -> list Key.
  Hypothesis Hsplit : split_ok split.
  Variable initial : U -> Inp -> X.
  Variable propagate : U -> X -> Inp -> X.
  Variable log_potential : X -> X -> Inp -> ext.
  Hypothesis Hfin : forall a b x, exists r, log_potential a b x = Fin r.
  Variable h : X -> X -> R.
  Variable kern : list ext -> list X -> X -> nat -> nat -> R.
  Variable res : U -> list ext -> list X -> nat -> result (list nat * list ext * list X).
  Hypothesis Hres : resampler_ok dX res.
  Hypothesis Htot : resampler_total res.
  Variable N : nat.
  Hypothesis Hunb : resampler_unbiased mean good N res.
  Hypothesis HN : (0 < N)%nat.
  Hypothesis Hkern : kernel_invariant dX h kern N.
  Variable dummy : X.
  Variable phi : list X -> R.
  Notation St := (PFState Key X Inp).
  Notation pf w := (seeded_pf split initial propagate log_potential res N dummy w).
  Notation pinv := (pf_inv (Key := Key) (X := X) (Inp := Inp) N).
  Notation step := (pf_step split propagate log_potential res N dummy).
  Notation path r past x := (path_from mean propagate log_potential r phi past x).
  Notation x_ s i := (nth i (pf_particles s) dX).
  Notation a_ s i := (nth i (pf_ancestor_indices s) 0%nat).
  Notation K s y i k := (kern (pf_log_weights s) (pf_particles s) y i k).

  (** mean of [f](x_0, ..., x_t) when the ancestors of [y] are drawn backwards through the states of
      times t, ..., 0, [i] being the index of the ancestor of [y] in the filter *)
  Fixpoint ksum (hist : list St) (y : X) (i : nat) (f : list X -> R) : R :=
    match hist with
    | [] => f []
    | s :: r => lsum (fun k => K s y i k * ksum r (x_ s k) (a_ s k) (fun past => f (past ++ [x_ s k]))) (seq 0 N)
    end.
  Lemma ksum_ext hist : forall y i f g, (forall p, f p = g p) -> ksum hist y i f = ksum hist y i g.
  Proof.
    induction hist as [|s r IH]; intros y i f g H; cbn [ksum]; [apply H|].
    apply lsum_seq_ext. intros k _. f_equal. apply IH. intros p. apply H.
  Qed.
  Lemma ksum_scal hist c : forall y i f, ksum hist y i (fun p => c * f p) = c * ksum hist y i f.
  Proof.
    induction hist as [|s r IH]; intros y i f; cbn [ksum]; [reflexivity|].
    rewrite <- lsum_scal. apply lsum_seq_ext. intros k _. rewrite (IH _ _ (fun p => f (p ++ [x_ s k]))). ring.
  Qed.
  Lemma ksum_mean hist : forall y i (f : list X -> U -> R), (forall p, good (f p)) ->
    good (fun u => ksum hist y i (fun p => f p u)) /\
    mean (fun u => ksum hist y i (fun p => f p u)) = ksum hist y i (fun p => mean (f p)).
  Proof using Hm.
    induction hist as [|s r IH]; intros y i f Hg; cbn [ksum]; [split; [apply Hg|reflexivity]|].
    destruct (mean_lsum mean good Hm (fun k => K s y i k) (fun k u => ksum r (x_ s k) (a_ s k) (fun p => f (p ++ [x_ s k]) u)) (seq 0 N)) as (G & E).
    { intros k _. apply (IH _ _ (fun p => f (p ++ [x_ s k]))). intros p. apply Hg. }
    split; [exact G|]. rewrite E. apply lsum_seq_ext. intros k _. f_equal.
    apply (IH _ _ (fun p => f (p ++ [x_ s k]))). intros p. apply Hg.
  Qed.

  Notation v_ s i := (uw (nth i (pf_log_weights s) NInf)).
  (** exchanging the roles of the particle moved and its new ancestor *)
  Lemma kswap hist s x r : pinv s -> backward_potential mean good propagate log_potential h x ->
    path_from_good mean good propagate log_potential (x :: r) phi ->
    kernel_good mean good dX propagate log_potential h kern N (x :: r) phi ->
    let F i y := ksum (s :: hist) y i (fun past => path r past y) in
    (forall i, (i < N)%nat -> good (fun u => let y := propagate u (x_ s i) x in uw (log_potential (x_ s i) y x) * F i y)) /\
    lsum (fun i => wt (pf_log_weights s) i * mean (fun u => let y := propagate u (x_ s i) x in uw (log_potential (x_ s i) y x) * F i y)) (seq 0 N)
    = lsum (fun i => wt (pf_log_weights s) i * ksum hist (x_ s i) (a_ s i) (fun past => path (x :: r) past (x_ s i))) (seq 0 N).
  Proof using Hm Hkern HN.
    intros Hs Hb (Hg & _) (Hbg & _) F. assert (LW : length (pf_log_weights s) = N /\ length (pf_particles s) = N) by (destruct Hs as ((A & B) & _); auto).
    destruct LW as (Lw & Lp). assert (V : valid_logits (pf_log_weights s)) by apply Hs.
    set (g := fun k y => ksum hist (x_ s k) (a_ s k) (fun past => path r (past ++ [x_ s k]) y)).
    set (psi := fun i k y => K s y i k * exp (- h (x_ s k) y) * g k y).
    set (f := fun a b i k u => let y := propagate u a x in uw (log_potential a y x) * exp (h b y) * psi i k y).
    assert (Gf : forall a b i k, (i < N)%nat -> (k < N)%nat -> good (f a b i k)).
    { intros a b i k Hi Hk.
      destruct (ksum_mean hist (x_ s k) (a_ s k) (fun past u => let y := propagate u a x in
         uw (log_potential a y x) * exp (h b y) * (K s y i k * exp (- h (x_ s k) y) * path r (past ++ [x_ s k]) y))) as (G & _).
      - intros past. exact (Hbg a b past (pf_log_weights s) (pf_particles s) i k V Lw Lp Hi Hk).
      - replace (f a b i k) with (fun u => ksum hist (x_ s k) (a_ s k) (fun past => let y := propagate u a x in
           uw (log_potential a y x) * exp (h b y) * (K s y i k * exp (- h (x_ s k) y) * path r (past ++ [x_ s k]) y))); [exact G|].
        apply functional_extensionality. intros u. unfold f, psi, g. cbv zeta.
        set (y := propagate u a x). set (c := uw (log_potential a y x) * exp (h b y)). set (d := K s y i k * exp (- h (x_ s k) y)).
        rewrite (ksum_ext hist _ _ _ (fun past => (c * d) * path r (past ++ [x_ s k]) y)) by (intros; ring).
        rewrite ksum_scal. ring. }
    assert (EF : forall a i u, (let y := propagate u a x in uw (log_potential a y x) * F i y) = lsum (fun k => 1 * f a (x_ s k) i k u) (seq 0 N)).
    { intros a i u. cbv zeta. unfold F. cbn [ksum]. rewrite <- lsum_scal. apply lsum_seq_ext. intros k _.
      unfold f, psi. cbv zeta. fold (g k (propagate u a x)). rewrite exp_Ropp. field. apply Rgt_not_eq, exp_pos. }
    assert (ML : forall a i, (i < N)%nat -> good (fun u => let y := propagate u a x in uw (log_potential a y x) * F i y) /\
       mean (fun u => let y := propagate u a x in uw (log_potential a y x) * F i y) = lsum (fun k => 1 * mean (f a (x_ s k) i k)) (seq 0 N)).
    { intros a i Hi. rewrite (functional_extensionality _ _ (EF a i)).
      apply (mean_lsum mean good Hm (fun _ => 1) (fun k => f a (x_ s k) i k)). intros k Hk. apply in_seq in Hk. apply Gf; auto. lia. }
    split; [intros i Hi; now apply ML|].
    transitivity (lsum (fun i => lsum (fun k => / lsum uw (pf_log_weights s) * (v_ s i * mean (f (x_ s k) (x_ s i) i k))) (seq 0 N)) (seq 0 N)).
    { apply lsum_seq_ext. intros i Hi. rewrite (proj2 (ML _ _ Hi)), <- lsum_scal. apply lsum_seq_ext. intros k Hk.
      assert (E : mean (f (x_ s i) (x_ s k) i k) = mean (f (x_ s k) (x_ s i) i k)) by exact (Hb (x_ s i) (x_ s k) (psi i k) (Gf _ _ i k Hi Hk) (Gf _ _ i k Hi Hk)).
      rewrite E. unfold wt, Rdiv. ring. }
    rewrite lsum_swap. apply lsum_seq_ext. intros k Hk. rewrite lsum_scal.
    unfold wt, Rdiv. rewrite (Rmult_comm (uw _) (/ _)), Rmult_assoc. f_equal.
    destruct (mean_lsum mean good Hm (fun i => v_ s i) (fun i => f (x_ s k) (x_ s i) i k) (seq 0 N)) as (_ & E).
    { intros i Hi. apply in_seq in Hi. apply Gf; auto. lia. }
    rewrite <- E. cbn [path_from]. cbv zeta.
    destruct (ksum_mean hist (x_ s k) (a_ s k) (fun past u => let y := propagate u (x_ s k) x in uw (log_potential (x_ s k) y x) * path r (past ++ [x_ s k]) y)) as (Ge & E').
    { intros past. apply Hg. }
    cbv zeta in E', Ge. rewrite <- E'. destruct Hm as (Hc & Hl).
    destruct (Hl _ (fun _ => 0) (v_ s k) 0 Ge (proj1 (Hc 0))) as (_ & Q). rewrite (proj2 (Hc 0)), Rmult_0_r, Rplus_0_r in Q. rewrite <- Q.
    f_equal. apply functional_extensionality. intros u. rewrite Rplus_0_r. rewrite ksum_scal.
    unfold f. cbv zeta. set (y := propagate u (x_ s k) x). fold (g k y).
    transitivity (lsum (fun i => uw (log_potential (x_ s k) y x) * exp (- h (x_ s k) y) * g k y * (v_ s i * exp (h (x_ s i) y) * K s y i k)) (seq 0 N)).
    { apply lsum_seq_ext. intros i _. unfold psi. ring. }
    rewrite lsum_scal. rewrite (Hkern _ _ y k V Lw Lp Hk). rewrite exp_Ropp. field. apply Rgt_not_eq, exp_pos.
  Qed.

  (** one step of the filter, for functions of the new state and its ancestor's index *)
  Definition jval (F : nat -> X -> R) (s : St) : R :=
    uw (pf_log_normalizing_constant s) * lsum (fun j => wt (pf_log_weights s) j * F (a_ s j) (x_ s j)) (seq 0 N).
  Lemma pf_step_joint w s x k : pinv s -> exists kr kp s' idx lw anc,
    split (pf_key s) (N + 1) = kr :: kp /\ length kp = N /\
    res (w kr) (pf_log_weights s) (pf_particles s) N = Ok (idx, lw, anc) /\
    (forall j, (j < N)%nat -> (nth j idx 0 < N)%nat /\ nth j anc dX = x_ s (nth j idx 0%nat)) /\
    step w s x k = Ok s' /\
    forall F, jval F s' = uw (pf_log_normalizing_constant s) *
      lsum (fun j => wt lw j * (let y := propagate (nth j (map w kp) (w kr)) (nth j anc dX) x in
                uw (log_potential (nth j anc dX) y x) * F (nth j idx 0%nat) y)) (seq 0 N).
  Proof using Hsplit Hfin Hres Htot HN.
    intros (W & V & z & Z).
    destruct (comb_succeeds dX split Hsplit (fun k => propagate (w k)) log_potential Hfin (fun k => res (w k))
                (res_ok dX res Hres w) (res_tot res Htot w) N HN s (pf_prepared N dummy x k) W V) as (s' & E & W' & V').
    destruct (comb_facts dX split Hsplit (fun k => propagate (w k)) log_potential (fun k => res (w k)) (res_ok dX res Hres w) N HN _ _ _ W V E)
      as (kr & kp & idx & lw & anc & E1 & E2 & _ & La & Ll & Li & Hlw & Hk & Hin & Hai & Hp' & Hnth & Hnl & Hj & Hz).
    assert (Lk : length kp = N). { pose proof (Hsplit (pf_key s) (N + 1)%nat) as L. rewrite E1 in L. simpl in L. lia. }
    change (pf_model_inputs (pf_prepared N dummy x k)) with x in *.
    assert (Hn : valid_logits (map2 eadd (map2 (fun a x0 => log_potential a x0 x) anc (pf_particles s')) lw)).
    { rewrite <- Hnl. exact V'. }
    assert (Lp : length (pf_particles s') = N) by apply W'.
    assert (Lq : length (map2 (fun a x0 => log_potential a x0 x) anc (pf_particles s')) = length lw).
    { rewrite map2_len. lia. }
    pose proof (pots_logit dX log_potential Hfin N HN anc (pf_particles s') x La Lp) as Hp.
    rewrite Hnl, Z, (increment_eq _ lw Lq Hlw Hn) in Hz. cbn [eadd] in Hz.
    exists kr, kp, s', idx, lw, anc.
    split; [exact E1|]. split; [exact Lk|]. split; [exact E2|]. split; [exact Hj|].
    split; [exact E|]. intros F. unfold jval. rewrite Hz, Hnl, Z, Hai. cbn [uw].
    pose proof (exp_ln_avg lw _ (fun i => F (nth i idx 0%nat) (nth i (pf_particles s') dX)) z Lq Hlw Hn Hp) as Q.
    rewrite Ll in Q. rewrite Q. f_equal. apply lsum_seq_ext. intros j Hlt.
    rewrite (map2_nth_d (fun a y => log_potential a y x) dX dX) by lia. rewrite Hp'.
    rewrite (map2_nth_d _ kr dX) by lia. rewrite map_nth. reflexivity.
  Qed.

  Lemma joint_fair (F : nat -> X -> R) s x k w : pinv s -> NoDup (split (pf_key s) (N + 1)) ->
    (forall i, (i < N)%nat -> good (fun u => let y := propagate u (x_ s i) x in uw (log_potential (x_ s i) y x) * F i y)) ->
    expectation keq mean (split (pf_key s) (N + 1))
      (fun w => match step w s x k with Ok s' => jval F s' | Err _ => 0 end) w
    = uw (pf_log_normalizing_constant s) *
      lsum (fun i => wt (pf_log_weights s) i * mean (fun u => let y := propagate u (x_ s i) x in uw (log_potential (x_ s i) y x) * F i y)) (seq 0 N).
  Proof using Hm Hsplit Hfin Hres Htot Hunb HN.
    intros Hs Hnd Hg.
    destruct (pf_step_joint w s x k Hs) as (kr & kp & _ & _ & _ & _ & E1 & Lk & _).
    rewrite E1 in Hnd |- *. inversion_clear Hnd as [|? ? Hkr Hnd']. cbn [expectation].
    set (M := fun i => mean (fun u => let y := propagate u (x_ s i) x in uw (log_potential (x_ s i) y x) * F i y)).
    set (z := uw (pf_log_normalizing_constant s)).
    destruct (Hunb (pf_log_weights s) (pf_particles s) M) as (Gf & Mf).
    { apply Hs. } { apply Hs. } { destruct Hs as ((A & B) & _). congruence. }
    assert (LN : length (pf_log_weights s) = N) by apply Hs. rewrite LN in Gf, Mf.
    match type of Mf with mean ?f = _ => set (D := f) in * end.
    match goal with |- mean ?f = _ => assert (E : f = (fun u => z * D u + 0 * 0)) end.
    { apply functional_extensionality. intros u.
      destruct (pf_step_joint (assign keq w kr u) s x k Hs) as (kr' & kp' & s1 & idx & lw & anc & E1' & _ & Er & Hj & _).
      rewrite E1 in E1'. injection E1' as <- <-. rewrite assign_same in Er.
      set (q := fun j u => let y := propagate u (nth j anc dX) x in uw (log_potential (nth j anc dX) y x) * F (nth j idx 0%nat) y).
      rewrite (expectation_ext keq mean kp _ (fun w0 => 0 +
        lsum (fun p => fst (snd p) * snd (snd p) (w0 (fst p))) (combine kp (map (fun j => (z * wt lw j, q j)) (seq 0 (length kp)))))).
      - rewrite (expectation_sum keq mean good Hm kp) with (2 := eq_trans (map_length _ _) (seq_length _ _)).
        + rewrite lsum_map, Lk. unfold D. rewrite Er. rewrite Rmult_0_l, Rplus_0_r, Rplus_0_l, <- lsum_scal.
          apply lsum_seq_ext. intros j Hlt. cbn [fst snd]. unfold M, q. rewrite (proj2 (Hj j Hlt)). ring.
        + exact Hnd'.
        + intros ag Hag. apply in_map_iff in Hag. destruct Hag as (j & <- & Hin). apply in_seq in Hin. cbn [snd]. unfold q.
          destruct (Hj j ltac:(lia)) as (Hlt & ->). now apply Hg.
      - intros w' Hw'.
        assert (Hu : w' kr = u) by (rewrite (Hw' kr Hkr); apply assign_same).
        destruct (pf_step_joint w' s x k Hs) as (kr' & kp' & s2 & idx' & lw' & anc' & E2' & _ & Er' & _ & Es & Hv).
        rewrite E1 in E2'. injection E2' as <- <-. rewrite Hu, Er in Er'. injection Er' as <- <- <-.
        rewrite Es, Hv, (seq_combine kp _ _ w' (w' kr)), Rplus_0_l, Lk.
        fold z. rewrite <- lsum_scal. apply lsum_seq_ext. intros j Hlt. unfold q. ring. }
    rewrite E. destruct Hm as (Hc & Hl). destruct (Hl D (fun _ => 0) z 0 Gf (proj1 (Hc 0))) as (_ & Q).
    rewrite Q, (proj2 (Hc 0)), Mf. rewrite Rmult_0_l, Rplus_0_r. reflexivity.
  Qed.

  (** ** the filter, with the states it went through *)
  Notation hs_step := (hstep split propagate log_potential res N dummy).
  Notation hs_key := (hkey (Key := Key) (X := X) (Inp := Inp)).
  Notation hs_inv := (hinv (Key := Key) (X := X) (Inp := Inp) N).
  Definition kval (r : list Inp) (hs : list St * St) : R :=
    uw (pf_log_normalizing_constant (snd hs)) *
    lsum (fun i => wt (pf_log_weights (snd hs)) i *
      ksum (fst hs) (x_ (snd hs) i) (a_ (snd hs) i) (fun past => path r past (x_ (snd hs) i))) (seq 0 N).
  Lemma kfair r : (forall x, In x r -> backward_potential mean good propagate log_potential h x) ->
    path_from_good mean good propagate log_potential r phi ->
    kernel_good mean good dX propagate log_potential h kern N r phi ->
    fair keq mean split (N + 1) hs_step hs_key hs_inv kval r.
  Proof using Hm Hsplit Hfin Hres Htot Hunb HN Hkern.
    intros Hb Hg Hbg x r' [hist s] k w -> (I & Fh) Hnd. cbn [snd fst] in I, Fh. unfold hkey in *. cbn [snd] in *.
    destruct (kswap hist s x r' I (Hb x (or_introl eq_refl)) Hg Hbg) as (Gs & Es). cbv zeta in Gs, Es.
    pose proof (joint_fair (fun i y => ksum (s :: hist) y i (fun past => path r' past y)) s x k w I Hnd Gs) as Q. cbv zeta in Q.
    etransitivity; [|etransitivity; [exact Q|unfold kval; cbn [fst snd]; f_equal; exact Es]].
    apply expectation_ext. intros w' _. unfold hstep. cbn [snd fst].
    destruct (step w' s x k) as [s'|e]; reflexivity.
  Qed.
  Lemma kgood_skip inputs : kernel_good mean good dX propagate log_potential h kern N inputs phi ->
    forall i, kernel_good mean good dX propagate log_potential h kern N (skipn i inputs) phi.
  Proof. induction inputs as [|x inputs IH]; intros H [|i]; simpl; auto. apply IH. apply H. Qed.

  Theorem kernel_history_unbiased x0 inputs key w0 : NoDup (consumed split key N (length inputs)) ->
    (forall x, In x inputs -> backward_potential mean good propagate log_potential h x) ->
    path_good mean good initial propagate log_potential x0 inputs phi ->
    kernel_good mean good dX propagate log_potential h kern N inputs phi ->
    exists est : (Key -> U) -> R,
      (forall w, exists hist s z,
         filter split (pf w) (x0 :: inputs) false (Some key) = Ok (map Ok (rev (s :: hist))) /\
         length hist = length inputs /\ pinv s /\ List.Forall pinv hist /\ pf_log_normalizing_constant s = Fin z /\
         est w = exp z * lsum (fun i => wt (pf_log_weights s) i * ksum hist (x_ s i) (a_ s i) (fun past => phi (past ++ [x_ s i]))) (seq 0 N)) /\
      expectation keq mean (consumed split key N (length inputs)) est w0
      = path_integral mean initial propagate log_potential x0 inputs phi.
  Proof using Hm Hsplit Hfin Hres Htot Hunb HN Hkern.
    intros Hnd Hb (Hg0 & Hg) Hbg.
    pose proof (Hsplit key (length (x0 :: inputs))) as L.
    destruct (split key (length (x0 :: inputs))) as [|c0 ks] eqn:Ec; [discriminate|].
    simpl in L. injection L as L.
    set (s0 := fun w : Key -> U => match pf_init_prepare split (fun k => initial (w k)) N x0 (Some c0) with Ok s => s | Err _ => pf_prepared N dummy x0 c0 end).
    assert (Hs0 : forall w, pf_init_prepare split (fun k => initial (w k)) N x0 (Some c0) = Ok (s0 w)) by reflexivity.
    assert (Hi : forall w, hs_inv ([], s0 w) /\ hs_key ([], s0 w) = c0).
    { intros w. destruct (init_facts split Hsplit (fun k => initial (w k)) N HN _ _ _ (Hs0 w)) as (A & B & C & D & E & F).
      split; [|exact E]. split; [|constructor]. split; [exact A|]. split; eauto. }
    set (steps := combine inputs ks).
    assert (Hst : map fst steps = inputs).
    { unfold steps. clear - L. revert ks L. induction inputs; intros [|k ks] L; try discriminate; simpl; auto. f_equal. apply IHinputs. simpl in L. lia. }
    assert (Lst : length steps = length inputs) by (rewrite <- Hst; now rewrite map_length).
    assert (Hfinal : forall w, exists hs, final hs_step w ([], s0 w) steps = Ok hs /\ hs_inv hs).
    { intros w. apply (final_ok hs_step hs_key hs_inv); [|apply Hi]. intros w' hs x k.
      apply (hstep_ok mean dX split Hsplit propagate log_potential Hfin res Hres Htot N HN). }
    exists (fun w => run_val kval [] (final hs_step w ([], s0 w) steps)). split.
    - intros w. destruct (Hfinal w) as (hs & E & I).
      destruct (pf_run_exists dX split Hsplit (fun k => initial (w k)) (fun k => propagate (w k)) log_potential Hfin
                  (fun k => res (w k)) (res_ok dX res Hres w) (res_tot res Htot w) N HN dummy (x0 :: inputs) key ltac:(discriminate)) as (states & Er & Ls & _).
      change (filter split (pf w) (x0 :: inputs) false (Some key) = Ok (map Ok states)) in Er.
      assert (Hstates : states = rev (snd hs :: fst hs)).
      { pose proof Er as Er'. unfold filter, prepare_keys in Er'. rewrite Ec in Er'. cbn [map] in Er'. cbv zeta in Er'.
        change (init_prepare (pf w) x0 (Some c0)) with (Ok (s0 w)) in Er'. injection Er' as Er'.
        destruct states as [|s1 states]; [discriminate|]. cbn [map] in Er'. injection Er' as <- Er'.
        replace (combine inputs (map Some ks)) with (map (fun xk : Inp * Key => (fst xk, Some (snd xk))) steps) in Er'.
        2:{ unfold steps. clear - L. revert ks L. induction inputs as [|x inputs IH]; intros [|k ks] L; try discriminate; [reflexivity|].
            simpl in L. cbn [combine map fst snd]. f_equal. apply IH. lia. }
        destruct (hist_states split initial propagate log_potential res N dummy w steps ([], s0 w) states Er') as (hs' & F & Rv). rewrite E in F. injection F as <-. now rewrite Rv. }
      destruct hs as [hist s]. cbn [fst snd] in Hstates. destruct I as (I1 & I2). cbn [fst snd] in I1, I2.
      destruct I1 as (W & V & z & Z). exists hist, s, z. rewrite <- Hstates. split; [exact Er|].
      split. { apply (f_equal (@length _)) in Hstates. rewrite Ls, rev_length in Hstates. simpl in Hstates. lia. }
      split; [split; [exact W|split; [exact V|eauto]]|]. split; [exact I2|]. split; [exact Z|].
      rewrite E. cbn [run_val]. unfold kval. cbn [fst snd]. rewrite Z. reflexivity.
    - assert (Ecs : consumed split key N (length inputs) = split c0 N ++ used split (N + 1) c0 steps).
      { unfold consumed. change (S (length inputs)) with (length (x0 :: inputs)). rewrite Ec. simpl firstn at 1. cbn [flat_map].
        rewrite app_nil_r. f_equal. unfold steps. now rewrite used_flat. }
      rewrite Ecs in Hnd |- *. destruct (NoDup_app_inv _ _ Hnd) as (N1 & N2 & N3).
      rewrite expectation_app.
      rewrite (expectation_ext keq mean (split c0 N) _ (fun w => 0 + lsum (fun p => fst (snd p) * snd (snd p) (w (fst p)))
         (combine (split c0 N) (map (fun j : nat => (/ INR N, fun u => path inputs [] (initial u x0))) (seq 0 (length (split c0 N))))))).
      + rewrite (expectation_sum keq mean good Hm) with (2 := eq_trans (map_length _ _) (seq_length _ _)).
        * rewrite lsum_map, Hsplit. cbn [fst snd]. rewrite Rplus_0_l. unfold path_integral.
          rewrite lsum_const, seq_length. field. apply not_0_INR. lia.
        * exact N1.
        * intros ag Hag. apply in_map_iff in Hag. destruct Hag as (j & <- & _). exact Hg0.
      + intros w1 _. destruct (Hi w1) as (I1 & K1).
        rewrite (expectation_ext keq mean _ _ (fun w => run_val kval [] (final hs_step w ([], s0 w1) steps))).
        * pose proof (run_expectation keq mean split (N + 1) hs_step hs_key hs_inv kval) as Q.
          rewrite <- K1 at 1. rewrite Q; auto.
          -- rewrite Hst, (seq_combine _ _ _ w1 (w1 c0)), Rplus_0_l, Hsplit. unfold kval. cbn [fst snd ksum].
             destruct (init_facts split Hsplit (fun k => initial (w1 k)) N HN _ _ _ (Hs0 w1)) as (A & B & C & D & E & F).
             rewrite C, F. cbn [uw]. rewrite exp_0, Rmult_1_l. apply lsum_seq_ext. intros j Hlt.
             assert (Ew : wt (pf_log_weights (s0 w1)) j = / INR N).
             { unfold wt. change (pf_log_weights (s0 w1)) with (zeros N). rewrite lsum_uw_zeros. unfold zeros.
               rewrite (nth_indep _ NInf (Fin 0)) by (rewrite repeat_length; lia).
               rewrite nth_repeat. cbn [uw]. rewrite exp_0. unfold Rdiv. ring. }
             rewrite Ew. f_equal. f_equal.
             rewrite (nth_indep _ dX (initial (w1 c0) x0)) by (rewrite map_length, Hsplit; lia).
             rewrite (map_nth (fun k' => initial (w1 k') x0)). rewrite map_nth. reflexivity.
          -- intros w' hs x k. apply (hstep_ok mean dX split Hsplit propagate log_potential Hfin res Hres Htot N HN).
          -- intros w w' hs x k. now apply hstep_local.
          -- intros i. rewrite Hst. apply kfair; [|now apply good_skip|now apply kgood_skip].
             intros x Hx. apply Hb. eapply in_skipn; eauto.
        * intros w2 Hw2. do 3 f_equal. unfold s0. cbn [pf_init_prepare]. f_equal. apply map_ext_in. intros k' Hk'.
          now rewrite Hw2 by (now apply N3).
  Qed.
End Kernel.
