(** Forward filtering, backward sampling estimates path integrals without bias. *)
From Coq Require Import Reals List Arith Bool Lia Lra FunctionalExtensionality.
From Verif Require Import Ext ScanModel ScanProofs DriverSpec DriverProofs DiscreteSpec Sums
  ResamplingModel ResamplingSpec ResamplingProofs ConditionalProofs KillingProofs SystematicProofs
  ConditionalLaw SmcModel SmcSpec SmcProofs BackwardProofs BackwardKernels SmcRuns UnbiasedSpec KeyProofs Martingale SmcUnbiased
  PathSpec PathProofs PathTracing FfbsSpec.
Import ListNotations.
Open Scope R_scope.

Lemma mean_lsum {U A} (mean : (U -> R) -> R) good (Hm : expectation_ok mean good) (c : A -> R) (f : A -> U -> R) (l : list A) :
  (forall a, In a l -> good (f a)) ->
  good (fun u => lsum (fun a => c a * f a u) l) /\
  mean (fun u => lsum (fun a => c a * f a u) l) = lsum (fun a => c a * mean (f a)) l.
Proof.
  destruct Hm as (Hc & Hl). induction l as [|a l IH]; intros Hg; cbn [lsum]; [apply Hc|].
  destruct IH as (G & E). { intros b Hb. apply Hg. now right. }
  destruct (Hl (f a) _ (c a) 1 (Hg a (or_introl eq_refl)) G) as (G' & E').
  rewrite E in E'.
  assert (X : (fun u => c a * f a u + 1 * lsum (fun a0 => c a0 * f a0 u) l) = (fun u => c a * f a u + lsum (fun a0 => c a0 * f a0 u) l)).
  { apply functional_extensionality. intros u. ring. }
  rewrite X in G', E'. split; [exact G'|]. rewrite E'. ring.
Qed.

Lemma lsum_swap {A B} (f : A -> B -> R) l m : lsum (fun a => lsum (fun b => f a b) m) l = lsum (fun b => lsum (fun a => f a b) l) m.
Proof.
  induction l as [|a l IH]; cbn [lsum].
  - induction m as [|b m IH]; cbn [lsum]; [reflexivity|]. rewrite <- IH. ring.
  - rewrite IH. clear IH. induction m as [|b m IH]; cbn [lsum]; [ring|]. rewrite <- IH. ring.
Qed.

Section Ffbs.
  Context {Key U X Inp : Type}.
  Variable keq : forall a b : Key, {a = b} + {a <> b}.
  Variable mean : (U -> R) -> R.
  Variable good : (U -> R) -> Prop.
  Hypothesis Hm : expectation_ok mean good.
  Variable dX : X.
  Variable split : Key -> nat -> list Key.
  Hypothesis Hsplit : split_ok split.
  Variable initial : U -> Inp -> X.
  Variable propagate : U -> X -> Inp -> X.
  Variable log_potential : X -> X -> Inp -> ext.
  Hypothesis Hfin : forall a b x, exists r, log_potential a b x = Fin r.
  Variable h : X -> X -> R.
  Variable res : U -> list ext -> list X -> nat -> result (list nat * list ext * list X).
  Hypothesis Hres : resampler_ok dX res.
  Hypothesis Htot : resampler_total res.
  Variable N : nat.
  Hypothesis Hunb : resampler_unbiased mean good N res.
  Hypothesis HN : (0 < N)%nat.
  Variable dummy : X.
  Variable phi : list X -> R.
  Notation St := (PFState Key X Inp).
  Notation pf w := (seeded_pf split initial propagate log_potential res N dummy w).
  Notation pinv := (pf_inv (Key := Key) (X := X) (Inp := Inp) N).
  Notation step := (pf_step split propagate log_potential res N dummy).
  Notation path r past x := (path_from mean propagate log_potential r phi past x).
  Notation x_ s i := (nth i (pf_particles s) dX).

  (** probability of the ancestor [i] of [y] in the state [s] *)
  Definition bprob (s : St) (y : X) (i : nat) : R :=
    backward_prob (pf_log_weights s) (fun i => Fin (h (x_ s i) y)) i.
  (** mean of [f](x_0, ..., x_t) when the ancestors of [y] are drawn backwards through the states of
      times t, ..., 0 *)
  Fixpoint bsum (hist : list St) (y : X) (f : list X -> R) : R :=
    match hist with
    | [] => f []
    | s :: r => lsum (fun i => bprob s y i * bsum r (x_ s i) (fun past => f (past ++ [x_ s i]))) (seq 0 N)
    end.

  Lemma bsum_ext hist : forall y f g, (forall p, f p = g p) -> bsum hist y f = bsum hist y g.
  Proof.
    induction hist as [|s r IH]; intros y f g H; cbn [bsum]; [apply H|].
    apply lsum_seq_ext. intros i _. f_equal. apply IH. intros p. apply H.
  Qed.
  Lemma bsum_scal hist c : forall y f, bsum hist y (fun p => c * f p) = c * bsum hist y f.
  Proof.
    induction hist as [|s r IH]; intros y f; cbn [bsum]; [reflexivity|].
    rewrite <- lsum_scal. apply lsum_seq_ext. intros i _. rewrite (IH _ (fun p => f (p ++ [x_ s i]))). ring.
  Qed.
  Lemma bsum_mean hist : forall y (f : list X -> U -> R), (forall p, good (f p)) ->
    good (fun u => bsum hist y (fun p => f p u)) /\
    mean (fun u => bsum hist y (fun p => f p u)) = bsum hist y (fun p => mean (f p)).
  Proof using Hm.
    induction hist as [|s r IH]; intros y f Hg; cbn [bsum]; [split; [apply Hg|reflexivity]|].
    destruct (mean_lsum mean good Hm (bprob s y) (fun i u => bsum r (x_ s i) (fun p => f (p ++ [x_ s i]) u)) (seq 0 N)) as (G & E).
    { intros i _. apply (IH _ (fun p => f (p ++ [x_ s i]))). intros p. apply Hg. }
    split; [exact G|]. rewrite E. apply lsum_seq_ext. intros i _. f_equal.
    apply (IH _ (fun p => f (p ++ [x_ s i]))). intros p. apply Hg.
  Qed.

  (** unnormalised weights *)
  Notation v_ s i := (uw (nth i (pf_log_weights s) NInf)).
  Definition bden (s : St) (y : X) : R := lsum (fun k => v_ s k * exp (h (x_ s k) y)) (seq 0 N).
  Lemma uw_nonneg e : 0 <= uw e.
  Proof. destruct e; simpl; try lra. left. apply exp_pos. Qed.
  Lemma weights_pos s : pinv s -> 0 < lsum (fun k => v_ s k) (seq 0 N).
  Proof.
    intros ((_ & L) & V & _). pose proof (valid_sum_pos _ V) as P. rewrite (lsum_nth_seq _ _ NInf), L in P. exact P.
  Qed.
  Lemma weighted_pos {A} (v g : A -> R) l : (forall a, 0 <= v a) -> (forall a, 0 < g a) -> 0 < lsum v l ->
    0 < lsum (fun a => v a * g a) l.
  Proof.
    intros Hv Hg. assert (P : 0 <= lsum (fun a => v a * g a) l).
    { clear - Hv Hg. induction l as [|a l IH]; cbn [lsum]; [lra|]. pose proof (Hv a). pose proof (Hg a). nra. }
    revert P. induction l as [|a l IH]; cbn [lsum]; [lra|]. intros P H.
    assert (P' : 0 <= lsum (fun a => v a * g a) l).
    { clear - Hv Hg. induction l as [|b l IH]; cbn [lsum]; [lra|]. pose proof (Hv b). pose proof (Hg b). nra. }
    pose proof (Hv a). pose proof (Hg a). destruct (Rlt_dec 0 (v a)) as [Ha|Ha]; [nra|].
    assert (v a = 0) by lra. rewrite H2 in *. specialize (IH P' ltac:(lra)). lra.
  Qed.
  Lemma bden_pos s y : pinv s -> 0 < bden s y.
  Proof.
    intros H. apply weighted_pos; [intros; apply uw_nonneg|intros; apply exp_pos|]. now apply weights_pos.
  Qed.
  Lemma bprob_eq s y i : pinv s -> bprob s y i = v_ s i * exp (h (x_ s i) y) / bden s y.
  Proof. intros ((_ & L) & _). unfold bprob, backward_prob, bden. rewrite L. reflexivity. Qed.

  (** exchanging the roles of the particle moved and its ancestor *)
  Lemma swap hist s x r : pinv s -> backward_potential mean good propagate log_potential h x ->
    path_from_good mean good propagate log_potential (x :: r) phi ->
    backward_good mean good propagate log_potential h (x :: r) phi ->
    let F y := bsum (s :: hist) y (fun past => path r past y) in
    (forall a, good (fun u => let y := propagate u a x in uw (log_potential a y x) * F y)) /\
    lsum (fun i => wt (pf_log_weights s) i * mean (fun u => let y := propagate u (x_ s i) x in uw (log_potential (x_ s i) y x) * F y)) (seq 0 N)
    = lsum (fun i => wt (pf_log_weights s) i * bsum hist (x_ s i) (fun past => path (x :: r) past (x_ s i))) (seq 0 N).
  Proof using Hm.
    intros Hs Hb (Hg & _) (Hbg & _) F.
    set (g := fun k y => bsum hist (x_ s k) (fun past => path r (past ++ [x_ s k]) y)).
    set (psi := fun k y => g k y / bden s y).
    set (f := fun a b k u => let y := propagate u a x in uw (log_potential a y x) * exp (h b y) * psi k y).
    assert (Gf : forall a b k, good (f a b k)).
    { intros a b k.
      destruct (bsum_mean hist (x_ s k) (fun past u => let y := propagate u a x in
         uw (log_potential a y x) * exp (h b y) * (path r (past ++ [x_ s k]) y / bden s y))) as (G & _).
      - intros past. specialize (Hbg a b past (x_ s k) (map (fun i => (v_ s i, x_ s i)) (seq 0 N))).
        assert (E : forall y, lsum (fun v => fst v * exp (h (snd v) y)) (map (fun i => (v_ s i, x_ s i)) (seq 0 N)) = bden s y).
        { intros y. rewrite lsum_map. reflexivity. }
        cbv zeta in Hbg |- *.
        replace (fun u => uw (log_potential a (propagate u a x) x) * exp (h b (propagate u a x)) *
             (path r (past ++ [x_ s k]) (propagate u a x) / bden s (propagate u a x)))
          with (fun u => uw (log_potential a (propagate u a x) x) * exp (h b (propagate u a x)) *
             (path r (past ++ [x_ s k]) (propagate u a x) /
               lsum (fun v => fst v * exp (h (snd v) (propagate u a x))) (map (fun i => (v_ s i, x_ s i)) (seq 0 N)))).
        + apply Hbg.
          * apply Forall_forall. intros v Hv. apply in_map_iff in Hv. destruct Hv as (i & <- & _). apply uw_nonneg.
          * rewrite lsum_map. now apply weights_pos.
        + apply functional_extensionality. intros u. now rewrite E.
      - replace (f a b k) with (fun u => bsum hist (x_ s k) (fun past => let y := propagate u a x in
           uw (log_potential a y x) * exp (h b y) * (path r (past ++ [x_ s k]) y / bden s y))); [exact G|].
        apply functional_extensionality. intros u. unfold f, psi, g. cbv zeta.
        set (y := propagate u a x). set (c := uw (log_potential a y x) * exp (h b y)).
        rewrite (bsum_ext hist _ _ (fun past => (c / bden s y) * path r (past ++ [x_ s k]) y)) by (intros; unfold Rdiv; ring).
        rewrite bsum_scal. unfold Rdiv. ring. }
    assert (EF : forall a u, (let y := propagate u a x in uw (log_potential a y x) * F y) = lsum (fun k => v_ s k * f a (x_ s k) k u) (seq 0 N)).
    { intros a u. cbv zeta. unfold F. cbn [bsum]. rewrite <- lsum_scal. apply lsum_seq_ext. intros k _.
      rewrite (bprob_eq s _ k Hs). unfold f, psi. cbv zeta. fold (g k (propagate u a x)). unfold Rdiv. ring. }
    assert (ML : forall a, good (fun u => let y := propagate u a x in uw (log_potential a y x) * F y) /\
       mean (fun u => let y := propagate u a x in uw (log_potential a y x) * F y) = lsum (fun k => v_ s k * mean (f a (x_ s k) k)) (seq 0 N)).
    { intros a. rewrite (functional_extensionality _ _ (EF a)).
      apply (mean_lsum mean good Hm (fun k => v_ s k) (fun k => f a (x_ s k) k)). intros k _. apply Gf. }
    split; [intros a; apply ML|].
    transitivity (lsum (fun i => lsum (fun k => wt (pf_log_weights s) k * (v_ s i * mean (f (x_ s k) (x_ s i) k))) (seq 0 N)) (seq 0 N)).
    { apply lsum_seq_ext. intros i _. rewrite (proj2 (ML _)), <- lsum_scal. apply lsum_seq_ext. intros k _.
      assert (E : mean (f (x_ s i) (x_ s k) k) = mean (f (x_ s k) (x_ s i) k)) by exact (Hb (x_ s i) (x_ s k) (psi k) (Gf _ _ k) (Gf _ _ k)).
      rewrite E. unfold wt, Rdiv. ring. }
    rewrite lsum_swap. apply lsum_seq_ext. intros k _. rewrite lsum_scal. f_equal.
    destruct (mean_lsum mean good Hm (fun i => v_ s i) (fun i => f (x_ s k) (x_ s i) k) (seq 0 N)) as (_ & E).
    { intros i _. apply Gf. }
    rewrite <- E. cbn [path_from]. cbv zeta.
    destruct (bsum_mean hist (x_ s k) (fun past u => let y := propagate u (x_ s k) x in uw (log_potential (x_ s k) y x) * path r (past ++ [x_ s k]) y)) as (_ & E').
    { intros past. apply Hg. }
    cbv zeta in E'. rewrite <- E'. f_equal. apply functional_extensionality. intros u. rewrite bsum_scal.
    unfold f. cbv zeta. set (y := propagate u (x_ s k) x). fold (g k y).
    transitivity (lsum (fun i => uw (log_potential (x_ s k) y x) * psi k y * (v_ s i * exp (h (x_ s i) y))) (seq 0 N)).
    { apply lsum_seq_ext. intros i _. ring. }
    rewrite lsum_scal. fold (bden s y). unfold psi. pose proof (bden_pos s y Hs). field. lra.
  Qed.

  (** ** the filter, with the states it went through *)
  Definition hstep (w : Key -> U) (hs : list St * St) (x : Inp) (k : Key) : result (list St * St) :=
    bind (step w (snd hs) x k) (fun s' => Ok (snd hs :: fst hs, s')).
  Definition hkey (hs : list St * St) : Key := pf_key (snd hs).
  Definition hinv (hs : list St * St) : Prop := pinv (snd hs) /\ List.Forall pinv (fst hs).
  Definition hval (r : list Inp) (hs : list St * St) : R :=
    uw (pf_log_normalizing_constant (snd hs)) *
    lsum (fun i => wt (pf_log_weights (snd hs)) i * bsum (fst hs) (x_ (snd hs) i) (fun past => path r past (x_ (snd hs) i))) (seq 0 N).

  Lemma hstep_ok w hs x k : hinv hs -> exists hs', hstep w hs x k = Ok hs' /\ hinv hs' /\ hkey hs' = k.
  Proof using mean Hsplit Hfin Hres Htot HN.
    intros (I & F). destruct (pf_step_facts mean dX split Hsplit propagate log_potential Hfin res Hres Htot N HN dummy (fun _ => 0) w (snd hs) x k I)
      as (? & ? & s' & ? & ? & ? & _ & _ & _ & _ & _ & _ & E & I' & K & _).
    exists (snd hs :: fst hs, s'). unfold hstep. rewrite E. split; [reflexivity|]. split; [split; [exact I'|constructor; auto]|exact K].
  Qed.
  Lemma hstep_local w w' hs x k : hinv hs -> (forall k', In k' (split (hkey hs) (N + 1)) -> w k' = w' k') ->
    hstep w hs x k = hstep w' hs x k.
  Proof using HN.
    intros (I & _) H. unfold hstep. now rewrite (pf_step_local split propagate log_potential res N dummy w w' (snd hs) x k (proj2 (proj1 I)) H).
  Qed.
  Lemma hfair r : (forall x, In x r -> backward_potential mean good propagate log_potential h x) ->
    path_from_good mean good propagate log_potential r phi -> backward_good mean good propagate log_potential h r phi ->
    fair keq mean split (N + 1) hstep hkey hinv hval r.
  Proof using Hm Hsplit Hfin Hres Htot Hunb HN.
    intros Hb Hg Hbg x r' [hist s] k w -> (I & Fh) Hnd. cbn [snd fst] in I, Fh. unfold hkey in *. cbn [snd] in *.
    destruct (swap hist s x r' I (Hb x (or_introl eq_refl)) Hg Hbg) as (Gs & Es). cbv zeta in Gs, Es.
    set (F := fun y => bsum (s :: hist) y (fun past => path r' past y)) in *.
    pose proof (pf_fair keq mean good Hm dX split Hsplit propagate log_potential Hfin res Hres Htot N Hunb HN dummy F [x]) as Q.
    assert (Q1 : fk_from_good mean good propagate log_potential [x] F). { cbn [fk_from_good fk_from]. split; [exact Gs|exact Logic.I]. }
    specialize (Q Q1 x [] s k w eq_refl I Hnd).
    etransitivity; [|etransitivity; [exact Q|]].
    - apply expectation_ext. intros w' _. unfold hstep. cbn [snd fst].
      destruct (step w' s x k) as [s'|e]; reflexivity.
    - unfold pf_val, hval. cbn [fst snd]. f_equal. rewrite <- Es. reflexivity.
  Qed.

  Lemma good_skip inputs : path_from_good mean good propagate log_potential inputs phi ->
    forall i, path_from_good mean good propagate log_potential (skipn i inputs) phi.
  Proof. induction inputs as [|x inputs IH]; intros H [|i]; simpl; auto. apply IH. apply H. Qed.
  Lemma bgood_skip inputs : backward_good mean good propagate log_potential h inputs phi ->
    forall i, backward_good mean good propagate log_potential h (skipn i inputs) phi.
  Proof. induction inputs as [|x inputs IH]; intros H [|i]; simpl; auto. apply IH. apply H. Qed.
  Lemma in_skipn {A} (l : list A) : forall i a, In a (skipn i l) -> In a l.
  Proof. induction l as [|b l IH]; intros [|i] a H; simpl in *; auto. right. now apply (IH i). Qed.

  (** the states of a run are those the history collects *)
  Lemma hist_states w : forall steps hs l,
    scan_states (fun prev (xk : Inp * option Key) => filter_combine (pf w) prev (filter_prepare (pf w) (fst xk) (snd xk)))
      (Ok (snd hs)) (map (fun xk => (fst xk, Some (snd xk))) steps) = map Ok l ->
    exists hs', final hstep w hs steps = Ok hs' /\ rev (snd hs' :: fst hs') = rev (snd hs :: fst hs) ++ l.
  Proof.
    induction steps as [|[x k] steps IH]; intros hs l E.
    - destruct l; [|discriminate]. exists hs. split; [reflexivity|]. now rewrite app_nil_r.
    - cbn [map scan_states fst snd] in E. destruct l as [|s1 l]; [discriminate|]. injection E as E1 E2.
      assert (E1' : step w (snd hs) x k = Ok s1) by exact E1.
      change (scan_states (fun prev (xk : Inp * option Key) => filter_combine (pf w) prev (filter_prepare (pf w) (fst xk) (snd xk)))
         (step w (snd hs) x k) (map (fun xk => (fst xk, Some (snd xk))) steps) = map Ok l) in E2.
      rewrite E1' in E2. destruct (IH (snd hs :: fst hs, s1) l E2) as (hs' & F & R).
      exists hs'. split.
      + unfold final in F |- *. cbn [fold_left fst snd bind]. unfold hstep at 2. now rewrite E1'.
      + rewrite R. cbn [fst snd rev]. now rewrite <- !app_assoc.
  Qed.

  Theorem history_unbiased x0 inputs key w0 : NoDup (consumed split key N (length inputs)) ->
    (forall x, In x inputs -> backward_potential mean good propagate log_potential h x) ->
    path_good mean good initial propagate log_potential x0 inputs phi ->
    backward_good mean good propagate log_potential h inputs phi ->
    exists est : (Key -> U) -> R,
      (forall w, exists hist s z,
         filter split (pf w) (x0 :: inputs) false (Some key) = Ok (map Ok (rev (s :: hist))) /\
         length hist = length inputs /\ pinv s /\ List.Forall pinv hist /\ pf_log_normalizing_constant s = Fin z /\
         est w = exp z * lsum (fun i => wt (pf_log_weights s) i * bsum hist (x_ s i) (fun past => phi (past ++ [x_ s i]))) (seq 0 N)) /\
      expectation keq mean (consumed split key N (length inputs)) est w0
      = path_integral mean initial propagate log_potential x0 inputs phi.
  Proof using Hm Hsplit Hfin Hres Htot Hunb HN.
    intros Hnd Hb (Hg0 & Hg) Hbg.
    pose proof (Hsplit key (length (x0 :: inputs))) as L.
    destruct (split key (length (x0 :: inputs))) as [|c0 ks] eqn:Ec; [discriminate|].
    simpl in L. injection L as L.
    set (s0 := fun w : Key -> U => match pf_init_prepare split (fun k => initial (w k)) N x0 (Some c0) with Ok s => s | Err _ => pf_prepared N dummy x0 c0 end).
    assert (Hs0 : forall w, pf_init_prepare split (fun k => initial (w k)) N x0 (Some c0) = Ok (s0 w)) by reflexivity.
    assert (Hi : forall w, hinv ([], s0 w) /\ hkey ([], s0 w) = c0).
    { intros w. destruct (init_facts split Hsplit (fun k => initial (w k)) N HN _ _ _ (Hs0 w)) as (A & B & C & D & E & F).
      split; [|exact E]. split; [|constructor]. split; [exact A|]. split; eauto. }
    set (steps := combine inputs ks).
    assert (Hst : map fst steps = inputs).
    { unfold steps. clear - L. revert ks L. induction inputs; intros [|k ks] L; try discriminate; simpl; auto. f_equal. apply IHinputs. simpl in L. lia. }
    assert (Lst : length steps = length inputs) by (rewrite <- Hst; now rewrite map_length).
    assert (Hfinal : forall w, exists hs, final hstep w ([], s0 w) steps = Ok hs /\ hinv hs).
    { intros w. apply (final_ok hstep hkey hinv); [|apply Hi]. intros w' hs x k. apply hstep_ok. }
    exists (fun w => run_val hval [] (final hstep w ([], s0 w) steps)). split.
    - intros w. destruct (Hfinal w) as (hs & E & I).
      destruct (pf_run_exists dX split Hsplit (fun k => initial (w k)) (fun k => propagate (w k)) log_potential Hfin
                  (fun k => res (w k)) (res_ok dX res Hres w) (res_tot res Htot w) N HN dummy (x0 :: inputs) key ltac:(discriminate)) as (states & Er & Ls & _).
      change (filter split (pf w) (x0 :: inputs) false (Some key) = Ok (map Ok states)) in Er.
      assert (Hstates : states = rev (snd hs :: fst hs)).
      { pose proof Er as Er'. unfold filter, prepare_keys in Er'. rewrite Ec in Er'. cbn [map] in Er'. cbv zeta in Er'.
        change (init_prepare (pf w) x0 (Some c0)) with (Ok (s0 w)) in Er'. injection Er' as Er'.
        destruct states as [|s1 states]; [discriminate|]. cbn [map] in Er'. injection Er' as <- Er'.
        replace (combine inputs (map Some ks)) with (map (fun xk : Inp * Key => (fst xk, Some (snd xk))) steps) in Er'.
        2:{ unfold steps. clear - L. revert ks L. induction inputs as [|x inputs IH]; intros [|k ks] L; try discriminate; [reflexivity|].
            simpl in L. cbn [combine map fst snd]. f_equal. apply IH. lia. }
        destruct (hist_states w steps ([], s0 w) states Er') as (hs' & F & Rv). rewrite E in F. injection F as <-. now rewrite Rv. }
      destruct hs as [hist s]. cbn [fst snd] in Hstates. destruct I as (I1 & I2). cbn [fst snd] in I1, I2.
      destruct I1 as (W & V & z & Z). exists hist, s, z. rewrite <- Hstates. split; [exact Er|].
      split. { apply (f_equal (@length _)) in Hstates. rewrite Ls, rev_length in Hstates. simpl in Hstates. lia. }
      split; [split; [exact W|split; [exact V|eauto]]|]. split; [exact I2|]. split; [exact Z|].
      rewrite E. cbn [run_val]. unfold hval. cbn [fst snd]. rewrite Z. reflexivity.
    - assert (Ecs : consumed split key N (length inputs) = split c0 N ++ used split (N + 1) c0 steps).
      { unfold consumed. change (S (length inputs)) with (length (x0 :: inputs)). rewrite Ec. simpl firstn at 1. cbn [flat_map].
        rewrite app_nil_r. f_equal. unfold steps. now rewrite used_flat. }
      rewrite Ecs in Hnd |- *. destruct (NoDup_app_inv _ _ Hnd) as (N1 & N2 & N3).
      rewrite expectation_app.
      rewrite (expectation_ext keq mean (split c0 N) _ (fun w => 0 + lsum (fun p => fst (snd p) * snd (snd p) (w (fst p)))
         (combine (split c0 N) (map (fun j : nat => (/ INR N, fun u => path inputs [] (initial u x0))) (seq 0 (length (split c0 N))))))).
      + rewrite (expectation_sum keq mean good Hm) with (2 := eq_trans (map_length _ _) (seq_length _ _)).
        * rewrite lsum_map, Hsplit. cbn [fst snd]. rewrite Rplus_0_l. unfold path_integral.
          rewrite lsum_const, seq_length. field. apply not_0_INR. lia.
        * exact N1.
        * intros ag Hag. apply in_map_iff in Hag. destruct Hag as (j & <- & _). exact Hg0.
      + intros w1 _. destruct (Hi w1) as (I1 & K1).
        rewrite (expectation_ext keq mean _ _ (fun w => run_val hval [] (final hstep w ([], s0 w1) steps))).
        * pose proof (run_expectation keq mean split (N + 1) hstep hkey hinv hval) as Q.
          rewrite <- K1 at 1. rewrite Q; auto.
          -- rewrite Hst, (seq_combine _ _ _ w1 (w1 c0)), Rplus_0_l, Hsplit. unfold hval. cbn [fst snd bsum].
             destruct (init_facts split Hsplit (fun k => initial (w1 k)) N HN _ _ _ (Hs0 w1)) as (A & B & C & D & E & F).
             rewrite C, F. cbn [uw]. rewrite exp_0, Rmult_1_l. apply lsum_seq_ext. intros j Hlt.
             assert (Ew : wt (pf_log_weights (s0 w1)) j = / INR N).
             { unfold wt. change (pf_log_weights (s0 w1)) with (zeros N). rewrite lsum_uw_zeros. unfold zeros.
               rewrite (nth_indep _ NInf (Fin 0)) by (rewrite repeat_length; lia).
               rewrite nth_repeat. cbn [uw]. rewrite exp_0. unfold Rdiv. ring. }
             rewrite Ew. f_equal. f_equal.
             rewrite (nth_indep _ dX (initial (w1 c0) x0)) by (rewrite map_length, Hsplit; lia).
             rewrite (map_nth (fun k' => initial (w1 k') x0)). rewrite map_nth. reflexivity.
          -- intros w' hs x k. apply hstep_ok.
          -- intros w w' hs x k. apply hstep_local.
          -- intros i. rewrite Hst. apply hfair; [|now apply good_skip|now apply bgood_skip].
             intros x Hx. apply Hb. eapply in_skipn; eauto.
        * intros w2 Hw2. do 3 f_equal. unfold s0. cbn [pf_init_prepare]. f_equal. apply map_ext_in. intros k' Hk'.
          now rewrite Hw2 by (now apply N3).
  Qed.
End Ffbs.
