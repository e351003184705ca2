(** The trajectories returned by the ancestor-tracing smoother estimate path integrals without bias. *)
From Coq Require Import Reals List Arith Bool Lia Lra FunctionalExtensionality.
From Verif Require Import Ext ScanModel ScanProofs DriverSpec DriverProofs DiscreteSpec Sums
  ResamplingModel ResamplingSpec ResamplingProofs ConditionalProofs KillingProofs SystematicProofs
  ConditionalLaw SmcModel SmcSpec SmcProofs BackwardProofs SmcRuns UnbiasedSpec KeyProofs Martingale SmcUnbiased SurvivalSpec SmcDead
  PathSpec PathProofs.
Import ListNotations.
Open Scope R_scope.

Lemma nth_error_firstn_lt {A} (l : list A) n t : (t < n)%nat -> nth_error (firstn n l) t = nth_error l t.
Proof. revert n t. induction l as [|a l IH]; intros [|n] [|t] H; try lia; simpl; auto. apply IH. lia. Qed.
Lemma list_nth_error_ext {A} (l m : list A) : (forall t, nth_error l t = nth_error m t) -> l = m.
Proof.
  revert m. induction l as [|a l IH]; intros [|b m] H; auto; pose proof (H 0%nat) as H0; simpl in H0; try discriminate.
  injection H0 as ->. f_equal. apply IH. intros t. exact (H (S t)).
Qed.
Lemma map_Ok_inj' {A} (l m : list A) : map Ok l = map Ok m -> l = m.
Proof. revert m. induction l as [|a l IH]; intros [|b m] H; try discriminate; auto. injection H as -> H. f_equal. auto. Qed.

(** ** a run only looks at the seeds of the keys it consumes *)
Section Local.
  Context {Key U X Inp : Type}.
  Variable split : Key -> nat -> list Key.
  Hypothesis Hsplit : split_ok split.
  Variable initial : U -> Inp -> X.
  Variable propagate : U -> X -> Inp -> X.
  Variable log_potential : X -> X -> Inp -> ext.
  Variable res : U -> list ext -> list X -> nat -> result (list nat * list ext * list X).
  Variable N : nat.
  Variable dummy : X.
  Notation pf w := (seeded_pf split initial propagate log_potential res N dummy w).

  Lemma run_local w w' x0 inputs key states states' :
    (forall k, In k (consumed split key N (length inputs)) -> w k = w' k) ->
    (forall t s, nth_error states t = Some s -> length (pf_log_weights s) = N) ->
    filter split (pf w) (x0 :: inputs) false (Some key) = Ok (map Ok states) ->
    filter split (pf w') (x0 :: inputs) false (Some key) = Ok (map Ok states') ->
    states = states'.
  Proof using Hsplit.
    intros Hw HL R R'.
    destruct (run_steps split Hsplit _ _ _ _ _ _ R) as (L & H0 & HS).
    destruct (run_steps split Hsplit _ _ _ _ _ _ R') as (L' & H0' & HS').
    assert (A : forall t, nth_error states t = nth_error states' t /\
       forall s, nth_error states t = Some s -> nth_error (split key (length (x0 :: inputs))) t = Some (pf_key s)).
    { induction t as [|t (IH & IK)].
      - destruct (H0 x0 eq_refl) as (k & s1 & Hk & Hi & E1).
        destruct (H0' x0 eq_refl) as (k' & s1' & Hk' & Hi' & E1'). rewrite Hk in Hk'. injection Hk' as <-.
        rewrite E1, E1'. split.
        + f_equal. cbn [pf_init_prepare] in Hi, Hi'. injection Hi as <-. injection Hi' as <-. f_equal.
          apply map_ext_in. intros c Hc. rewrite Hw; [reflexivity|]. unfold consumed. apply in_or_app. left.
          cbn [length] in Hk. destruct (split key (S (length inputs))) as [|k0 ks]; [discriminate|]. simpl in Hk. injection Hk as ->.
          cbn [firstn flat_map]. now rewrite app_nil_r.
        + intros s Hs. injection Hs as <-. cbn [pf_init_prepare] in Hi. injection Hi as <-. exact Hk.
      - destruct (nth_error (x0 :: inputs) (S t)) as [x|] eqn:Ex.
        2:{ apply nth_error_None in Ex. assert (A : nth_error states (S t) = None) by (apply nth_error_None; lia).
            assert (A' : nth_error states' (S t) = None) by (apply nth_error_None; lia). rewrite A, A'. split; [reflexivity|discriminate]. }
        assert (Hlt : (S t < length (x0 :: inputs))%nat) by (apply nth_error_Some; congruence).
        destruct (nth_error states t) as [s|] eqn:Es; [|apply nth_error_None in Es; lia].
        destruct (HS t x s Ex Es) as (k & p & s1 & Hk & Hp & Hc & E1).
        destruct (HS' t x s Ex (eq_sym IH)) as (k' & p' & s1' & Hk' & Hp' & Hc' & E1'). rewrite Hk in Hk'. injection Hk' as <-.
        simpl in Hp, Hp'. injection Hp as <-. injection Hp' as <-.
        change (pf_step split propagate log_potential res N dummy w s x k = Ok s1) in Hc.
        change (pf_step split propagate log_potential res N dummy w' s x k = Ok s1') in Hc'.
        rewrite E1, E1'. split.
        + f_equal. rewrite (pf_step_local split propagate log_potential res N dummy w w' s x k) in Hc; [congruence|now apply (HL t)|].
          intros c Hin. apply Hw. unfold consumed. apply in_or_app. right. apply in_flat_map. exists (pf_key s). split; [|exact Hin].
          pose proof (IK s eq_refl) as Hks. cbn [length] in Hks, Hlt.
          apply (nth_error_In _ t). rewrite nth_error_firstn_lt by lia. exact Hks.
        + intros s2 E2. injection E2 as <-. unfold pf_step, pf_filter_combine in Hc.
          destruct (split (pf_key s) (length (pf_log_weights s) + 1)); [discriminate|].
          apply bind_ok in Hc. destruct Hc as ([[a b] c] & _ & Hc). destruct (_ && _); [|discriminate]. injection Hc as <-. exact Hk. }
    apply (list_nth_error_ext _ _ (fun t => proj1 (A t))).
  Qed.
End Local.

(** ** the tracing smoother *)
Section Tracing.
  Context {Key U X Inp : Type}.
  Variable keq : forall a b : Key, {a = b} + {a <> b}.
  Variable mean : (U -> R) -> R.
  Variable good : (U -> R) -> Prop.
  Hypothesis Hm : expectation_ok mean good.
  Variable dX : X.
  Variable split : Key -> nat -> list Key.
  Hypothesis Hsplit : split_ok split.
  Hypothesis Hinj : split_injective split.
  Variable initial : U -> Inp -> X.
  Variable propagate : U -> X -> Inp -> X.
  Variable log_potential : X -> X -> Inp -> ext.
  Hypothesis Hlog : forall a b x, is_logit (log_potential a b x).
  Variable res sres : U -> list ext -> list X -> nat -> result (list nat * list ext * list X).
  Hypothesis Hres : resampler_ok dX res.
  Hypothesis Htot : resampler_total res.
  Hypothesis Hsres : resampler_ok dX sres.
  Variable N M : nat.
  Hypothesis Hstot : forall u l xs, valid_logits l -> length l = N -> length xs = N -> exists out, sres u l xs M = Ok out.
  Hypothesis Hrev : (forall a b x, exists r, log_potential a b x = Fin r) \/
    (resampler_revives res /\ forall u xs, length xs = N -> exists out, sres u (repeat NInf N) xs M = Ok out).
  Hypothesis Hunb : resampler_unbiased mean good N res.
  Hypothesis Hsunb : resampler_unbiased_to mean good N M sres.
  Hypothesis HN : (0 < N)%nat.
  Hypothesis HM : (0 < M)%nat.
  Variable dummy : X.
  Variable dummy_like : Inp -> Inp.
  Variable phi : list X -> R.
  Notation pf w := (seeded_pf split initial propagate log_potential res N dummy w).
  Notation sm w := (ps_build_smoother split log_potential (tracing_simulate dX) (fun k : Key => sres (w k)) M dummy_like).
  Notation St := (PFState Key X Inp).

  Lemma rk_fresh fkey skey T kT k1 rk : fkey <> skey ->
    nth_error (split skey (S T)) 0 = Some kT -> split kT 2 = [k1; rk] -> ~ In rk (consumed split fkey N T).
  Proof using Hinj.
    intros Hne H1 H2 H3. assert (Hrk : nth_error (split kT 2) 1 = Some rk) by now rewrite H2.
    assert (A : forall c n l, incl l (split fkey (S T)) -> In c (flat_map (fun k => split k n) l) -> c <> rk).
    { intros c n l Hl Hc ->. apply in_flat_map in Hc. destruct Hc as (k & Hk & Hc). apply In_nth_error in Hc. destruct Hc as (i & Hc).
      destruct (Hinj _ _ _ _ _ _ _ Hrk Hc) as (-> & _ & _). apply Hl, In_nth_error in Hk. destruct Hk as (j & Hk).
      destruct (Hinj _ _ _ _ _ _ _ H1 Hk) as (E & _ & _). congruence. }
    assert (F : forall n, incl (firstn n (split fkey (S T))) (split fkey (S T))).
    { intros n c Hc. rewrite <- (firstn_skipn n (split fkey (S T))). apply in_or_app. now left. }
    unfold consumed in H3. apply in_app_or in H3. destruct H3 as [H3|H3]; eapply A; eauto.
  Qed.

  (** reading the trajectories of the smoother off the filter states *)
  Lemma line_of_trace (fstates : list St) (sstates : list (PSState Key X Inp)) T k b :
    length fstates = S T -> length sstates = length fstates ->
    (forall t f s, nth_error fstates t = Some f -> nth_error sstates t = Some s ->
       (b t < N)%nat /\ nth k (ps_particles s) dX = nth (b t) (pf_particles f) dX) ->
    (forall t f', nth_error fstates (S t) = Some f' -> b t = nth (b (S t)) (pf_ancestor_indices f') 0%nat) ->
    map (fun s => nth k (ps_particles s) dX) sstates = ancestral_line dX fstates T (b T).
  Proof using HM HN.
    intros L1 L2 H1 H2.
    assert (A : forall t, (t <= T)%nat -> ancestral_line dX fstates t (b t) = map (fun s => nth k (ps_particles s) dX) (firstn (S t) sstates)).
    { induction t as [|t IH]; intros Ht.
      - destruct fstates as [|f fs]; [discriminate|]. destruct sstates as [|s ss]; [discriminate|].
        cbn [ancestral_line nth_error firstn map app]. now rewrite (proj2 (H1 0%nat f s eq_refl eq_refl)).
      - cbn [ancestral_line]. destruct (nth_error fstates (S t)) as [f|] eqn:Ef; [|apply nth_error_None in Ef; lia].
        destruct (nth_error sstates (S t)) as [s|] eqn:Es; [|apply nth_error_None in Es; lia].
        rewrite <- (H2 t f Ef), IH by lia. rewrite <- (proj2 (H1 _ f s Ef Es)).
        assert (F : firstn (S (S t)) sstates = firstn (S t) sstates ++ [s]).
        { clear - Es. revert t Es. generalize sstates as l. induction l as [|a l IHl]; intros t Es; [destruct t; discriminate|].
          destruct t as [|t]; cbn [nth_error] in Es.
          - destruct l; [discriminate|]. simpl in Es. injection Es as ->. reflexivity.
          - change (a :: firstn (S (S t)) l = a :: (firstn (S t) l ++ [s])). f_equal. now apply IHl. }
        now rewrite F, map_app. }
    rewrite A by lia. rewrite firstn_all2 by lia. reflexivity.
  Qed.

  Theorem tracing_unbiased x0 x1 trans' inputs fkey skey w0 :
    let trans := x1 :: trans' in
    let T := length trans in
    (inputs = trans \/ exists x, inputs = x :: trans) ->
    fkey <> skey ->
    path_good mean good initial propagate log_potential x0 trans phi ->
    exists kT k1 rk, nth_error (split skey (S T)) 0 = Some kT /\ split kT 2 = [k1; rk] /\ ~ In rk (consumed split fkey N T) /\
    exists est : (Key -> U) -> R,
      (forall w, exists fstates s sstates,
         filter split (pf w) (x0 :: trans) false (Some fkey) = Ok (map Ok fstates) /\
         nth_error fstates T = Some s /\
         smoother split dummy_like pf_model_inputs (sm w) fstates (Some inputs) false (Some skey) = Ok (map Ok sstates) /\
         length sstates = S T /\
         ((pf_log_normalizing_constant s = NInf /\ est w = 0) \/
          exists z, pf_log_normalizing_constant s = Fin z /\
            est w = exp z * (lsum (fun k => phi (map (fun s => nth k (ps_particles s) dX) sstates)) (seq 0 M) / INR M))) /\
      expectation keq mean (consumed split fkey N T ++ [rk]) est w0
      = path_integral mean initial propagate log_potential x0 trans phi.
  Proof using Hm Hsplit Hinj Hlog Hres Htot Hsres Hstot Hrev Hunb Hsunb HN HM.
    intros trans T Hin Hne Hg.
    pose proof (Hsplit skey (S T)) as L0. destruct (nth_error (split skey (S T)) 0) as [kT|] eqn:EkT; [|apply nth_error_None in EkT; lia].
    pose proof (Hsplit kT 2%nat) as L1. destruct (split kT 2) as [|k1 [|rk [|? ?]]] eqn:Erk; try discriminate.
    pose proof (rk_fresh _ _ _ _ _ _ Hne EkT Erk) as Hfresh.
    exists kT, k1, rk. split; [reflexivity|]. split; [exact Erk|]. split; [exact Hfresh|].
    assert (Hrev' : (forall a b x, exists r, log_potential a b x = Fin r) \/ resampler_revives res).
    { destruct Hrev as [H|(H & _)]; auto. }
    destruct (lines_unbiased keq mean good Hm dX split Hsplit initial propagate log_potential Hlog res Hres Htot Hrev' N Hunb HN dummy phi
       x0 trans fkey w0 (consumed_NoDup split fkey N (length trans) Hinj) Hg) as (estA & HA & EA). fold T in HA, EA.
    set (run := fun w => match filter split (pf w) (x0 :: trans) false (Some fkey) with
                         | Ok l => flat_map (fun r => match r with Ok s => [s] | Err _ => [] end) l
                         | Err _ => [] end).
    assert (Hrun : forall w states, filter split (pf w) (x0 :: trans) false (Some fkey) = Ok (map Ok states) -> run w = states).
    { intros w states E. unfold run. rewrite E. clear. induction states as [|s l IH]; [reflexivity|]. simpl. now rewrite IH. }
    set (draw := fun (u : U) (s : St) (v : nat -> R) => match sres u (pf_log_weights s) (pf_particles s) M with
                         | Ok (idx, _, _) => lsum (fun j => v (nth j idx 0%nat)) (seq 0 M) / INR M
                         | Err _ => 0 end).
    set (est := fun w => match nth_error (run w) T with
                         | Some s => uw (pf_log_normalizing_constant s) *
                                       draw (w rk) s (fun j => phi (ancestral_line dX (run w) T j))
                         | None => 0 end).
    assert (HA' : forall w, exists s, filter split (pf w) (x0 :: trans) false (Some fkey) = Ok (map Ok (run w)) /\
         nth_error (run w) T = Some s /\ length (run w) = S T /\
         (forall t s', nth_error (run w) t = Some s' -> dinv res N s' /\ (live s -> live s')) /\
         estimate (pf_log_normalizing_constant s) (pf_log_weights s)
           (map (fun j => phi (ancestral_line dX (run w) T j)) (seq 0 N)) (estA w)).
    { intros w. destruct (HA w) as (states & s & R & Es & _ & A & B). rewrite (Hrun w states R). exists s.
      repeat (split; [assumption|]). split; [|auto]. destruct (run_steps split Hsplit _ _ _ _ _ _ R) as (L & _). exact L. }
    assert (Hloc : forall w u, run (assign keq w rk u) = run w).
    { intros w u. destruct (HA' w) as (s & R & _ & _ & A & _). destruct (HA' (assign keq w rk u)) as (s' & R' & _).
      symmetry. apply (run_local split Hsplit initial propagate log_potential res N dummy w (assign keq w rk u) x0 trans fkey); auto.
      - intros k Hk. unfold assign. destruct (keq rk k) as [<-|]; [contradiction|reflexivity].
      - intros t st Et. destruct (A t st Et) as ((W & _) & _). apply W. }
    exists est. split.
    - intros w. destruct (HA' w) as (s & R & Es & Lr & A & B).
      destruct (A _ _ Es) as (Ds & _).
      assert (Ht : forall k f, nth_error (run w) (length (x1 :: trans')) = Some f -> exists out, sres (w k) (pf_log_weights f) (pf_particles f) M = Ok out).
      { intros k f Ef. destruct (A _ _ Ef) as (((W1 & W2) & Hl & HD) & _). destruct HD as [(V & _)|Dd].
        - apply Hstot; [exact V|lia|lia].
        - destruct (logits_dichotomy _ Hl) as [V|Ed]; [apply Hstot; [exact V|lia|lia]|]. rewrite W2 in Ed.
          destruct Hrev as [Hfin|(_ & Hd)]; [|rewrite Ed; now apply Hd].
          destruct (pf_run_exists dX split Hsplit (fun k => initial (w k)) (fun k => propagate (w k)) log_potential Hfin
                  (fun k => res (w k)) (fun k => Hres (w k)) (fun k => Htot (w k)) N HN dummy (x0 :: trans) fkey ltac:(discriminate)) as (states & Er & _ & Hv).
          change (filter split (pf w) (x0 :: trans) false (Some fkey) = Ok (map Ok states)) in Er.
          rewrite (Hrun w states Er) in Ef. apply Hstot; [now apply (Hv _ _ Ef)|lia|lia]. }
      destruct (smoother_run_exists_at dX split Hsplit log_potential (tracing_simulate dX) (fun k => sres (w k)) M dummy_like (run w)
                  x1 trans' inputs skey) as (sstates & Hs & Ls); auto.
      { intros. unfold tracing_simulate. eauto. }
      exists (run w), s, sstates. split; [exact R|]. split; [exact Es|]. split; [exact Hs|]. split; [lia|].
      unfold est. rewrite Es. destruct (proj2 (proj2 Ds)) as [(V & z & Z)|(Z & _)].
      + right. exists z. split; [exact Z|]. rewrite Z. cbn [uw]. f_equal. unfold draw.
        assert (Lv : live s) by (split; eauto).
        destruct (tracing_lines_from dX split Hsplit (fun k => initial (w k)) (fun k => propagate (w k)) log_potential (fun k => res (w k))
          (fun k => Hres (w k)) N HN dummy dummy_like (fun k => sres (w k)) (fun k => Hsres (w k)) M HM fkey skey x0 trans inputs (run w) sstates)
          as (_ & fT & kT' & k1' & rk' & idx & lw & ys & E1 & E2 & E3 & E4 & H); auto.
        { discriminate. }
        { intros t st Et. apply (proj2 (A t st Et) Lv). }
        fold T in E1, E2, H. rewrite EkT in E2. injection E2 as <-. rewrite Erk in E3. injection E3 as <- <-.
        rewrite Es in E1. injection E1 as <-. rewrite E4. f_equal. apply lsum_seq_ext. intros k Hk.
        destruct (H k Hk) as (b & Hb & B1 & B2). rewrite <- Hb. f_equal. symmetry.
        apply (line_of_trace (run w) sstates T k b); auto.
      + left. split; [exact Z|]. rewrite Z. cbn [uw]. ring.
    - rewrite expectation_app, <- EA. apply expectation_ext. intros w _. cbn [expectation].
      destruct (HA' w) as (s & R & Es & Lr & A & B). destruct (A _ _ Es) as (((W1 & W2) & _) & _).
      assert (E : (fun u => est (assign keq w rk u)) = (fun u => uw (pf_log_normalizing_constant s) *
                draw u s (fun j => phi (ancestral_line dX (run w) T j)) + 0 * 0)).
      { apply functional_extensionality. intros u. unfold est. rewrite Hloc, Es, assign_same. ring. }
      rewrite E. destruct Hm as (Hc & Hl). destruct B as [(Z & ->)|(z & Z & V & ->)]; rewrite Z; cbn [uw].
      + replace (fun u => 0 * draw u s (fun j => phi (ancestral_line dX (run w) T j)) + 0 * 0) with (fun _ : U => 0);
          [apply Hc|apply functional_extensionality; intros; ring].
      + destruct (Hsunb (pf_log_weights s) (pf_particles s) (fun j => phi (ancestral_line dX (run w) T j)) V W2 W1) as (G & Q).
        destruct (Hl _ (fun _ => 0) (exp z) 0 G (proj1 (Hc 0))) as (_ & Q'). unfold draw. cbv zeta in Q'.
        rewrite Q'. cbv zeta in Q. rewrite Q, map_length, seq_length, (proj2 (Hc 0)), Rmult_0_l, Rplus_0_r. f_equal.
        apply lsum_seq_ext. intros i Hi. f_equal.
        rewrite (nth_indep _ 0 (phi (ancestral_line dX (run w) T 0))) by (rewrite map_length, seq_length; lia).
        rewrite (map_nth (fun j => phi (ancestral_line dX (run w) T j)) (seq 0 N) 0%nat i), seq_nth by lia. reflexivity.
  Qed.
End Tracing.
