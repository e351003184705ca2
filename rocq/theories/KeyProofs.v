(** Which random keys a particle filter run consumes. *)
From Coq Require Import Reals List Arith Lia.
From Verif Require Import Ext ScanModel ScanProofs DriverSpec DriverProofs DiscreteSpec
  ResamplingModel ResamplingSpec SmcModel SmcSpec SmcProofs BackwardProofs.
Import ListNotations.

Section Keys.
  Context {Key : Type}.
  Variable split : Key -> nat -> list Key.

  (** children determine the parent, the number of children asked for, and the position *)
  Definition split_injective : Prop :=
    forall k n i k' n' i' c, nth_error (split k n) i = Some c -> nth_error (split k' n') i' = Some c ->
      k = k' /\ n = n' /\ i = i'.
  (** child [i] does not depend on how many children are asked for *)
  Definition split_prefix : Prop :=
    forall k n n' i c, nth_error (split k n) i = Some c -> (i < n')%nat -> nth_error (split k n') i = Some c.

  (** keys drawn from in a run with [T] steps after the initial one: [N] for the initial particles,
      then for every step one for resampling and [N] for propagation *)
  Definition consumed (key : Key) (N T : nat) : list Key :=
    flat_map (fun k => split k N) (firstn 1 (split key (S T))) ++
    flat_map (fun k => split k (N + 1)) (firstn T (split key (S T))).

  Lemma split_NoDup : split_injective -> forall k n, NoDup (split k n).
  Proof.
    intros Hi k n. apply NoDup_nth_error. intros i j Hlt E.
    destruct (nth_error (split k n) i) as [c|] eqn:Ec; [|apply nth_error_Some in Hlt; congruence].
    symmetry in E. now destruct (Hi _ _ _ _ _ _ _ Ec E) as (_ & _ & ?).
  Qed.
  Lemma NoDup_app' {A} (l m : list A) : NoDup l -> NoDup m -> (forall x, In x l -> In x m -> False) -> NoDup (l ++ m).
  Proof.
    induction l as [|a l IH]; simpl; intros Hl Hm H; auto. inversion_clear Hl. constructor.
    - rewrite in_app_iff. intros [?|?]; [contradiction|]. eapply H; eauto.
    - apply IH; auto. intros x Hx. apply H. now right.
  Qed.
  Lemma flat_map_NoDup n (Hi : split_injective) l : NoDup l -> NoDup (flat_map (fun k => split k n) l).
  Proof.
    induction l as [|a l IH]; simpl; intros H; [constructor|]. inversion_clear H.
    apply NoDup_app'; auto using split_NoDup.
    intros x H2 H3. apply in_flat_map in H3. destruct H3 as (b & Hb & H3).
    apply In_nth_error in H2. destruct H2 as (i & H2). apply In_nth_error in H3. destruct H3 as (j & H3).
    destruct (Hi _ _ _ _ _ _ _ H2 H3) as (-> & _). contradiction.
  Qed.
  Lemma firstn_NoDup {A} n (l : list A) : NoDup l -> NoDup (firstn n l).
  Proof.
    revert n. induction l as [|a l IH]; intros n H; destruct n; simpl; try constructor.
    - inversion_clear H. intros Hin. apply H0. rewrite <- (firstn_skipn n l). apply in_or_app. now left.
    - inversion_clear H. auto.
  Qed.
  Lemma consumed_NoDup key N T : split_injective -> NoDup (consumed key N T).
  Proof.
    intros Hi. unfold consumed. apply NoDup_app'.
    - apply flat_map_NoDup; auto. apply firstn_NoDup, split_NoDup; auto.
    - apply flat_map_NoDup; auto. apply firstn_NoDup, split_NoDup; auto.
    - intros x H1 H2. apply in_flat_map in H1. destruct H1 as (a & _ & H1).
      apply in_flat_map in H2. destruct H2 as (b & _ & H2).
      apply In_nth_error in H1. destruct H1 as (i & H1). apply In_nth_error in H2. destruct H2 as (j & H2).
      destruct (Hi _ _ _ _ _ _ _ H1 H2) as (_ & E & _). lia.
  Qed.
  Lemma consumed_reused key N T : split_ok split -> split_prefix -> (0 < N)%nat -> (0 < T)%nat ->
    ~ NoDup (consumed key N T).
  Proof.
    intros Hs Hp HN HT Hnd. unfold consumed in Hnd.
    pose proof (Hs key (S T)) as L. destruct (split key (S T)) as [|k0 ks] eqn:E; [discriminate|].
    destruct T as [|T]; [lia|]. simpl in Hnd. rewrite app_nil_r in Hnd.
    pose proof (Hs k0 N) as L0. destruct (split k0 N) as [|c r] eqn:Ec; [simpl in L0; lia|].
    assert (Hc : nth_error (split k0 (N + 1)) 0 = Some c).
    { apply (Hp k0 N); [now rewrite Ec|lia]. }
    simpl in Hnd. inversion_clear Hnd as [|? ? Hn _]. apply Hn. apply in_or_app. right. apply in_or_app. left.
    eapply nth_error_In; eauto.
  Qed.
End Keys.

Section Run.
  Context {Key X Inp : Type}.
  Variable dX : X.
  Variable split : Key -> nat -> list Key.
  Hypothesis Hsplit : split_ok split.
  Variable init_sample : Key -> Inp -> X.
  Variable propagate_sample : Key -> X -> Inp -> X.
  Variable log_potential : X -> X -> Inp -> ext.
  Variable resampling_fn : Resampling Key X.
  Hypothesis Hres : resampler_ok dX resampling_fn.
  Variable N : nat.
  Hypothesis HN : (0 < N)%nat.
  Variable dummy : X.
  Let pf := pf_build_filter split init_sample propagate_sample log_potential resampling_fn N dummy.

  (** the run draws exactly from the [consumed] keys, in order *)
  Lemma run_consumes x0 inputs key states :
    filter split pf (x0 :: inputs) false (Some key) = Ok (map Ok states) ->
    (forall t s, nth_error states t = Some s -> valid_logits (pf_log_weights s)) ->
    exists k0 ks : list Key,
      (* keys of the initial particles *)
      (forall s, nth_error states 0 = Some s -> pf_particles s = map (fun k => init_sample k x0) k0) /\
      (* keys of step t: first for resampling, the others for propagation *)
      (forall t s s', nth_error states t = Some s -> nth_error states (S t) = Some s' ->
         exists kr kp lw anc,
           firstn (N + 1) (skipn (t * (N + 1)) ks) = kr :: kp /\
           resampling_fn kr (pf_log_weights s) (pf_particles s) N = Ok (pf_ancestor_indices s', lw, anc) /\
           pf_particles s' = map2 (fun k x => propagate_sample k x (pf_model_inputs s')) kp anc) /\
      length k0 = N /\ consumed split key N (length inputs) = k0 ++ ks.
  Proof using Hres HN Hsplit.
    intros Hrun Hval.
    destruct (pf_genealogy dX split Hsplit init_sample propagate_sample log_potential resampling_fn Hres N HN dummy _ _ _ Hrun Hval)
      as (G1 & G2 & G3).
    destruct (run_steps split Hsplit _ _ _ _ _ _ Hrun) as (L & H0 & HS). simpl length in *.
    set (T := length inputs) in *.
    unfold consumed.
    pose proof (Hsplit key (S T)) as LT. destruct (split key (S T)) as [|c0 cs] eqn:Ec; [discriminate|].
    exists (split c0 N), (flat_map (fun k => split k (N + 1)) (firstn T (c0 :: cs))).
    split; [|split; [|split; [apply Hsplit|simpl firstn at 1; simpl flat_map at 1; now rewrite app_nil_r]]].
    - intros s Hs. destruct (H0 x0 eq_refl) as (k & s0 & Hk & Hi & Hs0). rewrite Hs in Hs0. injection Hs0 as ->.
      simpl in Hk. injection Hk as ->.
      now destruct (init_facts split Hsplit init_sample N HN _ _ _ Hi) as (_ & _ & _ & _ & _ & I).
    - intros t s s' Hs Hs'.
      assert (Hlt : (S t < length states)%nat) by (apply nth_error_Some; congruence).
      destruct (nth_error (x0 :: inputs) (S t)) as [x|] eqn:Ex.
      2:{ apply nth_error_None in Ex. simpl in Ex. fold T in Ex. lia. }
      destruct (HS t x s Ex Hs) as (k & p & s2 & _ & Hp & Hc & Hs2). rewrite Hs' in Hs2. injection Hs2 as <-.
      destruct (G1 _ _ Hs) as (W1 & W2 & _).
      destruct (comb_facts dX split Hsplit _ _ _ Hres N HN _ _ _ (conj W1 W2) (Hval _ _ Hs) Hc) as
        (kr & kp & idx & lw & anc & E1 & E2 & W' & La & Ll & Li & Hlw & Hk' & Hin & Hai & Hp' & _).
      exists kr, kp, lw, anc. subst idx. rewrite Hin. split; [|split; auto].
      destruct (G3 _ _ Hs) as (Hkey & _).
      (* the t-th block of the flat_map *)
      assert (B : forall l m u c, nth_error l u = Some c -> (u < m)%nat ->
        firstn (N + 1) (skipn (u * (N + 1)) (flat_map (fun k => split k (N + 1)) (firstn m l))) = split c (N + 1)).
      { induction l as [|a l IH]; intros m u c Hu Hm; [destruct u; discriminate|].
        destruct m as [|m]; [lia|]. simpl firstn at 2. simpl flat_map.
        destruct u as [|u].
        - simpl in Hu. injection Hu as ->. simpl skipn. rewrite firstn_app, Hsplit, Nat.sub_diag. rewrite firstn_all2 by (rewrite Hsplit; lia). simpl. now rewrite app_nil_r.
        - simpl in Hu. rewrite skipn_app, Hsplit.
          replace (S u * (N + 1) - (N + 1))%nat with (u * (N + 1))%nat by lia.
          rewrite skipn_all2 by (rewrite Hsplit; lia). simpl app. apply IH; auto; lia. }
      rewrite (B _ T t (pf_key s) Hkey) by lia. exact E1.
  Qed.
End Run.
