(** Property C73: trajectories drawn by the MCMC backward sampler. *)
From Coq Require Import Reals List Arith Bool Lia Lra Permutation FunctionalExtensionality.
From Coquelicot Require Import Coquelicot.
From Verif Require Import Ext ScanModel ScanProofs DriverSpec DriverProofs DiscreteSpec Sums
  ResamplingModel ResamplingSpec ResamplingProofs KillingProofs SystematicProofs SmcModel SmcSpec SmcProofs SmcResamplers
  SmcRuns KeyProofs UnbiasedSpec SmcUnbiased IterSpec Iter Spacings MultinomialLaw SeedSpec Seeds PathSpec PathProofs PathTracing FfbsSpec FfbsProofs
  McmcModel McmcSpec McmcProofs McmcBackward PropSmc PropMultinomial PropUnbiased PropUnbiasedBuiltin PropPaths PropFfbs.
Import ListNotations.
Open Scope R_scope.

(** the transition probabilities of [n] independent Metropolis-Hastings steps, as the code runs them *)
Definition imh_kernel {X} (dX : X) (h : X -> X -> R) (n : nat) (lw : list ext) (xs : list X) (y : X) (i k : nat) : R :=
  chain_law (imh_step dX xs y (fun a b => Fin (h a b))) lw n (imh_init dX xs y (fun a b => Fin (h a b)) i) k.

(** The log potential must be symmetric: the code starts the chains with its arguments swapped (C37). *)
Theorem C73_mcmc_partial {Key U X Inp} (keq : forall a b : Key, {a = b} + {a <> b}) (mean : (U -> R) -> R)
         (good : (U -> R) -> Prop) (dX : X) (split : Key -> nat -> list Key)
         (initial : U -> Inp -> X) (propagate : U -> X -> Inp -> X) (log_potential joint_potential : X -> X -> Inp -> ext)
         (h : X -> X -> R) (proposals : U -> list ext -> nat -> list nat) (uniforms : U -> nat -> list R)
         (res sres : U -> list ext -> list X -> nat -> result (list nat * list ext * list X))
         (N M n : nat) (dummy : X) (dummy_like : Inp -> Inp) (phi : list X -> R)
         (x0 x1 : Inp) (trans' inputs : list Inp) (fkey skey kT k1 rk : Key) (w0 : Key -> U) :
  expectation_ok mean good -> split_ok split -> (0 < N)%nat -> (0 < M)%nat ->
  (forall a b x, exists r, log_potential a b x = Fin r) ->
  (forall a b x, joint_potential a b x = Fin (h a b)) ->
  (forall a b, h a b = h b a) ->
  proposal_law mean good N M proposals -> uniform_law mean good M uniforms ->
  resampler_ok dX res -> resampler_total res -> resampler_unbiased mean good N res ->
  resampler_ok dX sres -> resampler_unbiased_to mean good N M sres ->
  (forall u l xs, valid_logits l -> length l = N -> length xs = N -> exists out, sres u l xs M = Ok out) ->
  let trans := x1 :: trans' in
  let T := length trans in
  (inputs = trans \/ exists x, inputs = x :: trans) ->
  nth_error (split skey (S T)) 0 = Some kT -> split kT 2%nat = [k1; rk] ->
  let keys := consumed split fkey N T ++ rk :: mcmc_keys split skey n T in
  NoDup keys ->
  (forall x, In x trans -> backward_potential mean good propagate log_potential h x) ->
  path_good mean good initial propagate log_potential x0 trans phi ->
  kernel_good mean good dX propagate log_potential h (imh_kernel dX h n) N trans phi ->
  let run w := filter split (pf_build_filter split (fun k => initial (w k)) (fun k => propagate (w k)) log_potential
                                    (fun k => res (w k)) N dummy) (x0 :: trans) false (Some fkey) in
  let smooth w fstates := smoother split dummy_like pf_model_inputs
      (ps_build_smoother split joint_potential (mcmc_sampler dX split (fun k => proposals (w k)) (fun k => uniforms (w k)) n)
         (fun k => sres (w k)) M dummy_like)
      fstates (Some inputs) false (Some skey) in
  (exists est, forall w, trajectory_estimates dX phi T M (run w) (smooth w) (est w)) /\
  (forall est, (forall w, trajectory_estimates dX phi T M (run w) (smooth w) (est w)) ->
     expectation keq mean keys est w0 = path_integral mean initial propagate log_potential x0 trans phi).
Proof.
  intros Hm Hs HN HM Hf Hj Hsym Hp Ha Hr Ht Hu Hr' Hu' Ht' trans T Hin EkT Erk keys Hnd Hb Hg Hbg run smooth.
  destruct (mcmc_unbiased keq mean good Hm dX split Hs initial propagate log_potential Hf h joint_potential Hj proposals uniforms res sres Hr Ht Hr' N M n
    Ht' Hu Hu' Hp Ha HN HM dummy dummy_like phi Hsym x0 x1 trans' inputs fkey skey kT k1 rk w0 Hin EkT Erk Hnd Hb Hg Hbg) as (est & H1 & H2).
  assert (H : forall w, trajectory_estimates dX phi T M (run w) (smooth w) (est w)).
  { intros w. destruct (H1 w) as (fs & s & ss & E1 & E2 & E3 & E4 & E5). exists fs, s, ss. auto 10. }
  split; [exists est; exact H|]. intros est' H'. etransitivity; [|exact H2]. f_equal.
  apply functional_extensionality. intros w. eapply trajectory_estimates_unique; [apply H'|exact (H w)].
Qed.
Print Assumptions C73_mcmc_partial.

(** Distinct keys of the same depth for the filter and the smoother: no key is drawn from twice. *)
Theorem C73_keys {Key} (split : Key -> nat -> list Key) (depth : Key -> nat) (fkey skey kT k1 rk : Key) (N n T : nat) :
  split_injective split -> key_depth split depth -> fkey <> skey -> depth fkey = depth skey ->
  nth_error (split skey (S T)) 0 = Some kT -> split kT 2%nat = [k1; rk] ->
  NoDup (consumed split fkey N T ++ rk :: mcmc_keys split skey n T).
Proof. intros Hi Hd. exact (mcmc_all_keys_NoDup split Hi depth Hd fkey skey N n T kT k1 rk). Qed.
Print Assumptions C73_keys.

(** ** The built-in proposals and acceptance variables *)
Definition seeded_proposals {S} (cpu : bool) (u : list nat * list R * S) (l : list ext) (n : nat) : list nat :=
  indices cpu (draws_at 0 (n + 1) u) (perm_at n u) l n.
Theorem C73_proposals {S} (meanS : (S -> R) -> R) goodS cpu (N M : nat) : expectation_ok meanS goodS ->
  proposal_law (seed_mean meanS M (M + 1)) (seed_good meanS goodS M (M + 1)) N M (seeded_proposals cpu).
Proof.
  intros HS l j phi Hv L Hj. split.
  - intros u.
    pose proof (multinomial_seeded_ok (S := S) tt cpu u l (repeat tt (length l)) M) as Q.
    unfold multinomial_seeded, multinomial_fn in Q. unfold seeded_proposals, indices.
    destruct (multinomial_resampling tt cpu (draws_at 0 (M + 1) u) (perm_at M u) l (repeat tt (length l)) M) as [[idx lw] ys] eqn:E.
    destruct (Q idx lw ys Hv ltac:(now rewrite repeat_length) ltac:(lia) eq_refl) as (_ & _ & _ & _ & R).
    cbn [fst]. rewrite <- L. now apply R.
  - apply (seed_fst meanS goodS HS M (M + 1) (fun p us => phi (nth j (indices cpu us p l M) 0%nat))).
    + intros p us s P Lu I. unfold seeded_proposals. rewrite perm_at_id by exact P. now rewrite (draws_at_id 0 (M + 1)) by easy.
    + intros p P. replace (M + 1)%nat with (Datatypes.S M) by lia. now apply (C68_slot cpu l M j phi Hv Hj).
    + replace (M + 1)%nat with (Datatypes.S M) by lia. rewrite <- L. now apply C68_slot.
Qed.
Print Assumptions C73_proposals.
Theorem C73_uniforms {S} (meanS : (S -> R) -> R) goodS (M m : nat) : expectation_ok meanS goodS -> (M <= m)%nat ->
  uniform_law (seed_mean meanS M m) (seed_good meanS goodS M m) M (fun u n => draws_at 0 n u).
Proof.
  intros HS Hm j phi Hj Hphi. destruct (imean_coord m j phi ltac:(lia) Hphi) as (A & B).
  apply (seed_fst meanS goodS HS M m (fun p us => phi (nth j us 0))).
  - intros p us s P Lu I. f_equal. unfold draws_at. cbn [fst snd].
    rewrite map_seq_nth by exact Hj. cbn [Nat.add]. rewrite (nth_indep us (1/2) 0) by lia.
    assert (H : 0 < nth j us 0 < 1) by (unfold inside in I; rewrite Forall_forall in I; apply I, nth_In; lia).
    unfold regular. destruct Rlt_dec; [destruct Rlt_dec|]; lra.
  - intros p _. exact A.
  - rewrite B. apply perm_mean_const.
Qed.
Print Assumptions C73_uniforms.

Section SeedLift.
  Context {S X Inp : Type}.
  Variables (meanS : (S -> R) -> R) (goodS : (S -> R) -> Prop).
  Hypothesis HS : expectation_ok meanS goodS.
  Variables (N m : nat) (dX : X) (propagate : S -> X -> Inp -> X) (log_potential : X -> X -> Inp -> ext) (h : X -> X -> R).
  Notation mean := (seed_mean meanS N m).
  Notation good := (seed_good meanS goodS N m).
  Lemma seed_good_snd (g : S -> R) : good (fun x => g (snd x)) -> goodS g.
  Proof.
    intros H. apply (proj1 (H (seq 0 N) (Permutation_refl _)) (repeat (1/2) m)); [apply repeat_length|].
    apply Forall_forall. intros u Hu. apply repeat_spec in Hu. subst u. lra.
  Qed.
  Lemma seed_backward i : backward_potential meanS goodS propagate log_potential h i ->
    backward_potential mean good (fun u => propagate (snd u)) log_potential h i.
  Proof.
    intros H a b psi f G1 G2.
    set (g := fun a b s => let y := propagate s a i in uw (log_potential a y i) * exp (h b y) * psi y).
    change (f a b) with (fun x : list nat * list R * S => g a b (snd x)) in *.
    change (f b a) with (fun x : list nat * list R * S => g b a (snd x)) in *.
    rewrite !(seed_snd meanS). exact (H a b psi (seed_good_snd (g a b) G1) (seed_good_snd (g b a) G2)).
  Qed.
  Lemma seed_path_from inputs phi : forall past x,
    path_from mean (fun u => propagate (snd u)) log_potential inputs phi past x = path_from meanS propagate log_potential inputs phi past x.
  Proof.
    induction inputs as [|i r IH]; intros past x; [reflexivity|]. cbn [path_from].
    etransitivity; [|apply (seed_snd meanS N m (fun s => let y := propagate s x i in uw (log_potential x y i) * path_from meanS propagate log_potential r phi (past ++ [x]) y))].
    f_equal. apply functional_extensionality. intros u. cbv zeta. now rewrite IH.
  Qed.
  Lemma seed_kernel_good kern K inputs phi : kernel_good meanS goodS dX propagate log_potential h kern K inputs phi ->
    kernel_good mean good dX (fun u => propagate (snd u)) log_potential h kern K inputs phi.
  Proof.
    induction inputs as [|i r IH]; [easy|]. cbn [kernel_good]. intros (A & B). split; [|now apply IH].
    intros a b past lw xs j k V L1 L2 Hj Hk. specialize (A a b past lw xs j k V L1 L2 Hj Hk). apply (seed_snd_good meanS goodS N m) in A.
    erewrite functional_extensionality; [exact A|]. intros u. cbv beta zeta. now rewrite seed_path_from.
  Qed.
End SeedLift.

(** multinomial resampling in the filter, in the smoother and in the proposals, as many trajectories as particles *)
Theorem C73_builtin {Key S X Inp} (keq : forall a b : Key, {a = b} + {a <> b}) (meanS : (S -> R) -> R) (goodS : (S -> R) -> Prop)
         (dX : X) (split : Key -> nat -> list Key)
         (initial : S -> Inp -> X) (propagate : S -> X -> Inp -> X) (log_potential joint_potential : X -> X -> Inp -> ext) (h : X -> X -> R)
         (cpu : bool) (N n : nat) (dummy : X) (dummy_like : Inp -> Inp) (phi : list X -> R)
         (x0 x1 : Inp) (trans' inputs : list Inp) (fkey skey kT k1 rk : Key) (w0 : Key -> list nat * list R * S) :
  expectation_ok meanS goodS -> split_ok split -> (0 < N)%nat ->
  (forall a b x, exists r, log_potential a b x = Fin r) ->
  (forall a b x, joint_potential a b x = Fin (h a b)) -> (forall a b, h a b = h b a) ->
  let trans := x1 :: trans' in
  let T := length trans in
  (inputs = trans \/ exists x, inputs = x :: trans) ->
  nth_error (split skey (Datatypes.S T)) 0 = Some kT -> split kT 2%nat = [k1; rk] ->
  let keys := consumed split fkey N T ++ rk :: mcmc_keys split skey n T in
  NoDup keys ->
  (forall x, In x trans -> backward_potential meanS goodS propagate log_potential h x) ->
  path_good meanS goodS initial propagate log_potential x0 trans phi ->
  kernel_good meanS goodS dX propagate log_potential h (imh_kernel dX h n) N trans phi ->
  let run w := filter split (pf_build_filter split (fun k => initial (snd (w k))) (fun k => propagate (snd (w k))) log_potential
                               (fun k => multinomial_seeded dX cpu (w k)) N dummy) (x0 :: trans) false (Some fkey) in
  let smooth w fstates := smoother split dummy_like pf_model_inputs
      (ps_build_smoother split joint_potential
         (mcmc_sampler dX split (fun k => seeded_proposals cpu (w k)) (fun k n => draws_at 0 n (w k)) n)
         (fun k => multinomial_seeded dX cpu (w k)) N dummy_like)
      fstates (Some inputs) false (Some skey) in
  (exists est, forall w, trajectory_estimates dX phi T N (run w) (smooth w) (est w)) /\
  (forall est, (forall w, trajectory_estimates dX phi T N (run w) (smooth w) (est w)) ->
     expectation keq (seed_mean meanS N (N + 1)) keys est w0 = path_integral meanS initial propagate log_potential x0 trans phi).
Proof.
  intros HS Hs HN Hf Hj Hsym trans T Hin EkT Erk keys Hnd Hb Hg Hbg run smooth.
  destruct (seeded_contracts meanS goodS dX cpu Multinomial None N HS) as (R1 & R2 & R3). cbn [made_adaptive seeded uniforms_needed] in R1, R2, R3.
  destruct (seed_path meanS goodS N (N + 1) initial propagate log_potential x0 trans phi HS Hg) as (Hg' & Hp).
  destruct (C73_mcmc_partial keq (seed_mean meanS N (N + 1)) (seed_good meanS goodS N (N + 1)) dX split (fun u => initial (snd u)) (fun u => propagate (snd u))
    log_potential joint_potential h (seeded_proposals cpu) (fun u n => draws_at 0 n u) (multinomial_seeded dX cpu) (multinomial_seeded dX cpu)
    N N n dummy dummy_like phi x0 x1 trans' inputs fkey skey kT k1 rk w0
    (seed_expectation_ok meanS goodS HS N (N + 1)) Hs HN HN Hf Hj Hsym (C73_proposals meanS goodS cpu N N HS)
    (C73_uniforms meanS goodS N (N + 1) HS ltac:(lia)) R1 R2 R3 R1
    (unbiased_to_same _ _ N _ (seeded_zeros dX cpu Multinomial) R3)) as (A & B).
  { intros u l xs Hlv L L'. destruct (R2 u l xs Hlv ltac:(congruence)) as (out & Ho). rewrite L in Ho. eauto. }
  { exact Hin. } { exact EkT. } { exact Erk. } { exact Hnd. }
  { intros x Hx. apply seed_backward; now apply Hb. } { exact Hg'. } { now apply seed_kernel_good. }
  split; [exact A|]. intros est He. rewrite <- Hp. exact (B est He).
Qed.
Print Assumptions C73_builtin.

(** ** The two-state chain of C72: its joint potential is symmetric *)
Lemma flip_symmetric a b : flip_joint a b = flip_joint b a.
Proof. unfold flip_joint, flip_density. now destruct a, b. Qed.
Lemma flip_kernel_good kern N inputs phi : kernel_good uniform_mean uniform_good true flip_propagate flip_potential flip_joint kern N inputs phi.
Proof.
  induction inputs as [|i r IH]; [exact I|]. split; [|exact IH]. intros a b past lw xs j k _ _ _ _ _. eexists.
  apply (flip_mean (fun y => uw (flip_potential a y i) * exp (flip_joint b y) *
     (kern lw xs y j k * exp (- flip_joint (nth k xs true) y) * path_from uniform_mean flip_propagate flip_potential r phi (past ++ [nth k xs true]) y))).
Qed.
Example C73_hypotheses_met (n : nat) : exists (split : list (nat * nat) -> nat -> list (list (nat * nat))) depth est kT k1 rk
    (keq : forall a b : list (nat * nat), {a = b} + {a <> b}),
  split_ok split /\ split_injective split /\ key_depth split depth /\
  nth_error (split [(1, 0)]%nat 3%nat) 0 = Some kT /\ split kT 2%nat = [k1; rk] /\
  NoDup (consumed split [(0, 0)]%nat 5 2 ++ rk :: mcmc_keys split [(1, 0)]%nat n 2) /\
  (forall w, trajectory_estimates true (fun l => if list_eq_dec Bool.bool_dec l [true; true; false] then 1 else 0) 2 5
     (filter split (pf_build_filter split (fun k => flip_initial (snd (w k))) (fun k => flip_propagate (snd (w k))) flip_potential
        (fun k => multinomial_seeded true true (w k)) 5 true) [false; true; false] false (Some [(0, 0)]%nat))
     (fun fstates => smoother split (fun x => x) pf_model_inputs (ps_build_smoother split (fun a b _ => Fin (flip_joint a b))
        (mcmc_sampler true split (fun k => seeded_proposals true (w k)) (fun k n => draws_at 0 n (w k)) n)
        (fun k => multinomial_seeded true true (w k)) 5 (fun x => x)) fstates (Some [true; false]) false (Some [(1, 0)]%nat)) (est w)) /\
  expectation keq (seed_mean uniform_mean 5 6) (consumed split [(0, 0)]%nat 5 2 ++ rk :: mcmc_keys split [(1, 0)]%nat n 2) est
    (fun _ => (seq 0 5, repeat (1/2) 6, 0)) = 3 / 8.
Proof.
  set (split := fun (k : list (nat * nat)) n => map (fun i => (n, i) :: k) (seq 0 n)).
  assert (Hs : split_ok split) by (intros k m; unfold split; now rewrite map_length, seq_length).
  assert (Q : forall k n i c, nth_error (split k n) i = Some c -> c = (n, i) :: k).
  { intros k m i c. unfold split. rewrite nth_error_map. destruct (nth_error (seq 0 m) i) as [j|] eqn:E; [|discriminate].
    intros H. injection H as <-.
    assert (i < m)%nat. { rewrite <- (seq_length m 0). apply nth_error_Some. congruence. }
    apply nth_error_nth with (d := 0%nat) in E. rewrite seq_nth in E by assumption. simpl in E. congruence. }
  assert (Hi : split_injective split).
  { intros k m i k' m' i' c H1 H2. apply Q in H1. apply Q in H2. subst c. injection H2. auto. }
  assert (Hd : key_depth split (@length _)).
  { intros k m c H. apply In_nth_error in H. destruct H as (i & H). apply Q in H. now subst c. }
  assert (keq : forall a b : list (nat * nat), {a = b} + {a <> b}).
  { apply list_eq_dec. intros [a b] [c d]. destruct (Nat.eq_dec a c), (Nat.eq_dec b d); subst; auto; right; congruence. }
  set (phi := fun l => if list_eq_dec Bool.bool_dec l [true; true; false] then 1 else 0).
  set (kT := [(3, 0); (1, 0)]%nat). set (k1 := (2, 0)%nat :: kT). set (rk := (2, 1)%nat :: kT).
  assert (Hnd : NoDup (consumed split [(0, 0)]%nat 5 2 ++ rk :: mcmc_keys split [(1, 0)]%nat n 2)).
  { apply (C73_keys split (@length _) [(0, 0)]%nat [(1, 0)]%nat kT k1 rk 5 n 2 Hi Hd); [discriminate|reflexivity|reflexivity|reflexivity]. }
  destruct (C73_builtin keq uniform_mean uniform_good true split flip_initial flip_propagate flip_potential (fun a b _ => Fin (flip_joint a b)) flip_joint
     true 5 n true (fun x => x) phi false true [false] [true; false] [(0, 0)]%nat [(1, 0)]%nat kT k1 rk (fun _ => (seq 0 5, repeat (1/2) 6, 0))
     uniform_expectation_ok Hs ltac:(lia) ltac:(intros; eexists; reflexivity) ltac:(reflexivity) flip_symmetric (or_introl eq_refl) eq_refl eq_refl Hnd
     (fun x _ => flip_backward x) (flip_path_good _ _ _) (flip_kernel_good _ _ _ _))
    as ((est & He) & E).
  cbn [length] in He, E. exists split, (@length _), est, kT, k1, rk, keq. repeat (split; [first [assumption|reflexivity]|]).
  etransitivity; [exact (E est He)|]. unfold phi. apply flip_value.
Qed.
