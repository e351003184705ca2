(** Property C73 fails for asymmetric joint potentials: the chains start with the potential's
    arguments swapped, and the trajectories are biased. *)
From Coq Require Import Reals List Arith Bool Lia Lra Permutation FunctionalExtensionality.
From Coquelicot Require Import Coquelicot.
From Verif Require Import Ext ScanModel ScanProofs DriverSpec DriverProofs DiscreteSpec Sums
  ResamplingModel ResamplingSpec ResamplingProofs KillingProofs SystematicProofs SmcModel SmcSpec SmcProofs SmcResamplers
  SmcRuns KeyProofs UnbiasedSpec Martingale SmcUnbiased IterSpec Iter Spacings MultinomialLaw SeedSpec Seeds PathSpec PathProofs PathTracing FfbsSpec FfbsProofs
  McmcModel McmcSpec McmcProofs McmcBackward McmcBias PropSmc PropMultinomial PropUnbiased PropUnbiasedBuiltin PropPaths PropFfbs PropMcmc.
Import ListNotations.
Open Scope R_scope.

(** C73 without symmetry *)
Definition C73_statement : Prop :=
  forall (Key U X Inp : Type) (keq : forall a b : Key, {a = b} + {a <> b}) (mean : (U -> R) -> R)
         (good : (U -> R) -> Prop) (dX : X) (split : Key -> nat -> list Key)
         (initial : U -> Inp -> X) (propagate : U -> X -> Inp -> X) (log_potential joint_potential : X -> X -> Inp -> ext)
         (h : X -> X -> R) (proposals : U -> list ext -> nat -> list nat) (uniforms : U -> nat -> list R)
         (res sres : U -> list ext -> list X -> nat -> result (list nat * list ext * list X))
         (N M n : nat) (dummy : X) (dummy_like : Inp -> Inp) (phi : list X -> R)
         (x0 x1 : Inp) (trans' inputs : list Inp) (fkey skey kT k1 rk : Key) (w0 : Key -> U),
  expectation_ok mean good -> split_ok split -> (0 < N)%nat -> (0 < M)%nat ->
  (forall a b x, exists r, log_potential a b x = Fin r) ->
  (forall a b x, joint_potential a b x = Fin (h a b)) ->
  proposal_law mean good N M proposals -> uniform_law mean good M uniforms ->
  resampler_ok dX res -> resampler_total res -> resampler_unbiased mean good N res ->
  resampler_ok dX sres -> resampler_unbiased_to mean good N M sres ->
  (forall u l xs, valid_logits l -> length l = N -> length xs = N -> exists out, sres u l xs M = Ok out) ->
  let trans := x1 :: trans' in
  let T := length trans in
  (inputs = trans \/ exists x, inputs = x :: trans) ->
  nth_error (split skey (S T)) 0 = Some kT -> split kT 2%nat = [k1; rk] ->
  let keys := consumed split fkey N T ++ rk :: mcmc_keys split skey n T in
  NoDup keys ->
  (forall x, In x trans -> backward_potential mean good propagate log_potential h x) ->
  path_good mean good initial propagate log_potential x0 trans phi ->
  kernel_good mean good dX propagate log_potential h (imh_kernel dX h n) N trans phi ->
  forall est, (forall w, trajectory_estimates dX phi T M
      (filter split (pf_build_filter split (fun k => initial (w k)) (fun k => propagate (w k)) log_potential
                                    (fun k => res (w k)) N dummy) (x0 :: trans) false (Some fkey))
      (fun fstates => smoother split dummy_like pf_model_inputs
      (ps_build_smoother split joint_potential (mcmc_sampler dX split (fun k => proposals (w k)) (fun k => uniforms (w k)) n)
         (fun k => sres (w k)) M dummy_like)
      fstates (Some inputs) false (Some skey)) (est w)) ->
  expectation keq mean keys est w0 = path_integral mean initial propagate log_potential x0 trans phi.

(** States carry the time ("late" or not) and a value.  Every state moves to a late one, keeping its
    value with probability 3/4; moves to early states have negligible density. *)
Definition late_initial (u : R) (_ : unit) : bool * bool := (false, flip_initial u true).
Definition late_propagate (u : R) (a : bool * bool) (_ : unit) : bool * bool := (true, flip_propagate u (snd a) true).
Definition late_potential (_ _ : bool * bool) (_ : unit) : ext := Fin 0.
Definition late_joint (a y : bool * bool) : R := if fst y then flip_joint (snd a) (snd y) else -10.
Lemma late_mean (g : bool * bool -> R) a i :
  is_RInt (fun u => g (late_propagate u a i)) 0 1 (3/4 * g (true, snd a) + (1 - 3/4) * g (true, negb (snd a))).
Proof. exact (flip_mean (fun v => g (true, v)) (snd a) true). Qed.
Lemma late_mean0 (g : bool * bool -> R) i :
  is_RInt (fun u => g (late_initial u i)) 0 1 (1/2 * g (false, true) + (1 - 1/2) * g (false, false)).
Proof. exact (flip_mean0 (fun v => g (false, v)) true). Qed.
Lemma late_backward i : backward_potential uniform_mean uniform_good late_propagate late_potential late_joint i.
Proof.
  apply (C72_joint_potential _ _ _ _ _ (fun f => f (true, true) + f (true, false)) (fun a y => if fst y then flip_density (snd a) (snd y) else 0)
           (fun y => if fst y then 1 else 0)).
  - intros a psi _. unfold uniform_mean. rewrite (is_RInt_unique _ _ _ _ (late_mean psi a i)). cbn [fst snd].
    unfold flip_density. destruct (snd a); simpl; field.
  - intros a [[|] v]; cbn [fst snd late_potential uw]; [|ring]. unfold late_joint, flip_joint. cbn [fst snd]. rewrite exp_0, exp_ln; [ring|].
    unfold flip_density. destruct eqb; lra.
Qed.
Lemma late_path_good x0 inputs phi : path_good uniform_mean uniform_good late_initial late_propagate late_potential x0 inputs phi.
Proof.
  split.
  - eexists. apply (late_mean0 (fun y => path_from uniform_mean late_propagate late_potential inputs phi [] y)).
  - induction inputs as [|i r IH]; [exact I|]. split; [|exact IH]. intros past x. eexists.
    apply (late_mean (fun y => uw (late_potential x y i) * path_from uniform_mean late_propagate late_potential r phi (past ++ [x]) y)).
Qed.
Lemma late_kernel_good dX kern N inputs phi : kernel_good uniform_mean uniform_good dX late_propagate late_potential late_joint kern N inputs phi.
Proof.
  induction inputs as [|i r IH]; [exact I|]. split; [|exact IH]. intros a b past lw xs j k _ _ _ _ _. eexists.
  apply (late_mean (fun y => uw (late_potential a y i) * exp (late_joint b y) *
     (kern lw xs y j k * exp (- late_joint (nth k xs dX) y) * path_from uniform_mean late_propagate late_potential r phi (past ++ [nth k xs dX]) y))).
Qed.

(** the first proposal is always accepted: the ancestor no longer depends on the new state *)
Definition late0 : bool * bool := (false, false).
Lemma late_accept xs v c p u : (forall x, In x xs -> fst x = false) -> 0 < u < 1 ->
  imh_step late0 xs (true, v) (fun a b => Fin (late_joint a b)) (imh_init late0 xs (true, v) (fun a b => Fin (late_joint a b)) c) p u
  = (p, Fin (late_joint (nth p xs late0) (true, v))).
Proof.
  intros Hx Hu. unfold imh_init, imh_step. cbn [esub].
  assert (E : late_joint (true, v) (nth c xs late0) = -10).
  { unfold late_joint. assert (F : fst (nth c xs late0) = false); [|now rewrite F].
    destruct (nth_in_or_default c xs late0) as [H|H]; [now apply Hx|now rewrite H]. }
  rewrite E.
  assert (G : 0 < late_joint (nth p xs late0) (true, v) + 10).
  { unfold late_joint, flip_joint. cbn [fst snd]. assert (- (2) < ln (flip_density (snd (nth p xs late0)) v)); [|lra].
    rewrite <- (ln_exp (-(2))). apply ln_increasing; [apply exp_pos|].
    assert (exp (-(2)) < 1/4).
    { rewrite exp_Ropp. assert (4 < exp 2).
      { replace 2 with (1 + 1) by ring. rewrite exp_plus. assert (2 < exp 1); [|nra]. pose proof (exp_ineq1 1). lra. }
      apply (Rmult_lt_reg_r (exp 2)); [apply exp_pos|]. rewrite Rinv_l by (apply Rgt_not_eq, exp_pos). lra. }
    unfold flip_density. destruct eqb; lra. }
  assert (L : eltb (elog (Fin u)) (esub (Fin (late_joint (nth p xs late0) (true, v))) (Fin (-10))) = true).
  { unfold esub. cbn [eopp eadd elog]. destruct (Rlt_dec 0 u); [|lra]. unfold eltb. cbn [egtb].
    assert (ln u < 0) by (rewrite <- ln_1; apply ln_increasing; lra). destruct Rlt_dec as [|Hn]; [reflexivity|elim Hn; lra]. }
  rewrite L. reflexivity.
Qed.
Lemma late_kernel a b v c k : fst a = false -> fst b = false -> (k < 2)%nat ->
  imh_kernel late0 late_joint 1 (zeros 2) [a; b] (true, v) c k = 1/2.
Proof.
  intros Ha Hb Hk. unfold imh_kernel. cbn [chain_law].
  assert (E : forall p, RInt (fun u => if Nat.eqb (fst (imh_step late0 [a; b] (true, v) (fun a b => Fin (late_joint a b))
      (imh_init late0 [a; b] (true, v) (fun a b => Fin (late_joint a b)) c) p u)) k then 1 else 0) 0 1 = if Nat.eqb p k then 1 else 0).
  { intros p. etransitivity; [apply (RInt_ext (V := R_CompleteNormedModule) _ (fun _ => if Nat.eqb p k then 1 else 0))|].
    - intros u Hu. rewrite Rmin_left, Rmax_right in Hu by lra. rewrite late_accept; [reflexivity| |lra].
      intros x [<-|[<-|[]]]; assumption.
    - rewrite RInt_const. unfold scal; simpl; unfold mult; simpl. ring. }
  change (length (zeros 2)) with 2%nat. cbn [seq lsum]. rewrite !E. rewrite !wt_zeros by lia. cbn [INR].
  destruct k as [|[|?]]; [| |lia]; cbn [Nat.eqb]; field.
Qed.

Definition late_phi (l : list (bool * bool)) : R := match l with [(_, true); (_, true)] => 1 | _ => 0 end.
Definition tree_split (k : list (nat * nat)) (n : nat) : list (list (nat * nat)) := map (fun i => (n, i) :: k) (seq 0 n).
Lemma tree_split_ok : split_ok tree_split /\ split_injective tree_split /\ key_depth tree_split (@length _).
Proof.
  assert (Q : forall k n i c, nth_error (tree_split k n) i = Some c -> c = (n, i) :: k).
  { intros k m i c. unfold tree_split. rewrite nth_error_map. destruct (nth_error (seq 0 m) i) as [j|] eqn:E; [|discriminate].
    intros H. injection H as <-.
    assert (i < m)%nat. { rewrite <- (seq_length m 0). apply nth_error_Some. congruence. }
    apply nth_error_nth with (d := 0%nat) in E. rewrite seq_nth in E by assumption. simpl in E. congruence. }
  split; [intros k m; unfold tree_split; now rewrite map_length, seq_length|]. split.
  - intros k m i k' m' i' c H1 H2. apply Q in H1. apply Q in H2. subst c. injection H2. auto.
  - intros k m c H. apply In_nth_error in H. destruct H as (i & H). apply Q in H. now subst c.
Qed.

(** one transition, two particles and trajectories, one Metropolis-Hastings step, multinomial
    resampling: the path "true, true" has probability 3/8, the estimate has mean 5/16 *)
Theorem C73_refuted (cpu : bool) :
  let mean := seed_mean uniform_mean 2 3 in
  let fkey := [(0, 0)]%nat in let skey := [(1, 0)]%nat in
  exists est kT k1 rk (keq : forall a b : list (nat * nat), {a = b} + {a <> b}),
  nth_error (tree_split skey 2%nat) 0 = Some kT /\ tree_split kT 2%nat = [k1; rk] /\
  NoDup (consumed tree_split fkey 2 1 ++ rk :: mcmc_keys tree_split skey 1 1) /\
  (forall w, trajectory_estimates late0 late_phi 1 2
     (filter tree_split (pf_build_filter tree_split (fun k => late_initial (snd (w k))) (fun k => late_propagate (snd (w k))) late_potential
        (fun k => multinomial_seeded late0 cpu (w k)) 2 late0) [tt; tt] false (Some fkey))
     (fun fstates => smoother tree_split (fun x => x) pf_model_inputs (ps_build_smoother tree_split (fun a b _ => Fin (late_joint a b))
        (mcmc_sampler late0 tree_split (fun k => seeded_proposals cpu (w k)) (fun k n => draws_at 0 n (w k)) 1)
        (fun k => multinomial_seeded late0 cpu (w k)) 2 (fun x => x)) fstates (Some [tt]) false (Some skey)) (est w)) /\
  expectation keq mean (consumed tree_split fkey 2 1 ++ rk :: mcmc_keys tree_split skey 1 1) est (fun _ => (seq 0 2, repeat (1/2) 3, 0)) = 5/16 /\
  path_integral uniform_mean late_initial late_propagate late_potential tt [tt] late_phi = 3/8.
Proof.
  intros mean fkey skey. destruct tree_split_ok as (Hs & Hi & Hd).
  assert (keq : forall a b : list (nat * nat), {a = b} + {a <> b}).
  { apply list_eq_dec. intros [a b] [c d]. destruct (Nat.eq_dec a c), (Nat.eq_dec b d); subst; auto; right; congruence. }
  set (kT := [(2, 0); (1, 0)]%nat). set (k1 := (2, 0)%nat :: kT). set (rk := (2, 1)%nat :: kT).
  assert (Hnd : NoDup (consumed tree_split fkey 2 1 ++ rk :: mcmc_keys tree_split skey 1 1)).
  { apply (C73_keys tree_split (@length _) fkey skey kT k1 rk 2 1 1 Hi Hd); [discriminate|reflexivity|reflexivity|reflexivity]. }
  pose proof uniform_expectation_ok as HU.
  pose proof (seed_expectation_ok uniform_mean uniform_good HU 2 3) as Hm.
  destruct (seeded_contracts uniform_mean uniform_good late0 cpu Multinomial None 2 HU) as (R1 & R2 & R3).
  cbn [made_adaptive seeded uniforms_needed Nat.add] in R1, R2, R3.
  set (kern := imh_kernel late0 late_joint 1).
  assert (Hg : forall xs i, (i < 2)%nat -> length xs = 2%nat -> seed_good uniform_mean uniform_good 2 3
     (fun u => let y := late_propagate (snd u) (nth i xs late0) tt in uw (late_potential (nth i xs late0) y tt) *
        lsum (fun k => kern (zeros 2) xs y i k * late_phi [nth k xs late0; y]) (seq 0 2))).
  { intros xs i _ _. apply (seed_snd_good uniform_mean uniform_good 2 3 (fun s => let y := late_propagate s (nth i xs late0) tt in uw (late_potential (nth i xs late0) y tt) *
        lsum (fun k => kern (zeros 2) xs y i k * late_phi [nth k xs late0; y]) (seq 0 2))).
    eexists. apply (late_mean (fun y => uw (late_potential (nth i xs late0) y tt) *
        lsum (fun k => kern (zeros 2) xs y i k * late_phi [nth k xs late0; y]) (seq 0 2))). }
  destruct (one_step keq mean (seed_good uniform_mean uniform_good 2 3) Hm late0 tree_split Hs (fun u => late_initial (snd u)) (fun u => late_propagate (snd u))
    late_potential ltac:(intros; eexists; reflexivity) kern (multinomial_seeded late0 cpu) R1 R2 2 R3 ltac:(lia) late0 late_phi tt tt fkey
    [(2, 0); (0, 0)]%nat [(2, 1); (0, 0)]%nat (fun _ => (seq 0 2, repeat (1/2) 3, 0)) eq_refl (proj1 (NoDup_app_inv _ _ Hnd)) Hg) as (estA & HA & EA).
  destruct (mcmc_conditional keq mean (seed_good uniform_mean uniform_good 2 3) Hm late0 tree_split Hs (fun u => late_initial (snd u)) (fun u => late_propagate (snd u))
    late_potential late_joint (fun a b _ => Fin (late_joint a b)) ltac:(reflexivity) (seeded_proposals cpu) (fun u n => draws_at 0 n u)
    (multinomial_seeded late0 cpu) (multinomial_seeded late0 cpu) R1 R1 2 2 1) with (w0 := fun _ : list (nat * nat) => (seq 0 2, repeat (1/2) 3, 0))
    (x1 := tt) (trans' := @nil unit) (inputs := [tt]) (x0 := tt) (dummy := late0) (dummy_like := fun x : unit => x)
    (phi := late_phi) (estA := estA) (fkey := fkey) (skey := skey) (kT := kT) (k1 := k1) (rk := rk) as (est & H1 & H2).
  { intros u l xs Hlv L L'. destruct (R2 u l xs Hlv ltac:(congruence)) as (out & Ho). rewrite L in Ho. eauto. }
  { exact (unbiased_to_same _ _ 2 _ (seeded_zeros late0 cpu Multinomial) R3). }
  { exact (C73_proposals uniform_mean uniform_good cpu 2 2 HU). }
  { exact (C73_uniforms uniform_mean uniform_good 2 3 HU ltac:(lia)). }
  { lia. } { lia. } { now left. } { reflexivity. } { reflexivity. } { exact Hnd. } { exact HA. }
  exists est, kT, k1, rk, keq. split; [reflexivity|]. split; [reflexivity|]. split; [exact Hnd|]. split.
  { intros w. destruct (H1 w) as (fs & s & ss & E1 & E2 & E3 & E4 & E5). exists fs, s, ss. auto 10. }
  split.
  - etransitivity; [exact H2|]. etransitivity; [exact EA|]. clear H2 EA H1 HA Hg.
    change (tree_split [(2, 0); (0, 0)]%nat 2%nat) with [[(2, 0); (2, 0); (0, 0)]; [(2, 1); (2, 0); (0, 0)]]%nat.
    cbn [expectation map].
    set (H := fun a b : bool * bool => let xs := [a; b] in
       lsum (fun i => / INR 2 * mean (fun u => let y := late_propagate (snd u) (nth i xs late0) tt in uw (late_potential (nth i xs late0) y tt) *
         lsum (fun k => kern (zeros 2) xs y i k * late_phi [nth k xs late0; y]) (seq 0 2))) (seq 0 2)).
    transitivity (mean (fun ua => mean (fun ub => H (late_initial (snd ua) tt) (late_initial (snd ub) tt)))).
    { apply (f_equal mean), functional_extensionality. intros ua. apply (f_equal mean), functional_extensionality. intros ub.
      rewrite !assign_same, !assign_other by discriminate. rewrite !assign_same. reflexivity. }
    assert (HH : forall va vb, H (false, va) (false, vb)
       = 1/4 * ((if va then 1 else 0) + (if vb then 1 else 0)) * ((if va then 3/4 else 1/4) + (if vb then 3/4 else 1/4))).
    { intros va vb. unfold H. cbv zeta. set (xs := [(false, va); (false, vb)]).
      assert (E : forall i, mean (fun u => let y := late_propagate (snd u) (nth i xs late0) tt in uw (late_potential (nth i xs late0) y tt) *
         lsum (fun k => kern (zeros 2) xs y i k * late_phi [nth k xs late0; y]) (seq 0 2))
         = 1/2 * ((if va then 1 else 0) + (if vb then 1 else 0)) * (if snd (nth i xs late0) then 3/4 else 1/4)).
      { intros i. set (g := fun y => uw (late_potential (nth i xs late0) y tt) *
         lsum (fun k => kern (zeros 2) xs y i k * late_phi [nth k xs late0; y]) (seq 0 2)).
        transitivity (uniform_mean (fun u => g (late_propagate u (nth i xs late0) tt))).
        { exact (seed_snd uniform_mean 2 3 (fun u => g (late_propagate u (nth i xs late0) tt))). }
        unfold uniform_mean. rewrite (is_RInt_unique _ _ _ _ (late_mean g (nth i xs late0) tt)). unfold g.
        cbn [late_potential uw seq lsum]. rewrite exp_0. generalize (snd (nth i xs late0)). intros vi. unfold kern, xs. rewrite !late_kernel by (cbn; lia || reflexivity). cbn [nth].
        destruct vi, va, vb; cbn [negb late_phi]; lra. }
      cbn [seq lsum]. rewrite !E. unfold xs. cbn [nth snd INR]. destruct va, vb; lra. }
    transitivity (mean (fun ua => 1/2 * H (late_initial (snd ua) tt) (false, true) + (1 - 1/2) * H (late_initial (snd ua) tt) (false, false))).
    { apply (f_equal mean), functional_extensionality. intros ua.
      etransitivity; [exact (seed_snd uniform_mean 2 3 (fun u => H (late_initial (snd ua) tt) (late_initial u tt)))|].
      exact (is_RInt_unique _ _ _ _ (late_mean0 (fun b => H (late_initial (snd ua) tt) b) tt)). }
    etransitivity; [exact (seed_snd uniform_mean 2 3 (fun u => 1/2 * H (late_initial u tt) (false, true) + (1 - 1/2) * H (late_initial u tt) (false, false)))|].
    etransitivity; [exact (is_RInt_unique _ _ _ _ (late_mean0 (fun a => 1/2 * H a (false, true) + (1 - 1/2) * H a (false, false)) tt))|].
    cbv beta. rewrite !HH. lra.
  - unfold path_integral.
    etransitivity; [exact (is_RInt_unique _ _ _ _ (late_mean0 (path_from uniform_mean late_propagate late_potential [tt] late_phi []) tt))|].
    cbn [path_from].
    assert (S1 : forall v, uniform_mean (fun u => let y := late_propagate u (false, v) tt in uw (late_potential (false, v) y tt) * late_phi ([] ++ [(false, v)] ++ [y]))
       = if v then 3/4 else 0).
    { intros v. unfold uniform_mean.
      etransitivity; [exact (is_RInt_unique _ _ _ _ (late_mean (fun y => uw (late_potential (false, v) y tt) * late_phi [(false, v); y]) (false, v) tt))|].
      cbn [late_potential uw snd negb]. rewrite exp_0. destruct v; cbn [late_phi negb]; lra. }
    pose proof (S1 true) as E1. pose proof (S1 false) as E2. cbn [app] in E1, E2 |- *. rewrite E1, E2. lra.
Qed.
Print Assumptions C73_refuted.

Theorem C73_statement_false : ~ C73_statement.
Proof.
  intros S. destruct (C73_refuted true) as (est & kT & k1 & rk & keq & E1 & E2 & Hnd & He & V1 & V2). destruct tree_split_ok as (Hs & _).
  pose proof uniform_expectation_ok as HU.
  destruct (seeded_contracts uniform_mean uniform_good late0 true Multinomial None 2 HU) as (R1 & R2 & R3).
  cbn [made_adaptive seeded uniforms_needed Nat.add] in R1, R2, R3.
  destruct (seed_path uniform_mean uniform_good 2 3 late_initial late_propagate late_potential tt [tt] late_phi HU (late_path_good _ _ _)) as (Hg & Hp).
  assert (Q := S _ _ _ _ keq (seed_mean uniform_mean 2 3) (seed_good uniform_mean uniform_good 2 3) late0 tree_split (fun u => late_initial (snd u)) (fun u => late_propagate (snd u))
    late_potential (fun a b _ => Fin (late_joint a b)) late_joint (seeded_proposals true) (fun u n => draws_at 0 n u)
    (multinomial_seeded late0 true) (multinomial_seeded late0 true) 2%nat 2%nat 1%nat late0 (fun x => x) late_phi tt tt [] [tt] _ _ kT k1 rk
    (fun _ => (seq 0 2, repeat (1/2) 3, 0)) (seed_expectation_ok uniform_mean uniform_good HU 2 3) Hs ltac:(lia) ltac:(lia) ltac:(intros; eexists; reflexivity) ltac:(reflexivity)
    (C73_proposals uniform_mean uniform_good true 2 2 HU) (C73_uniforms uniform_mean uniform_good 2 3 HU ltac:(lia)) R1 R2 R3 R1
    (unbiased_to_same _ _ 2 _ (seeded_zeros late0 true Multinomial) R3)
    ltac:(intros u l xs Hlv L L'; destruct (R2 u l xs Hlv ltac:(congruence)) as (out & Ho); rewrite L in Ho; eauto)
    (or_introl eq_refl) E1 E2 Hnd (fun x _ => seed_backward uniform_mean uniform_good 2 3 late_propagate late_potential late_joint x (late_backward x)) Hg
    (seed_kernel_good uniform_mean uniform_good 2 3 late0 late_propagate late_potential late_joint _ _ _ _ (late_kernel_good _ _ _ _ _)) est He).
  cbv zeta in Q. cbn [length] in Q. rewrite Hp, V2 in Q. rewrite Q in V1. lra.
Qed.
Print Assumptions C73_statement_false.
