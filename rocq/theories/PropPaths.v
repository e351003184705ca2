(** Property C70: whole trajectories.  The weighted ancestral lines of a particle filter, and the
    trajectories returned by the ancestor-tracing smoother, estimate integrals over path space
    without bias. *)
From Coq Require Import Reals List Arith ZArith Bool Lia Lra Permutation FunctionalExtensionality.
From Coquelicot Require Import Coquelicot.
From Verif Require Import Ext ScanModel ScanProofs DriverSpec DriverProofs DiscreteSpec Sums
  ResamplingModel ResamplingSpec ResamplingProofs KillingProofs SystematicProofs SmcModel SmcSpec SmcProofs SmcResamplers
  SmcRuns KeyProofs UnbiasedSpec IterSpec SeedSpec Seeds SmcUnbiased SurvivalSpec SmcDead PathSpec PathProofs PathTracing
  PropSmc PropUnbiased PropUnbiasedBuiltin PropSurvival.
Import ListNotations.
Open Scope R_scope.

(** [e] is the estimate of the integral of [phi] over trajectories carried by the last state of a run
    with T steps: the ancestral lines of its particles, with its weights *)
Definition line_estimates {Key X Inp} (dX : X) (phi : list X -> R) (T : nat)
           (run : result (list (result (PFState Key X Inp)))) (e : R) : Prop :=
  exists states s, run = Ok (map Ok states) /\ nth_error states T = Some s /\
    estimate (pf_log_normalizing_constant s) (pf_log_weights s)
      (map (fun j => phi (ancestral_line dX states T j)) (seq 0 (length (pf_particles s)))) e.
(** [e] is the estimate carried by the M trajectories of a smoother run on the filter's states: exp of
    the filter's log normalising constant times the plain average; zero when that constant is -inf *)
Definition trajectory_estimates {Key X Inp} (dX : X) (phi : list X -> R) (T M : nat)
           (run : result (list (result (PFState Key X Inp))))
           (smooth : list (PFState Key X Inp) -> result (list (result (PSState Key X Inp)))) (e : R) : Prop :=
  exists fstates s sstates, run = Ok (map Ok fstates) /\ nth_error fstates T = Some s /\
    smooth fstates = Ok (map Ok sstates) /\ length sstates = S T /\
    ((pf_log_normalizing_constant s = NInf /\ e = 0) \/
     exists z, pf_log_normalizing_constant s = Fin z /\
       e = exp z * (lsum (fun k => phi (map (fun s => nth k (ps_particles s) dX) sstates)) (seq 0 M) / INR M)).

Lemma line_estimates_unique {Key X Inp} (dX : X) phi T (run : result (list (result (PFState Key X Inp)))) e e' :
  line_estimates dX phi T run e -> line_estimates dX phi T run e' -> e = e'.
Proof.
  intros (st & s & -> & H1 & H2) (st' & s' & E & H1' & H2').
  injection E as E. apply map_Ok_inj in E. subst st'. rewrite H1 in H1'. injection H1' as <-.
  destruct H2 as [(A & ->)|(r & A & _ & ->)], H2' as [(B & ->)|(r' & B & _ & ->)]; rewrite A in B; try discriminate; auto.
  injection B as <-. reflexivity.
Qed.
Lemma trajectory_estimates_unique {Key X Inp} (dX : X) phi T M (run : result (list (result (PFState Key X Inp)))) smooth e e' :
  trajectory_estimates dX phi T M run smooth e -> trajectory_estimates dX phi T M run smooth e' -> e = e'.
Proof.
  intros (st & s & ss & -> & H1 & H2 & _ & H3) (st' & s' & ss' & E & H1' & H2' & _ & H3').
  injection E as E. apply map_Ok_inj in E. subst st'. rewrite H1 in H1'. injection H1' as <-.
  rewrite H2 in H2'. injection H2' as E. apply map_Ok_inj in E. subst ss'.
  destruct H3 as [(A & ->)|(r & A & ->)], H3' as [(B & ->)|(r' & B & ->)]; rewrite A in B; try discriminate; auto.
  injection B as <-. reflexivity.
Qed.

(** The filter: for finite potentials and any unbiased resampler, adaptive ones included, and for
    potentials that may vanish with the resamplers of C69. *)
Theorem C70_lines {Key U X Inp} (keq : forall a b : Key, {a = b} + {a <> b}) (mean : (U -> R) -> R)
         (good : (U -> R) -> Prop) (dX : X) (split : Key -> nat -> list Key)
         (initial : U -> Inp -> X) (propagate : U -> X -> Inp -> X) (log_potential : X -> X -> Inp -> ext)
         (res : U -> list ext -> list X -> nat -> result (list nat * list ext * list X))
         (N : nat) (dummy : X) (phi : list X -> R) (x0 : Inp) (inputs : list Inp) (key : Key) (w0 : Key -> U) :
  expectation_ok mean good -> split_ok split -> NoDup (consumed split key N (length inputs)) -> (0 < N)%nat ->
  (forall a b x, is_logit (log_potential a b x)) ->
  resampler_ok dX res -> resampler_total res -> resampler_unbiased mean good N res ->
  ((forall a b x, exists r, log_potential a b x = Fin r) \/ resampler_revives res) ->
  path_good mean good initial propagate log_potential x0 inputs phi ->
  let run w := filter split (pf_build_filter split (fun k => initial (w k)) (fun k => propagate (w k)) log_potential
                                    (fun k => res (w k)) N dummy) (x0 :: inputs) false (Some key) in
  (exists est, forall w, line_estimates dX phi (length inputs) (run w) (est w)) /\
  (forall est, (forall w, line_estimates dX phi (length inputs) (run w) (est w)) ->
     expectation keq mean (consumed split key N (length inputs)) est w0
     = path_integral mean initial propagate log_potential x0 inputs phi).
Proof.
  intros Hm Hs Hnd HN Hf Hr Ht Hu Hv Hg run.
  destruct (lines_unbiased keq mean good Hm dX split Hs initial propagate log_potential Hf res Hr Ht Hv N Hu HN dummy phi
              x0 inputs key w0 Hnd Hg) as (est & H1 & H2).
  assert (H : forall w, line_estimates dX phi (length inputs) (run w) (est w)).
  { intros w. destruct (H1 w) as (states & s & A & B & L & _ & C). exists states, s. rewrite L. auto. }
  split; [exists est; exact H|]. intros est' H'. rewrite <- H2. f_equal.
  apply functional_extensionality. intros w. eapply line_estimates_unique; [apply H'|apply H].
Qed.
Print Assumptions C70_lines.

(** The ancestor-tracing smoother, run with a different key from the filter's: besides the filter's
    keys it draws from one more, [rk], and that one has not been used. *)
Theorem C70_tracing {Key U X Inp} (keq : forall a b : Key, {a = b} + {a <> b}) (mean : (U -> R) -> R)
         (good : (U -> R) -> Prop) (dX : X) (split : Key -> nat -> list Key)
         (initial : U -> Inp -> X) (propagate : U -> X -> Inp -> X) (log_potential : X -> X -> Inp -> ext)
         (res sres : U -> list ext -> list X -> nat -> result (list nat * list ext * list X))
         (N M : nat) (dummy : X) (dummy_like : Inp -> Inp) (phi : list X -> R)
         (x0 x1 : Inp) (trans' inputs : list Inp) (fkey skey : Key) (w0 : Key -> U) :
  expectation_ok mean good -> split_ok split -> split_injective split -> fkey <> skey -> (0 < N)%nat -> (0 < M)%nat ->
  (forall a b x, is_logit (log_potential a b x)) ->
  resampler_ok dX res -> resampler_total res -> resampler_unbiased mean good N res ->
  resampler_ok dX sres -> resampler_unbiased_to mean good N M sres ->
  (forall u l xs, valid_logits l -> length l = N -> length xs = N -> exists out, sres u l xs M = Ok out) ->
  ((forall a b x, exists r, log_potential a b x = Fin r) \/
   (resampler_revives res /\ forall u xs, length xs = N -> exists out, sres u (repeat NInf N) xs M = Ok out)) ->
  let trans := x1 :: trans' in
  let T := length trans in
  (inputs = trans \/ exists x, inputs = x :: trans) ->
  path_good mean good initial propagate log_potential x0 trans phi ->
  let run w := filter split (pf_build_filter split (fun k => initial (w k)) (fun k => propagate (w k)) log_potential
                                    (fun k => res (w k)) N dummy) (x0 :: trans) false (Some fkey) in
  let smooth w fstates := smoother split dummy_like pf_model_inputs
      (ps_build_smoother split log_potential (tracing_simulate dX) (fun k => sres (w k)) M dummy_like)
      fstates (Some inputs) false (Some skey) in
  exists kT k1 rk, nth_error (split skey (S T)) 0 = Some kT /\ split kT 2%nat = [k1; rk] /\ ~ In rk (consumed split fkey N T) /\
  (exists est, forall w, trajectory_estimates dX phi T M (run w) (smooth w) (est w)) /\
  (forall est, (forall w, trajectory_estimates dX phi T M (run w) (smooth w) (est w)) ->
     expectation keq mean (consumed split fkey N T ++ [rk]) est w0
     = path_integral mean initial propagate log_potential x0 trans phi).
Proof.
  intros Hm Hs Hi Hne HN HM Hf Hr Ht Hu Hr' Hu' Ht' Hv trans T Hin Hg run smooth.
  destruct (tracing_unbiased keq mean good Hm dX split Hs Hi initial propagate log_potential Hf res sres Hr Ht Hr' N M Ht' Hv Hu Hu' HN HM
    dummy dummy_like phi x0 x1 trans' inputs fkey skey w0 Hin Hne Hg) as (kT & k1 & rk & A & B & C & est & H1 & H2).
  exists kT, k1, rk. split; [exact A|]. split; [exact B|]. split; [exact C|].
  split; [exists est; exact H1|]. intros est' H'. etransitivity; [|exact H2]. f_equal.
  apply functional_extensionality. intros w. eapply trajectory_estimates_unique; [apply H'|exact (H1 w)].
Qed.
Print Assumptions C70_tracing.

(** ** Built-in resamplers *)
(** systematic resampling of N particles to M *)
Lemma systematic_unbiased_to {X} (dX : X) cpu N M : (0 < M)%nat ->
  resampler_unbiased_to uniform_mean uniform_good N M (systematic_fn (X := X) dX cpu (fun u => u)).
Proof.
  intros HM l xs phi Hv LN L. cbv zeta. subst N.
  assert (PN : 0 < INR M) by (apply lt_0_INR; lia).
  set (n := length l) in *.
  assert (H : is_RInt (fun u => lsum (fun i => INR (copies (fst (fst (systematic_resampling dX cpu u l xs M))) i) * (/ INR M * phi i)) (seq 0 n)) 0 1
                (lsum (fun i => wt l i * phi i) (seq 0 n))).
  { apply is_RInt_val with (lsum (fun i => (INR M * wt l i) * (/ INR M * phi i)) (seq 0 n)).
    - apply is_RInt_lsum. intros i Hi. apply in_seq in Hi.
      apply (is_RInt_ext (V := R_NormedModule) (fun u => scal (/ INR M * phi i) (INR (copies (fst (fst (systematic_resampling dX cpu u l xs M))) i)))).
      { intros u _. unfold scal; simpl. unfold mult; simpl. ring. }
      apply is_RInt_val with (scal (/ INR M * phi i) (INR M * wt l i)); [|unfold scal; simpl; unfold mult; simpl; ring].
      apply (is_RInt_scal (V := R_NormedModule)). apply systematic_unbiased; auto; lia.
    - apply lsum_seq_ext. intros i _. field. lra. }
  assert (E : forall u, lsum (fun i => INR (copies (fst (fst (systematic_resampling dX cpu u l xs M))) i) * (/ INR M * phi i)) (seq 0 n)
     = match systematic_fn dX cpu (fun u => u) u l xs M with
       | Ok (idx, _, _) => lsum (fun j => phi (nth j idx 0%nat)) (seq 0 M) / INR M | Err _ => 0 end).
  { intros u. unfold systematic_fn, systematic_resampling. cbn [fst].
    destruct (inverse_cdf_spec cpu _ l Hv (systematic_uniforms_sorted u M)) as (A & _).
    rewrite systematic_uniforms_length in A. cbn [apply_resampling_indices].
    unfold Rdiv. rewrite Rmult_comm, <- lsum_scal.
    rewrite (lsum_seq_nth _ (fun i => / INR M * phi i) M A). symmetry. apply sum_by_copies.
    intros i Hi. eapply inverse_cdf_range; eauto using systematic_uniforms_sorted. }
  assert (H' : is_RInt (fun u => match systematic_fn dX cpu (fun u => u) u l xs M with
       | Ok (idx, _, _) => lsum (fun j => phi (nth j idx 0%nat)) (seq 0 M) / INR M | Err _ => 0 end) 0 1
       (lsum (fun i => wt l i * phi i) (seq 0 n))).
  { eapply is_RInt_ext; [|exact H]. intros u _. apply E. }
  split; [eexists; exact H'|]. now apply is_RInt_unique.
Qed.

(** N filter particles and M trajectories, systematic resampling in both *)
Theorem C70_systematic {Key X Inp} (keq : forall a b : Key, {a = b} + {a <> b})
         (dX : X) (split : Key -> nat -> list Key)
         (initial : R -> Inp -> X) (propagate : R -> X -> Inp -> X) (log_potential : X -> X -> Inp -> ext)
         (cpu : bool) (N M : nat) (dummy : X) (dummy_like : Inp -> Inp) (phi : list X -> R)
         (x0 x1 : Inp) (trans' inputs : list Inp) (fkey skey : Key) (w0 : Key -> R) :
  split_ok split -> split_injective split -> fkey <> skey -> (0 < N)%nat -> (0 < M)%nat ->
  (forall a b x, is_logit (log_potential a b x)) ->
  let trans := x1 :: trans' in
  let T := length trans in
  (inputs = trans \/ exists x, inputs = x :: trans) ->
  path_good uniform_mean uniform_good initial propagate log_potential x0 trans phi ->
  let run w := filter split (pf_build_filter split (fun k => initial (w k)) (fun k => propagate (w k)) log_potential
                               (fun k => systematic_fn dX cpu (fun u => u) (w k)) N dummy) (x0 :: trans) false (Some fkey) in
  let smooth w fstates := smoother split dummy_like pf_model_inputs
      (ps_build_smoother split log_potential (tracing_simulate dX) (fun k => systematic_fn dX cpu (fun u => u) (w k)) M dummy_like)
      fstates (Some inputs) false (Some skey) in
  exists kT k1 rk, nth_error (split skey (S T)) 0 = Some kT /\ split kT 2%nat = [k1; rk] /\ ~ In rk (consumed split fkey N T) /\
  (exists est, forall w, trajectory_estimates dX phi T M (run w) (smooth w) (est w)) /\
  (forall est, (forall w, trajectory_estimates dX phi T M (run w) (smooth w) (est w)) ->
     expectation keq uniform_mean (consumed split fkey N T ++ [rk]) est w0
     = path_integral uniform_mean initial propagate log_potential x0 trans phi).
Proof.
  intros Hs Hi Hne HN HM Hl trans T Hin Hg.
  apply (C70_tracing keq uniform_mean uniform_good dX split initial propagate log_potential
    (systematic_fn dX cpu (fun u => u)) (systematic_fn dX cpu (fun u => u)));
    auto using uniform_expectation_ok, systematic_resampler_ok, systematic_total, systematic_contract, systematic_unbiased_to.
  - intros. unfold systematic_fn. eauto.
  - right. split; [apply systematic_revives|]. intros. unfold systematic_fn. eauto.
Qed.
Print Assumptions C70_systematic.

(** multinomial or killing resampling in the filter and in the smoother, as many trajectories as
    particles *)
Lemma seeded_zeros {S X} (dX : X) cpu c (u : list nat * list R * S) l xs n idx lw ys :
  seeded dX cpu c u l xs n = Ok (idx, lw, ys) -> lw = zeros n.
Proof.
  destruct c; cbn [seeded]; unfold multinomial_seeded, killing_seeded, multinomial_fn, killing_fn, multinomial_resampling, killing_resampling.
  - intros H. injection H as _ <- _. reflexivity.
  - destruct (Nat.eqb_spec n (length l)) as [->|]; [|discriminate]. simpl negb. cbv iota. intros H. injection H as _ <- _. reflexivity.
Qed.
Lemma unbiased_to_same {U X} (mean : (U -> R) -> R) good N (res : U -> list ext -> list X -> nat -> result (list nat * list ext * list X)) :
  (forall u l xs n idx lw ys, res u l xs n = Ok (idx, lw, ys) -> lw = zeros n) ->
  resampler_unbiased mean good N res -> resampler_unbiased_to mean good N N res.
Proof.
  intros Hz Hu l xs phi Hv LN L. destruct (Hu l xs phi Hv LN ltac:(congruence)) as (A & B). cbv zeta in A, B |- *. rewrite LN in A, B.
  assert (E : (fun u => match res u l xs N with
       | Ok (idx, lw, _) => lsum (fun j => wt lw j * phi (nth j idx 0%nat)) (seq 0 N) | Err _ => 0 end)
     = (fun u => match res u l xs N with
       | Ok (idx, _, _) => lsum (fun j => phi (nth j idx 0%nat)) (seq 0 N) / INR N | Err _ => 0 end)).
  { apply functional_extensionality. intros u. destruct (res u l xs N) as [[[idx lw] ys]|] eqn:E; [|reflexivity].
    rewrite (Hz _ _ _ _ _ _ _ E). unfold Rdiv. rewrite Rmult_comm, <- lsum_scal. apply lsum_seq_ext. intros j Hj. now rewrite wt_zeros. }
  rewrite E in A, B. auto.
Qed.
Lemma seed_path {S X Inp} (meanS : (S -> R) -> R) goodS N m (initial : S -> Inp -> X) propagate log_potential x0 inputs phi :
  expectation_ok meanS goodS ->
  path_good meanS goodS initial propagate log_potential x0 inputs phi ->
  path_good (seed_mean meanS N m) (seed_good meanS goodS N m) (fun u => initial (snd u)) (fun u => propagate (snd u)) log_potential x0 inputs phi /\
  path_integral (seed_mean meanS N m) (fun u => initial (snd u)) (fun u => propagate (snd u)) log_potential x0 inputs phi
  = path_integral meanS initial propagate log_potential x0 inputs phi.
Proof.
  intros HS Hg. split.
  - apply p_good0_inv. apply p_good0 in Hg.
    exact (seed_fk_good meanS goodS N m (p_initial initial) (p_propagate propagate) (p_potential log_potential) x0 inputs (p_phi phi) Hg).
  - rewrite <- !p_fk0.
    exact (seed_fk meanS N m (p_initial initial) (p_propagate propagate) (p_potential log_potential) x0 inputs (p_phi phi)).
Qed.
Theorem C70_builtin {Key S X Inp} (keq : forall a b : Key, {a = b} + {a <> b}) (meanS : (S -> R) -> R) (goodS : (S -> R) -> Prop)
         (dX : X) (split : Key -> nat -> list Key)
         (initial : S -> Inp -> X) (propagate : S -> X -> Inp -> X) (log_potential : X -> X -> Inp -> ext)
         (cpu : bool) (c : scheme) (N : nat) (dummy : X) (dummy_like : Inp -> Inp) (phi : list X -> R)
         (x0 x1 : Inp) (trans' inputs : list Inp) (fkey skey : Key) (w0 : Key -> list nat * list R * S) :
  expectation_ok meanS goodS -> split_ok split -> split_injective split -> fkey <> skey -> (0 < N)%nat ->
  (forall a b x, is_logit (log_potential a b x)) ->
  let trans := x1 :: trans' in
  let T := length trans in
  (inputs = trans \/ exists x, inputs = x :: trans) ->
  path_good meanS goodS initial propagate log_potential x0 trans phi ->
  let m := uniforms_needed c N in
  let run w := filter split (pf_build_filter split (fun k => initial (snd (w k))) (fun k => propagate (snd (w k))) log_potential
                               (fun k => seeded dX cpu c (w k)) N dummy) (x0 :: trans) false (Some fkey) in
  let smooth w fstates := smoother split dummy_like pf_model_inputs
      (ps_build_smoother split log_potential (tracing_simulate dX) (fun k => seeded dX cpu c (w k)) N dummy_like)
      fstates (Some inputs) false (Some skey) in
  exists kT k1 rk, nth_error (split skey (Datatypes.S T)) 0 = Some kT /\ split kT 2%nat = [k1; rk] /\ ~ In rk (consumed split fkey N T) /\
  (exists est, forall w, trajectory_estimates dX phi T N (run w) (smooth w) (est w)) /\
  (forall est, (forall w, trajectory_estimates dX phi T N (run w) (smooth w) (est w)) ->
     expectation keq (seed_mean meanS N m) (consumed split fkey N T ++ [rk]) est w0
     = path_integral meanS initial propagate log_potential x0 trans phi).
Proof.
  intros HS Hs Hi Hne HN Hl trans T Hin Hg m run smooth.
  destruct (seeded_contracts meanS goodS dX cpu c None N HS) as (R1 & R2 & R3). cbn [made_adaptive] in R1, R2, R3. fold m in R3.
  assert (Hv : resampler_revives (seeded (S := S) dX cpu c)).
  { destruct c; [apply multinomial_revives, perm_at_ok|apply killing_revives; [apply draws0_ok|apply perm_at_ok]]. }
  destruct (seed_path meanS goodS N m initial propagate log_potential x0 trans phi HS Hg) as (Hg' & Hp).
  destruct (C70_tracing keq (seed_mean meanS N m) (seed_good meanS goodS N m) dX split (fun u => initial (snd u)) (fun u => propagate (snd u))
    log_potential (seeded dX cpu c) (seeded dX cpu c) N N dummy dummy_like phi x0 x1 trans' inputs fkey skey w0
    (seed_expectation_ok meanS goodS HS N m) Hs Hi Hne HN HN Hl R1 R2 R3 R1
    (unbiased_to_same _ _ N _ (seeded_zeros dX cpu c) R3)) as (kT & k1 & rk & A & B & C & D & E).
  { intros u l xs Hlv L L'. destruct (R2 u l xs Hlv ltac:(congruence)) as (out & Ho). rewrite L in Ho. eauto. }
  { right. split; [exact Hv|]. intros u xs L. destruct (Hv u xs N HN L) as (i & w & y & H & _). eauto. }
  { exact Hin. } { exact Hg'. }
  exists kT, k1, rk. rewrite <- Hp. auto.
Qed.
Print Assumptions C70_builtin.

(** ** A concrete case: uniform states, the potential 1 below 1/2 and 0 above, and the smoothed
    expectation of the very first state *)
Lemma half_path : forall n past x, path_from uniform_mean half_propagate half_potential (repeat tt n) (fun l => nth 0 l 0) past x
  = (1/2) ^ n * nth 0 (past ++ [x]) 0.
Proof.
  induction n as [|n IH]; intros past x; [simpl; ring|]. cbn [repeat path_from]. cbv zeta.
  rewrite (functional_extensionality _ (fun u => uw (half_potential 0 u tt) * ((1/2) ^ n * nth 0 (past ++ [x]) 0))).
  2:{ intros u. rewrite IH. do 2 f_equal. destruct past; reflexivity. }
  unfold uniform_mean. rewrite (is_RInt_unique _ _ _ _ (is_RInt_half _)). cbn [pow]. lra.
Qed.
Lemma is_RInt_line c : is_RInt (fun u => c * u) 0 1 (c * / 2).
Proof.
  replace (c * / 2) with (minus ((fun u => c * (u ^ 2 / 2)) 1) ((fun u => c * (u ^ 2 / 2)) 0)) by (unfold minus, plus, opp; simpl; field).
  apply (is_RInt_derive (V := R_CompleteNormedModule) (fun u => c * (u ^ 2 / 2)) (fun u => c * u)).
  - intros x _. auto_derive; [auto|]. field.
  - intros x _. apply continuity_pt_filterlim. reg.
Qed.
Lemma half_path_good T : path_good uniform_mean uniform_good half_initial half_propagate half_potential tt (repeat tt T) (fun l => nth 0 l 0).
Proof.
  split.
  - rewrite (functional_extensionality _ (fun u => (1/2) ^ T * u)) by (intros; rewrite half_path; reflexivity).
    eexists. apply is_RInt_line.
  - induction T as [|n IH]; [exact I|]. cbn [repeat path_from_good]. split; [|exact IH]. intros past x. cbv zeta.
    rewrite (functional_extensionality _ (fun u => uw (half_potential 0 u tt) * ((1/2) ^ n * nth 0 (past ++ [x]) 0))).
    2:{ intros u. rewrite half_path. do 2 f_equal. destruct past; reflexivity. }
    eexists. apply is_RInt_half.
Qed.
Lemma half_path_integral T : path_integral uniform_mean half_initial half_propagate half_potential tt (repeat tt T) (fun l => nth 0 l 0)
  = (1/2) ^ T * / 2.
Proof.
  unfold path_integral. rewrite (functional_extensionality _ (fun u => (1/2) ^ T * u)) by (intros; rewrite half_path; reflexivity).
  unfold uniform_mean. apply is_RInt_unique, is_RInt_line.
Qed.
Example C70_hypotheses_met (T : nat) : exists (split : list (nat * nat) -> nat -> list (list (nat * nat))) est rk
    (keq : forall a b : list (nat * nat), {a = b} + {a <> b}),
  split_ok split /\ split_injective split /\
  (forall w, trajectory_estimates 0 (fun l => nth 0 l 0) (S T) 7
     (filter split (pf_build_filter split (fun k => half_initial (w k)) (fun k => half_propagate (w k)) half_potential
        (fun k => systematic_fn 0 true (fun u => u) (w k)) 5 0) (tt :: repeat tt (S T)) false (Some []))
     (fun fstates => smoother split (fun x => x) pf_model_inputs (ps_build_smoother split half_potential (tracing_simulate 0)
        (fun k => systematic_fn 0 true (fun u => u) (w k)) 7 (fun x => x)) fstates (Some (repeat tt (S T))) false (Some [(0%nat, 0%nat)])) (est w)) /\
  expectation keq uniform_mean (consumed split [] 5 (S T) ++ [rk]) est (fun _ => 0) = (1/2) ^ S T * / 2.
Proof.
  destruct C38_hypotheses_met as (split & Hs & Hi).
  assert (keq : forall a b : list (nat * nat), {a = b} + {a <> b}).
  { apply list_eq_dec. intros [a b] [c d]. destruct (Nat.eq_dec a c), (Nat.eq_dec b d); subst; auto; right; congruence. }
  destruct (C70_systematic keq 0 split half_initial half_propagate half_potential
     true 5 7 0 (fun x => x) (fun l => nth 0 l 0) tt tt (repeat tt T) (repeat tt (S T)) [] [(0, 0)]%nat (fun _ => 0)
     Hs Hi ltac:(discriminate) ltac:(lia) ltac:(lia) half_logit (or_introl eq_refl) (half_path_good (S T)))
    as (kT & k1 & rk & _ & _ & _ & (est & He) & Q).
  cbn [length] in He, Q. rewrite repeat_length in He, Q.
  exists split, est, rk, keq. split; [exact Hs|]. split; [exact Hi|]. split; [exact He|].
  rewrite <- half_path_integral. exact (Q est He).
Qed.
