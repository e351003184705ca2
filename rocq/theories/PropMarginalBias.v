(** The expectation of the marginal particle filter's estimates. *)
From Coq Require Import Reals List Arith ZArith Bool Lia Lra FunctionalExtensionality.
From Coquelicot Require Import Coquelicot.
From Verif Require Import Ext ScanModel ScanProofs DriverSpec DriverProofs DiscreteSpec Sums
  ResamplingModel ResamplingSpec ResamplingProofs ConditionalProofs KillingProofs SystematicProofs
  ConditionalLaw SmcModel SmcSpec SmcProofs SmcResamplers SmcRuns MarginalPfProofs MarginalRuns MarginalWeights
  UnbiasedSpec KeyProofs Martingale SmcUnbiased MpfUnbiased PairMean PropSmc PropUnbiased.
Import ListNotations.
Open Scope R_scope.

(** [e] is the estimate of the integral of [phi] reported by the last state of a run with T steps *)
Definition mpf_reports {Key X Inp} (dX : X) (phi : X -> R) (T : nat)
           (run : result (list (result (MPFState Key X Inp)))) (e : R) : Prop :=
  exists states s z, run = Ok (map Ok states) /\ nth_error states T = Some s /\
    mpf_log_normalizing_constant s = Fin z /\
    e = exp z * lsum (fun i => wt (mpf_log_weights s) i * phi (nth i (mpf_particles s) dX)) (seq 0 (length (mpf_particles s))).
Lemma map_Ok_inj {A} (l m : list A) : map (@Ok A) l = map Ok m -> l = m.
Proof.
  revert m. induction l as [|a l IH]; intros [|b m] E; try discriminate; auto.
  simpl in E. injection E as -> E. f_equal. auto.
Qed.
Lemma mpf_reports_unique {Key X Inp} (dX : X) phi T (run : result (list (result (MPFState Key X Inp)))) e e' :
  mpf_reports dX phi T run e -> mpf_reports dX phi T run e' -> e = e'.
Proof.
  intros (st & s & z & -> & H1 & H2 & ->) (st' & s' & z' & E & H1' & H2' & ->).
  injection E as E. apply map_Ok_inj in E.
  subst st'. rewrite H1 in H1'. injection H1' as <-. rewrite H2 in H2'. injection H2' as <-. reflexivity.
Qed.

(** Full statement: the marginal filter's estimates are unbiased for Feynman-Kac models with potentials
    G_t(x_{t-1}, x_t), even with a splitting function that never reuses keys and resamplers that reset
    the weights. *)
Definition C65_statement : Prop :=
  forall (Key U X Inp : Type) (keq : forall a b : Key, {a = b} + {a <> b}) (mean : (U -> R) -> R)
         (good : (U -> R) -> Prop) (dX : X) (split : Key -> nat -> list Key)
         (initial : U -> Inp -> X) (propagate : U -> X -> Inp -> X) (log_potential : X -> X -> Inp -> ext)
         (res : U -> list ext -> list X -> nat -> result (list nat * list ext * list X))
         (N : nat) (dummy : X) (phi : X -> R) (x0 : Inp) (inputs : list Inp) (key : Key) (w0 : Key -> U)
         (est : (Key -> U) -> R),
  expectation_ok mean good -> split_ok split -> split_injective split -> (0 < N)%nat ->
  (forall a b x, exists r, log_potential a b x = Fin r) ->
  resampler_ok dX res -> resampler_total res -> resampler_uniform res -> resampler_unbiased mean good N res ->
  fk_good mean good initial propagate log_potential x0 inputs phi ->
  (forall w, mpf_reports dX phi (length inputs)
     (filter split (mpf_build_filter split (fun k => initial (w k)) (fun k => propagate (w k)) log_potential
                                    (fun k => res (w k)) N dummy) (x0 :: inputs) false (Some key)) (est w)) ->
  expectation keq mean (consumed split key N (length inputs)) est w0
  = feynman_kac mean initial propagate log_potential x0 inputs phi.

(** It holds when the potentials do not depend on the previous state.  Missing: potentials that do,
    for which it is false, and resamplers that keep weights (C33). *)
Theorem C65_unbiased_partial {Key U X Inp} (keq : forall a b : Key, {a = b} + {a <> b}) (mean : (U -> R) -> R)
         (good : (U -> R) -> Prop) (dX : X) (split : Key -> nat -> list Key)
         (initial : U -> Inp -> X) (propagate : U -> X -> Inp -> X) (log_potential : X -> X -> Inp -> ext)
         (res : U -> list ext -> list X -> nat -> result (list nat * list ext * list X))
         (N : nat) (dummy : X) (phi : X -> R) (x0 : Inp) (inputs : list Inp) (key : Key) (w0 : Key -> U) :
  expectation_ok mean good -> split_ok split -> NoDup (consumed split key N (length inputs)) -> (0 < N)%nat ->
  (forall a b x, exists r, log_potential a b x = Fin r) ->
  (forall a a' b x, log_potential a b x = log_potential a' b x) ->
  resampler_ok dX res -> resampler_total res -> resampler_uniform res -> resampler_unbiased mean good N res ->
  fk_good mean good initial propagate log_potential x0 inputs phi ->
  let run w := filter split (mpf_build_filter split (fun k => initial (w k)) (fun k => propagate (w k)) log_potential
                                    (fun k => res (w k)) N dummy) (x0 :: inputs) false (Some key) in
  (exists est, forall w, mpf_reports dX phi (length inputs) (run w) (est w)) /\
  (forall est, (forall w, mpf_reports dX phi (length inputs) (run w) (est w)) ->
     expectation keq mean (consumed split key N (length inputs)) est w0
     = feynman_kac mean initial propagate log_potential x0 inputs phi).
Proof.
  intros Hm Hs Hnd HN Hf Hind Hr Ht Hn Hu Hg run.
  destruct (mpf_unbiased keq mean good Hm dX split Hs initial propagate log_potential Hf res Hr Ht Hn N HN dummy phi Hu Hind
              x0 inputs key w0 Hnd Hg) as (est & H1 & H2).
  assert (H3 : forall w, mpf_reports dX phi (length inputs) (run w) (est w)).
  { intros w. destruct (H1 w) as (st & s & z & E & Es & Ez & Ee & L). exists st, s, z. repeat split; auto.
    rewrite L. exact Ee. }
  split; [now exists est|]. intros est' H'. rewrite <- H2. f_equal.
  apply functional_extensionality. intros w. eapply mpf_reports_unique; [apply H'|apply H3].
Qed.
Print Assumptions C65_unbiased_partial.

(** What is estimated after one step, for general potentials and every number of particles N: the
    potential of each particle is averaged over all previous particles, its own ancestor having only
    weight 1/N.  [h u v] is the expected potential of a particle moved from x(v), seen from x(u). *)
Theorem C65_first_step {Key U X Inp} (keq : forall a b : Key, {a = b} + {a <> b}) (mean : (U -> R) -> R)
         (good : (U -> R) -> Prop) (dX : X) (split : Key -> nat -> list Key)
         (initial : U -> Inp -> X) (propagate : U -> X -> Inp -> X) (log_potential : X -> X -> Inp -> ext)
         (res : U -> list ext -> list X -> nat -> result (list nat * list ext * list X))
         (N : nat) (dummy : X) (phi : X -> R) (x0 x : Inp) (key : Key) (w0 : Key -> U) :
  expectation_ok mean good -> split_ok split -> NoDup (consumed split key N 1) -> (0 < N)%nat ->
  (forall a b x, exists r, log_potential a b x = Fin r) ->
  resampler_ok dX res -> resampler_total res -> resampler_uniform res -> resampler_unbiased mean good N res ->
  (forall a b, good (fun e => let y := propagate e b x in uw (log_potential a y x) * phi y)) ->
  let h u v := mean (fun e => let y := propagate e (initial v x0) x in uw (log_potential (initial u x0) y x) * phi y) in
  (forall u, good (h u)) -> (forall u, good (fun v => h v u)) -> good (fun u => h u u) ->
  good (fun u => mean (h u)) -> good (fun u => mean (fun v => h v u)) ->
  let run w := filter split (mpf_build_filter split (fun k => initial (w k)) (fun k => propagate (w k)) log_potential
                                    (fun k => res (w k)) N dummy) [x0; x] false (Some key) in
  (exists est, forall w, mpf_reports dX phi 1 (run w) (est w)) /\
  (forall est, (forall w, mpf_reports dX phi 1 (run w) (est w)) ->
     expectation keq mean (consumed split key N 1) est w0
     = / INR N * mean (fun u => h u u) +
       (1 - / INR N) / 2 * (mean (fun u => mean (h u)) + mean (fun u => mean (fun v => h v u)))) /\
  feynman_kac mean initial propagate log_potential x0 [x] phi = mean (fun u => h u u).
Proof.
  intros Hm Hs Hnd HN Hf Hr Ht Hn Hu Hg h G1 G2 G3 G4 G5 run.
  destruct (mpf_first_step keq mean good Hm dX split Hs initial propagate log_potential Hf res Hr Ht Hn N Hu HN dummy phi x0 x
              Hg G1 G2 G3 G4 G5 key w0 Hnd) as (est & H1 & H2).
  assert (H3 : forall w, mpf_reports dX phi 1 (run w) (est w)).
  { intros w. destruct (H1 w) as (st & s & z & E & Es & Ez & Ee & L). exists st, s, z. repeat split; auto.
    rewrite L. exact Ee. }
  split; [now exists est|]. split; [|reflexivity].
  intros est' H'. transitivity (expectation keq mean (consumed split key N 1) est w0); [|exact H2].
  f_equal. apply functional_extensionality. intros w. eapply mpf_reports_unique; [apply H'|apply H3].
Qed.
Print Assumptions C65_first_step.

(** *** Witness: uniform initial states that do not move, G(x, x') = 1 + (x x')^2, systematic resampling.
    The evidence is 6/5; the estimate's expectation tends to 10/9 as N grows. *)
Lemma is_RInt_powr n : is_RInt (fun x => x ^ n) 0 1 (/ INR (S n)).
Proof.
  pose proof (not_0_INR (S n) ltac:(lia)) as P.
  replace (/ INR (S n)) with (minus ((fun x => / INR (S n) * x ^ S n) 1) ((fun x => / INR (S n) * x ^ S n) 0)).
  2:{ unfold minus, plus, opp; simpl. rewrite pow1. ring. }
  apply (is_RInt_derive (fun x => / INR (S n) * x ^ S n) (fun x => x ^ n)).
  - intros x _. apply is_derive_Reals.
    replace (x ^ n) with (/ INR (S n) * (INR (S n) * x ^ pred (S n))) by (simpl pred; field; exact P).
    apply (derivable_pt_lim_scal (fun x => x ^ S n)). apply derivable_pt_lim_pow.
  - intros x _. apply continuity_pt_filterlim, derivable_continuous_pt, derivable_pt_pow.
Qed.
Lemma uniform_pow n : integral uniform_mean uniform_good (fun x => x ^ n) (/ INR (S n)).
Proof. split; [eexists; apply is_RInt_powr|apply is_RInt_unique, is_RInt_powr]. Qed.
Definition square_potential (a y : R) (_ : unit) : ext := Fin (ln (1 + (a * y) ^ 2)).
Lemma uw_square a y x : uw (square_potential a y x) = 1 + (a * y) ^ 2.
Proof. unfold square_potential. cbn [uw]. apply exp_ln. pose proof (pow2_ge_0 (a * y)). lra. Qed.
Lemma square_affine c n : integral uniform_mean uniform_good (fun v => 1 + c * v ^ n) (1 + c * / INR (S n)).
Proof.
  apply integral_add; [exact uniform_expectation_ok|apply integral_const, uniform_expectation_ok|].
  apply integral_scal; [exact uniform_expectation_ok|apply uniform_pow].
Qed.
Lemma integral_same {U} (mean : (U -> R) -> R) good f g v : (forall u, f u = g u) -> integral mean good g v -> integral mean good f v.
Proof. intros E. apply functional_extensionality in E. now subst. Qed.

Theorem C65_refuted (N : nat) : (2 <= N)%nat ->
  exists (split : list (nat * nat) -> nat -> list (list (nat * nat))) (keq : forall a b : list (nat * nat), {a = b} + {a <> b})
         (est : (list (nat * nat) -> R) -> R),
  split_ok split /\ split_injective split /\
  fk_good uniform_mean uniform_good (fun u (_ : unit) => u) (fun _ x _ => x) square_potential tt [tt] (fun _ => 1) /\
  (forall w, mpf_reports 0 (fun _ => 1) 1
     (filter split (mpf_build_filter split (fun k (_ : unit) => w k) (fun _ x _ => x) square_potential
        (fun k => systematic_fn 0 true (fun u => u) (w k)) N 0) [tt; tt] false (Some [])) (est w)) /\
  expectation keq uniform_mean (consumed split [] N 1) est (fun _ => 0) = 10/9 + 4/45 * / INR N /\
  feynman_kac uniform_mean (fun u (_ : unit) => u) (fun _ x _ => x) square_potential tt [tt] (fun _ => 1) = 6/5.
Proof.
  intros HN.
  destruct C38_hypotheses_met as (split & Hs & Hi).
  assert (keq : forall a b : list (nat * nat), {a = b} + {a <> b}).
  { apply list_eq_dec. intros [a b] [c d]. destruct (Nat.eq_dec a c), (Nat.eq_dec b d); subst; auto; right; congruence. }
  set (h := fun u v : R => uniform_mean (fun e => let y := (fun _ x (_ : unit) => x) e v tt in uw (square_potential u y tt) * (fun _ : R => 1) y)).
  assert (Eh : forall u v, integral uniform_mean uniform_good (fun e : R => uw (square_potential u v tt) * 1) (1 + u ^ 2 * v ^ 2)).
  { intros u v. eapply integral_eq; [apply integral_const, uniform_expectation_ok|]. rewrite uw_square. ring. }
  assert (Eh' : forall u v, h u v = 1 + u ^ 2 * v ^ 2) by (intros u v; apply (Eh u v)).
  assert (A1 : forall u, integral uniform_mean uniform_good (h u) (1 + u ^ 2 * / 3)).
  { intros u. eapply integral_same; [apply Eh'|]. eapply integral_eq; [apply square_affine|]. simpl. field. }
  assert (A2 : forall u, integral uniform_mean uniform_good (fun v => h v u) (1 + u ^ 2 * / 3)).
  { intros u. eapply integral_same; [|apply A1]. intros v. rewrite !Eh'. ring. }
  assert (A3 : integral uniform_mean uniform_good (fun u => h u u) (6/5)).
  { eapply (integral_same _ _ _ (fun u => 1 + 1 * u ^ 4)). { intros u. rewrite Eh'. ring. }
    eapply integral_eq; [apply square_affine|]. simpl. field. }
  assert (A4 : integral uniform_mean uniform_good (fun u => uniform_mean (h u)) (10/9)).
  { eapply (integral_same _ _ _ (fun u => 1 + / 3 * u ^ 2)). { intros u. rewrite (proj2 (A1 u)). ring. }
    eapply integral_eq; [apply square_affine|]. simpl. field. }
  assert (A5 : integral uniform_mean uniform_good (fun u => uniform_mean (fun v => h v u)) (10/9)).
  { eapply (integral_same _ _ _ (fun u => 1 + / 3 * u ^ 2)). { intros u. rewrite (proj2 (A2 u)). ring. }
    eapply integral_eq; [apply square_affine|]. simpl. field. }
  destruct (C65_first_step keq uniform_mean uniform_good 0 split (fun u (_ : unit) => u) (fun _ x _ => x) square_potential
     (systematic_fn 0 true (fun u => u)) N 0 (fun _ => 1) tt tt [] (fun _ => 0)
     uniform_expectation_ok Hs (C38_no_reuse_partial split [] N 1 Hi) ltac:(lia)
     ltac:(intros; eexists; reflexivity) (systematic_resampler_ok _ _ _) (systematic_total _ _ _)
     (proj1 (C33_uniform_resamplers 0 true (fun u => u) (fun _ _ => []) (fun _ _ => []) (fun _ _ => [])))
     (systematic_contract 0 true _)
     ltac:(intros a b; apply (Eh a b)) ltac:(intros u; apply (A1 u)) ltac:(intros u; apply (A2 u)) (proj1 A3) (proj1 A4) (proj1 A5))
    as ((est & He) & Q & F).
  exists split, keq, est. split; [exact Hs|]. split; [exact Hi|]. split; [|split; [exact He|split]].
  - split; [exact (proj1 A3)|]. split; [|exact I]. intros x. apply (Eh x x).
  - refine (eq_trans (Q est He) _).
    transitivity (/ INR N * uniform_mean (fun u => h u u) + (1 - / INR N) / 2 *
       (uniform_mean (fun u => uniform_mean (h u)) + uniform_mean (fun u => uniform_mean (fun v => h v u)))); [reflexivity|].
    rewrite (proj2 A3), (proj2 A4), (proj2 A5). field. apply not_0_INR. lia.
  - refine (eq_trans F _). exact (proj2 A3).
Qed.
Print Assumptions C65_refuted.
Theorem C65_statement_false : ~ C65_statement.
Proof.
  intros H. destruct (C65_refuted 2 ltac:(lia)) as (split & keq & est & A & B & C & D & E & F).
  pose proof (H _ _ _ _ keq uniform_mean uniform_good 0 split _ _ _ (systematic_fn 0 true (fun u => u)) 2%nat 0
    (fun _ => 1) tt [tt] [] (fun _ => 0) est uniform_expectation_ok A B ltac:(lia)
    ltac:(intros; eexists; reflexivity) (systematic_resampler_ok _ _ _) (systematic_total _ _ _)
     (proj1 (C33_uniform_resamplers 0 true (fun u => u) (fun _ _ => []) (fun _ _ => []) (fun _ _ => [])))
     (systematic_contract 0 true _) C D) as Q.
  pose proof (eq_trans (eq_sym E) (eq_trans Q F)) as Q'. simpl in Q'. lra.
Qed.
Print Assumptions C65_statement_false.

(** the partial theorem's hypotheses are met *)
Example C65_hypotheses_met : exists (split : list (nat * nat) -> nat -> list (list (nat * nat)))
    (keq : forall a b : list (nat * nat), {a = b} + {a <> b}) (est : (list (nat * nat) -> R) -> R),
  (forall w, mpf_reports 0 (fun _ => 1) 1
     (filter split (mpf_build_filter split (fun k (_ : unit) => w k) (fun k _ _ => w k) (fun _ y _ => Fin y)
        (fun k => systematic_fn 0 true (fun u => u) (w k)) 5 0) [tt; tt] false (Some [])) (est w)) /\
  expectation keq uniform_mean (consumed split [] 5 1) est (fun _ => 0) = exp 1 - 1.
Proof.
  destruct C38_hypotheses_met as (split & Hs & Hi).
  assert (keq : forall a b : list (nat * nat), {a = b} + {a <> b}).
  { apply list_eq_dec. intros [a b] [c d]. destruct (Nat.eq_dec a c), (Nat.eq_dec b d); subst; auto; right; congruence. }
  assert (A : integral uniform_mean uniform_good (fun u => exp u * 1) (exp 1 - 1)).
  { eapply (integral_same _ _ _ exp); [intros; ring|]. split; [eexists; exact is_RInt_exp|exact (is_RInt_unique _ _ _ _ is_RInt_exp)]. }
  assert (B : integral uniform_mean uniform_good (fun _ : R => uniform_mean (fun u => exp u * 1)) (exp 1 - 1)).
  { eapply integral_eq; [apply integral_const, uniform_expectation_ok|]. apply A. }
  destruct (C65_unbiased_partial keq uniform_mean uniform_good 0 split (fun u (_ : unit) => u) (fun u _ _ => u) (fun _ y _ => Fin y)
     (systematic_fn 0 true (fun u => u)) 5 0 (fun _ => 1) tt [tt] [] (fun _ => 0)
     uniform_expectation_ok Hs (C38_no_reuse_partial split [] 5 1 Hi) ltac:(lia)
     ltac:(intros; eexists; reflexivity) ltac:(reflexivity) (systematic_resampler_ok _ _ _) (systematic_total _ _ _)
     (proj1 (C33_uniform_resamplers 0 true (fun u => u) (fun _ _ => []) (fun _ _ => []) (fun _ _ => [])))
     (systematic_contract 0 true _)) as ((est & He) & Q).
  { split; [exact (proj1 B)|]. split; [intros x; exact (proj1 A)|exact I]. }
  exists split, keq, est. split; [exact He|]. exact (eq_trans (Q est He) (proj2 B)).
Qed.
