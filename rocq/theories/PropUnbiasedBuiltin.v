(** Properties C64, C65 for the built-in multinomial and killing resamplers. *)
From Coq Require Import Reals List Arith ZArith Bool Lia Lra Permutation FunctionalExtensionality.
From Coquelicot Require Import Coquelicot.
From Verif Require Import Ext ScanModel ScanProofs DriverSpec DriverProofs DiscreteSpec Sums
  ResamplingModel ResamplingSpec ResamplingProofs SmcModel SmcSpec SmcProofs SmcResamplers
  SmcRuns KeyProofs UnbiasedSpec IterSpec SeedSpec Seeds PropSmc PropUnbiased PropMarginalBias.
Import ListNotations.
Open Scope R_scope.

(** the seed of a key: a uniformly random permutation, the uniforms of the resampler, and the model's own draw *)
Inductive scheme := Multinomial | Killing.
Definition uniforms_needed (c : scheme) (N : nat) : nat := match c with Multinomial => N + 1 | Killing => N + (N + 1) end.
Definition seeded {S X} (dX : X) (cpu : bool) (c : scheme) : Resampling (list nat * list R * S) X :=
  match c with Multinomial => multinomial_seeded dX cpu | Killing => killing_seeded dX cpu end.
Definition made_adaptive {Key X} (threshold : option R) (f : Resampling Key X) : Resampling Key X :=
  match threshold with None => f | Some t => adaptive_fn f t end.

Lemma seeded_contracts {S X} (meanS : (S -> R) -> R) goodS (dX : X) cpu c threshold N : expectation_ok meanS goodS ->
  let m := uniforms_needed c N in
  let res := made_adaptive threshold (seeded dX cpu c) in
  resampler_ok dX res /\ resampler_total res /\ resampler_unbiased (seed_mean meanS N m) (seed_good meanS goodS N m) N res.
Proof.
  intros HS m res.
  assert (A : resampler_ok dX (seeded (S := S) dX cpu c)) by (destruct c; [apply multinomial_seeded_ok|apply killing_seeded_ok]).
  assert (B : resampler_total (seeded (S := S) dX cpu c)) by (destruct c; [apply multinomial_seeded_total|apply killing_seeded_total]).
  assert (C : resampler_unbiased (seed_mean meanS N m) (seed_good meanS goodS N m) N (seeded dX cpu c))
    by (unfold m; destruct c; [now apply multinomial_contract|now apply killing_contract]).
  unfold res. destruct threshold as [t|]; cbn [made_adaptive]; [|auto].
  split; [now apply adaptive_resampler_ok|]. split; [now apply adaptive_total|].
  apply adaptive_contract; [now apply seed_expectation_ok|exact C].
Qed.

(** C64: the particle filter with multinomial or killing resampling, plain or adaptive, is unbiased whatever the model,
    the number of particles and the threshold. *)
Theorem C64_builtin {Key S X Inp} (keq : forall a b : Key, {a = b} + {a <> b}) (meanS : (S -> R) -> R) (goodS : (S -> R) -> Prop)
         (dX : X) (split : Key -> nat -> list Key)
         (initial : S -> Inp -> X) (propagate : S -> X -> Inp -> X) (log_potential : X -> X -> Inp -> ext)
         (cpu : bool) (c : scheme) (threshold : option R) (N : nat) (dummy : X) (phi : X -> R)
         (x0 : Inp) (inputs : list Inp) (key : Key) (w0 : Key -> list nat * list R * S) :
  expectation_ok meanS goodS -> split_ok split -> split_injective split -> (0 < N)%nat ->
  (forall a b x, exists r, log_potential a b x = Fin r) ->
  fk_good meanS goodS initial propagate log_potential x0 inputs phi ->
  let m := uniforms_needed c N in
  let run w := filter split (pf_build_filter split (fun k => initial (snd (w k))) (fun k => propagate (snd (w k))) log_potential
                               (fun k => made_adaptive threshold (seeded dX cpu c) (w k)) N dummy) (x0 :: inputs) false (Some key) in
  (exists est, forall w, pf_reports dX phi (length inputs) (run w) (est w)) /\
  (forall est, (forall w, pf_reports dX phi (length inputs) (run w) (est w)) ->
     expectation keq (seed_mean meanS N m) (consumed split key N (length inputs)) est w0
     = feynman_kac meanS initial propagate log_potential x0 inputs phi).
Proof.
  intros HS Hs Hi HN Hf Hg m run.
  pose proof (C38_no_reuse_partial split key N (length inputs) Hi) as Hnd.
  destruct (seeded_contracts meanS goodS dX cpu c threshold N HS) as (R1 & R2 & R3).
  destruct (C64_unbiased_partial keq (seed_mean meanS N m) (seed_good meanS goodS N m) dX split (fun u => initial (snd u)) (fun u => propagate (snd u))
    log_potential (made_adaptive threshold (seeded dX cpu c)) N dummy phi x0 inputs key w0
    (seed_expectation_ok meanS goodS HS N m) Hs Hnd HN Hf R1 R2 R3) as (P & Q).
  { now apply seed_fk_good. }
  split; [exact P|]. intros est He. rewrite <- (nodup_fixed_point keq Hnd). rewrite (Q est He). apply seed_fk; exact HS.
Qed.
Print Assumptions C64_builtin.

(** C65: so is the marginal particle filter, when the potentials do not depend on the previous state. *)
Theorem C65_builtin {Key S X Inp} (keq : forall a b : Key, {a = b} + {a <> b}) (meanS : (S -> R) -> R) (goodS : (S -> R) -> Prop)
         (dX : X) (split : Key -> nat -> list Key)
         (initial : S -> Inp -> X) (propagate : S -> X -> Inp -> X) (log_potential : X -> X -> Inp -> ext)
         (cpu : bool) (c : scheme) (N : nat) (dummy : X) (phi : X -> R)
         (x0 : Inp) (inputs : list Inp) (key : Key) (w0 : Key -> list nat * list R * S) :
  expectation_ok meanS goodS -> split_ok split -> split_injective split -> (0 < N)%nat ->
  (forall a b x, exists r, log_potential a b x = Fin r) ->
  (forall a a' b x, log_potential a b x = log_potential a' b x) ->
  fk_good meanS goodS initial propagate log_potential x0 inputs phi ->
  let m := uniforms_needed c N in
  let run w := filter split (mpf_build_filter split (fun k => initial (snd (w k))) (fun k => propagate (snd (w k))) log_potential
                               (fun k => seeded dX cpu c (w k)) N dummy) (x0 :: inputs) false (Some key) in
  (exists est, forall w, mpf_reports dX phi (length inputs) (run w) (est w)) /\
  (forall est, (forall w, mpf_reports dX phi (length inputs) (run w) (est w)) ->
     expectation keq (seed_mean meanS N m) (consumed split key N (length inputs)) est w0
     = feynman_kac meanS initial propagate log_potential x0 inputs phi).
Proof.
  intros HS Hs Hi HN Hf Hind Hg m run.
  pose proof (C38_no_reuse_partial split key N (length inputs) Hi) as Hnd.
  destruct (seeded_contracts meanS goodS dX cpu c None N HS) as (R1 & R2 & R3).
  destruct (C65_unbiased_partial keq (seed_mean meanS N m) (seed_good meanS goodS N m) dX split (fun u => initial (snd u)) (fun u => propagate (snd u))
    log_potential (seeded dX cpu c) N dummy phi x0 inputs key w0
    (seed_expectation_ok meanS goodS HS N m) Hs Hnd HN Hf Hind R1 R2) as (P & Q).
  { destruct c; [apply multinomial_seeded_uniform|apply killing_seeded_uniform]. }
  { exact R3. }
  { now apply seed_fk_good. }
  split; [exact P|]. intros est He. rewrite (Q est He). apply seed_fk; exact HS.
Qed.
Print Assumptions C65_builtin.

(** the model of C64_hypotheses_met (independent uniform states, G = exp x) with adaptive killing resampling of 5 particles *)
Example C64_builtin_hypotheses_met (T : nat) : exists (split : list (nat * nat) -> nat -> list (list (nat * nat))) est
    (keq : forall a b : list (nat * nat), {a = b} + {a <> b}),
  split_ok split /\ split_injective split /\
  (forall w, pf_reports 0 (fun _ => 1) T
     (filter split (pf_build_filter split (fun k (_ : unit) => snd (w k)) (fun k _ _ => snd (w k)) (fun _ y _ => Fin y)
        (fun k => adaptive_fn (seeded 0 true Killing) (1/2) (w k)) 5 0) (tt :: repeat tt T) false (Some [])) (est w)) /\
  expectation keq (seed_mean uniform_mean 5 11) (consumed split [] 5 T) est (fun _ => ([], [], 0)) = (exp 1 - 1) ^ T.
Proof.
  destruct C38_hypotheses_met as (split & Hs & Hi).
  assert (keq : forall a b : list (nat * nat), {a = b} + {a <> b}).
  { apply list_eq_dec. intros [a b] [c d]. destruct (Nat.eq_dec a c), (Nat.eq_dec b d); subst; auto; right; congruence. }
  assert (Hf : forall (a b : R) (x : unit), exists r, Fin b = Fin r) by (intros; eauto).
  destruct (C64_builtin keq uniform_mean uniform_good 0 split (fun u (_ : unit) => u) (fun u (_ : R) (_ : unit) => u) (fun _ y _ => Fin y)
     true Killing (Some (1/2)) 5 0 (fun _ => 1) tt (repeat tt T) [] (fun _ => ([], [], 0))
     uniform_expectation_ok Hs Hi ltac:(lia) Hf (exp_model_good T)) as ((est & He) & Q).
  rewrite repeat_length in He, Q. exists split, est, keq. split; [exact Hs|]. split; [exact Hi|]. split; [exact He|].
  rewrite <- exp_model_evidence. exact (Q est He).
Qed.
