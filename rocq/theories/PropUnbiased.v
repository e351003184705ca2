(** Properties C64, C65: unbiasedness of the particle filters. *)
From Coq Require Import Reals List Arith ZArith Bool Lia Lra FunctionalExtensionality.
From Coquelicot Require Import Coquelicot.
From Verif Require Import Ext ScanModel ScanProofs DriverSpec DriverProofs DiscreteSpec Sums
  ResamplingModel ResamplingSpec ResamplingProofs ConditionalProofs KillingProofs SystematicProofs
  ConditionalLaw SmcModel SmcSpec SmcProofs SmcResamplers SmcRuns MarginalPfProofs MarginalRuns MarginalWeights
  KeyProofs UnbiasedSpec Martingale SmcUnbiased MpfUnbiased PropSmc.
Import ListNotations.
Open Scope R_scope.

(** ** Seeds that are uniform on [0,1] *)
Definition uniform_mean (f : R -> R) : R := RInt f 0 1.
Definition uniform_good (f : R -> R) : Prop := ex_RInt f 0 1.
Lemma uniform_expectation_ok : expectation_ok uniform_mean uniform_good.
Proof.
  split.
  - intros c. split; [apply ex_RInt_const|]. unfold uniform_mean. rewrite RInt_const. unfold scal; simpl. unfold mult; simpl. lra.
  - intros f g a b Hf Hg. unfold uniform_good, uniform_mean in *.
    assert (H : is_RInt (fun u => a * f u + b * g u) 0 1 (a * RInt f 0 1 + b * RInt g 0 1)).
    { apply (is_RInt_plus (V := R_NormedModule) (fun u => a * f u) (fun u => b * g u)).
      - apply (is_RInt_scal (V := R_NormedModule)). now apply (RInt_correct (V := R_CompleteNormedModule)).
      - apply (is_RInt_scal (V := R_NormedModule)). now apply (RInt_correct (V := R_CompleteNormedModule)). }
    split; [eexists; exact H|]. now apply is_RInt_unique.
Qed.

(** ** The built-in resamplers are unbiased in the sense of the contract *)
Lemma sum_by_copies idx n (phi : nat -> R) : (forall i, In i idx -> (i < n)%nat) ->
  lsum phi idx = lsum (fun i => INR (copies idx i) * phi i) (seq 0 n).
Proof.
  induction idx as [|a idx IH]; intros H.
  - simpl. rewrite (lsum_seq_ext _ (fun _ => 0)); [now rewrite lsum_zero|]. intros. unfold copies. simpl. ring.
  - cbn [lsum]. rewrite IH by (intros; apply H; now right).
    rewrite <- (lsum_seq_delta phi n a (H a (or_introl eq_refl))), <- lsum_plus. apply lsum_seq_ext. intros i Hi.
    unfold copies. simpl. destruct (Nat.eq_dec a i) as [->|Hne]; [|destruct (Nat.eqb_spec a i); [congruence|ring]].
    rewrite Nat.eqb_refl, S_INR. ring.
Qed.

Lemma lsum_seq_nth idx (phi : nat -> R) n : length idx = n ->
  lsum (fun j => phi (nth j idx 0%nat)) (seq 0 n) = lsum phi idx.
Proof. intros <-. symmetry. apply lsum_nth_seq. Qed.
Lemma wt_zeros n j : (j < n)%nat -> wt (zeros n) j = / INR n.
Proof.
  intros Hj. unfold wt. rewrite lsum_uw_zeros. unfold zeros.
  rewrite (nth_indep _ NInf (Fin 0)) by (rewrite repeat_length; lia).
  rewrite nth_repeat. cbn [uw]. rewrite exp_0. unfold Rdiv. ring.
Qed.

(** systematic resampling with the offset as seed *)
Lemma systematic_contract {X} (dX : X) cpu N :
  resampler_unbiased uniform_mean uniform_good N (systematic_fn (X := X) dX cpu (fun u => u)).
Proof.
  intros l xs phi Hv LN L. pose proof (valid_length l Hv) as Hn. cbv zeta.
  set (n := length l) in *.
  assert (PN : 0 < INR n) by (apply lt_0_INR; lia).
  assert (H : is_RInt (fun u => lsum (fun i => INR (copies (fst (fst (systematic_resampling dX cpu u l xs n))) i) * (/ INR n * phi i)) (seq 0 n)) 0 1
                (lsum (fun i => wt l i * phi i) (seq 0 n))).
  { apply is_RInt_val with (lsum (fun i => (INR n * wt l i) * (/ INR n * phi i)) (seq 0 n)).
    - apply is_RInt_lsum. intros i Hi. apply in_seq in Hi.
      apply (is_RInt_ext (V := R_NormedModule) (fun u => scal (/ INR n * phi i) (INR (copies (fst (fst (systematic_resampling dX cpu u l xs n))) i)))).
      { intros u _. unfold scal; simpl. unfold mult; simpl. ring. }
      apply is_RInt_val with (scal (/ INR n * phi i) (INR n * wt l i)); [|unfold scal; simpl; unfold mult; simpl; ring].
      apply (is_RInt_scal (V := R_NormedModule)). apply systematic_unbiased; auto; lia.
    - apply lsum_seq_ext. intros i _. field. lra. }
  assert (E : forall u, lsum (fun i => INR (copies (fst (fst (systematic_resampling dX cpu u l xs n))) i) * (/ INR n * phi i)) (seq 0 n)
     = match systematic_fn dX cpu (fun u => u) u l xs n with
       | Ok (idx, lw, _) => lsum (fun j => wt lw j * phi (nth j idx 0%nat)) (seq 0 n) | Err _ => 0 end).
  { intros u. unfold systematic_fn, systematic_resampling. cbn [fst].
    destruct (inverse_cdf_spec cpu _ l Hv (systematic_uniforms_sorted u n)) as (A & _).
    rewrite systematic_uniforms_length in A. cbn [apply_resampling_indices].
    rewrite (lsum_seq_ext (fun j => wt (zeros n) j * phi (nth j (inverse_cdf cpu (systematic_uniforms u n) l) 0%nat))
      (fun j => (fun i => / INR n * phi i) (nth j (inverse_cdf cpu (systematic_uniforms u n) l) 0%nat))).
    2:{ intros j Hj. rewrite wt_zeros by assumption. reflexivity. }
    rewrite (lsum_seq_nth _ (fun i => / INR n * phi i) n A). symmetry. apply sum_by_copies.
    intros i Hi. eapply inverse_cdf_range; eauto using systematic_uniforms_sorted. }
  assert (H' : is_RInt (fun u => match systematic_fn dX cpu (fun u => u) u l xs n with
       | Ok (idx, lw, _) => lsum (fun j => wt lw j * phi (nth j idx 0%nat)) (seq 0 n) | Err _ => 0 end) 0 1
       (lsum (fun i => wt l i * phi i) (seq 0 n))).
  { eapply is_RInt_ext; [|exact H]. intros u _. apply E. }
  split; [eexists; exact H'|]. now apply is_RInt_unique.
Qed.

(** making a resampler adaptive keeps it unbiased *)
Lemma adaptive_contract {U X} (mean : (U -> R) -> R) good (f : U -> list ext -> list X -> nat -> result (list nat * list ext * list X)) t N :
  expectation_ok mean good -> resampler_unbiased mean good N f -> resampler_unbiased mean good N (adaptive_fn f t).
Proof.
  intros Hm Hf l xs phi Hv LN L. specialize (Hf l xs phi Hv LN L). cbv zeta in *.
  unfold adaptive_fn, ess_decorator. rewrite Nat.eqb_refl. simpl negb. cbv iota.
  destruct eltb; [exact Hf|].
  assert (E : lsum (fun j => wt l j * phi (nth j (seq 0 (length l)) 0%nat)) (seq 0 (length l))
              = lsum (fun i => wt l i * phi i) (seq 0 (length l))).
  { apply lsum_seq_ext. intros i Hi. now rewrite seq_nth. }
  rewrite E. destruct Hm as (Hc & _). apply Hc.
Qed.

(** ** C64 *)
(** [e] is the estimate of the integral of [phi] reported by the last state of a run with T steps:
    exp(log_normalizing_constant) times the weighted average of phi over the particles *)
Definition pf_reports {Key X Inp} (dX : X) (phi : X -> R) (T : nat)
           (run : result (list (result (PFState Key X Inp)))) (e : R) : Prop :=
  exists states s z, run = Ok (map Ok states) /\ nth_error states T = Some s /\
    pf_log_normalizing_constant s = Fin z /\
    e = exp z * lsum (fun i => wt (pf_log_weights s) i * phi (nth i (pf_particles s) dX)) (seq 0 (length (pf_particles s))).
Lemma pf_reports_unique {Key X Inp} (dX : X) phi T (run : result (list (result (PFState Key X Inp)))) e e' :
  pf_reports dX phi T run e -> pf_reports dX phi T run e' -> e = e'.
Proof.
  intros (st & s & z & -> & H1 & H2 & ->) (st' & s' & z' & E & H1' & H2' & ->).
  injection E as E. assert (st = st').
  { clear - E. revert st' E. induction st as [|a st IH]; intros [|b st'] E; try discriminate; auto.
    simpl in E. injection E as -> E. f_equal. auto. }
  subst st'. rewrite H1 in H1'. injection H1' as <-. rewrite H2 in H2'. injection H2' as <-. reflexivity.
Qed.

(** Full statement: whatever the splitting function (with distinct children), when the seeds of
    different keys are independent the estimates are unbiased. *)
Definition C64_statement : Prop :=
  forall (Key U X Inp : Type) (keq : forall a b : Key, {a = b} + {a <> b}) (mean : (U -> R) -> R)
         (good : (U -> R) -> Prop) (dX : X) (split : Key -> nat -> list Key)
         (initial : U -> Inp -> X) (propagate : U -> X -> Inp -> X) (log_potential : X -> X -> Inp -> ext)
         (res : U -> list ext -> list X -> nat -> result (list nat * list ext * list X))
         (N : nat) (dummy : X) (phi : X -> R) (x0 : Inp) (inputs : list Inp) (key : Key) (w0 : Key -> U)
         (est : (Key -> U) -> R),
  expectation_ok mean good -> split_ok split -> distinct_children split -> (0 < N)%nat ->
  (forall a b x, exists r, log_potential a b x = Fin r) ->
  resampler_ok dX res -> resampler_total res -> resampler_unbiased mean good N res ->
  fk_good mean good initial propagate log_potential x0 inputs phi ->
  (forall w, pf_reports dX phi (length inputs)
     (filter split (pf_build_filter split (fun k => initial (w k)) (fun k => propagate (w k)) log_potential
                                    (fun k => res (w k)) N dummy) (x0 :: inputs) false (Some key)) (est w)) ->
  expectation keq mean (nodup keq (consumed split key N (length inputs))) est w0
  = feynman_kac mean initial propagate log_potential x0 inputs phi.

(** It holds when no key is consumed twice.  Missing: splitting functions for which the initial
    particles and the first step share keys (C38). *)
Theorem C64_unbiased_partial {Key U X Inp} (keq : forall a b : Key, {a = b} + {a <> b}) (mean : (U -> R) -> R)
         (good : (U -> R) -> Prop) (dX : X) (split : Key -> nat -> list Key)
         (initial : U -> Inp -> X) (propagate : U -> X -> Inp -> X) (log_potential : X -> X -> Inp -> ext)
         (res : U -> list ext -> list X -> nat -> result (list nat * list ext * list X))
         (N : nat) (dummy : X) (phi : X -> R) (x0 : Inp) (inputs : list Inp) (key : Key) (w0 : Key -> U) :
  expectation_ok mean good -> split_ok split -> NoDup (consumed split key N (length inputs)) -> (0 < N)%nat ->
  (forall a b x, exists r, log_potential a b x = Fin r) ->
  resampler_ok dX res -> resampler_total res -> resampler_unbiased mean good N res ->
  fk_good mean good initial propagate log_potential x0 inputs phi ->
  let run w := filter split (pf_build_filter split (fun k => initial (w k)) (fun k => propagate (w k)) log_potential
                                    (fun k => res (w k)) N dummy) (x0 :: inputs) false (Some key) in
  (exists est, forall w, pf_reports dX phi (length inputs) (run w) (est w)) /\
  (forall est, (forall w, pf_reports dX phi (length inputs) (run w) (est w)) ->
     expectation keq mean (nodup keq (consumed split key N (length inputs))) est w0
     = feynman_kac mean initial propagate log_potential x0 inputs phi).
Proof.
  intros Hm Hs Hnd HN Hf Hr Ht Hu Hg run.
  destruct (pf_unbiased keq mean good Hm dX split Hs initial propagate log_potential Hf res Hr Ht N Hu HN dummy phi
              x0 inputs key w0 Hnd Hg) as (est & H1 & H2).
  assert (H3 : forall w, pf_reports dX phi (length inputs) (run w) (est w)).
  { intros w. destruct (H1 w) as (st & s & z & E & Es & Ez & Ee). exists st, s, z. repeat split; auto.
    rewrite Ee. do 2 f_equal.
    destruct (C32_runs_exist dX split (fun k => initial (w k)) (fun k => propagate (w k)) log_potential (fun k => res (w k))
       N dummy (x0 :: inputs) key Hs HN ltac:(discriminate) ltac:(intros k; apply Hr) ltac:(intros k; apply Ht) Hf) as (st' & E' & _ & L).
    unfold seeded_pf in E. rewrite E in E'. injection E' as E'.
    assert (st' = st).
    { clear - E'. revert st' E'. induction st as [|a st IH]; intros [|b st'] E; try discriminate; auto.
      simpl in E. injection E as -> E. f_equal. auto. }
    subst st'. f_equal. symmetry. now apply (L _ _ Es). }
  split; [now exists est|]. intros est' H'. rewrite nodup_fixed_point by assumption. rewrite <- H2. f_equal.
  apply functional_extensionality. intros w. eapply pf_reports_unique; [apply H'|apply H3].
Qed.
Print Assumptions C64_unbiased_partial.

(** The built-in systematic resampler, plain or adaptive, with offsets uniform on [0,1]: the particle
    filter is unbiased whatever the model, the number of particles and the threshold. *)
Theorem C64_systematic {Key X Inp} (keq : forall a b : Key, {a = b} + {a <> b})
         (dX : X) (split : Key -> nat -> list Key)
         (initial : R -> Inp -> X) (propagate : R -> X -> Inp -> X) (log_potential : X -> X -> Inp -> ext)
         (cpu : bool) (threshold : option R) (N : nat) (dummy : X) (phi : X -> R)
         (x0 : Inp) (inputs : list Inp) (key : Key) (w0 : Key -> R) (est : (Key -> R) -> R) :
  split_ok split -> split_injective split -> (0 < N)%nat ->
  (forall a b x, exists r, log_potential a b x = Fin r) ->
  fk_good uniform_mean uniform_good initial propagate log_potential x0 inputs phi ->
  let resampling := match threshold with
    | None => systematic_fn dX cpu (fun u => u)
    | Some t => adaptive_fn (systematic_fn dX cpu (fun u => u)) t end in
  (forall w, pf_reports dX phi (length inputs)
     (filter split (pf_build_filter split (fun k => initial (w k)) (fun k => propagate (w k)) log_potential
                                    (fun k => resampling (w k)) N dummy) (x0 :: inputs) false (Some key)) (est w)) ->
  expectation keq uniform_mean (consumed split key N (length inputs)) est w0
  = feynman_kac uniform_mean initial propagate log_potential x0 inputs phi.
Proof.
  intros Hs Hi HN Hf Hg resampling He.
  pose proof (C38_no_reuse_partial split key N (length inputs) Hi) as Hnd.
  assert (R : resampler_ok dX resampling /\ resampler_total resampling /\ resampler_unbiased uniform_mean uniform_good N resampling).
  { assert (A : resampler_ok dX (systematic_fn (X := X) dX cpu (fun u => u))) by apply systematic_resampler_ok.
    assert (B : resampler_total (systematic_fn (X := X) dX cpu (fun u => u))) by apply systematic_total.
    unfold resampling. destruct threshold as [t|].
    - split; [now apply adaptive_resampler_ok|]. split; [now apply adaptive_total|].
      apply adaptive_contract; [apply uniform_expectation_ok|apply systematic_contract].
    - split; [exact A|]. split; [exact B|]. apply systematic_contract. }
  destruct R as (R1 & R2 & R3).
  destruct (C64_unbiased_partial keq uniform_mean uniform_good dX split initial propagate log_potential resampling N dummy phi
    x0 inputs key w0 uniform_expectation_ok Hs Hnd HN Hf R1 R2 R3 Hg) as (_ & Q).
  rewrite <- (nodup_fixed_point keq Hnd). now apply Q.
Qed.
Print Assumptions C64_systematic.

(** *** a model meeting the hypotheses: independent uniform states with G = exp x; the evidence is (e-1)^T *)
Lemma is_RInt_exp : is_RInt exp 0 1 (exp 1 - 1).
Proof.
  replace (exp 1 - 1) with (minus (exp 1) (exp 0)) by (rewrite exp_0; reflexivity).
  apply (is_RInt_derive exp exp).
  - intros x _. apply is_derive_Reals, derivable_pt_lim_exp.
  - intros x _. apply continuity_pt_filterlim, derivable_continuous_pt, derivable_pt_exp.
Qed.
Lemma exp_model_fk : forall n x, fk_from uniform_mean (fun u (_ : R) (_ : unit) => u) (fun _ y _ => Fin y) (repeat tt n) (fun _ => 1) x = (exp 1 - 1) ^ n.
Proof.
  induction n as [|n IH]; intros x; [reflexivity|]. cbn [repeat fk_from]. cbv zeta. cbn [uw].
  rewrite (functional_extensionality _ (fun u => 0 * 0 + (exp 1 - 1) ^ n * exp u)).
  2:{ intros u. rewrite IH. ring. }
  destruct uniform_expectation_ok as (Hc & Hl).
  destruct (Hl (fun _ => 0) exp 0 ((exp 1 - 1) ^ n) (proj1 (Hc 0)) (ex_intro _ _ is_RInt_exp)) as (_ & ->).
  unfold uniform_mean at 2. rewrite (is_RInt_unique _ _ _ _ is_RInt_exp), (proj2 (Hc 0)). cbn [pow]. ring.
Qed.
Lemma exp_model_good T : fk_good uniform_mean uniform_good (fun u (_ : unit) => u) (fun u (_ : R) (_ : unit) => u) (fun _ y _ => Fin y) tt (repeat tt T) (fun _ => 1).
Proof.
  split.
  - assert (E : (fun u : R => fk_from uniform_mean (fun u (_ : R) (_ : unit) => u) (fun _ y _ => Fin y) (repeat tt T) (fun _ => 1) u) = (fun _ => (exp 1 - 1) ^ T))
      by (apply functional_extensionality; intros; apply exp_model_fk).
    cbv beta. rewrite E. exact (proj1 (proj1 uniform_expectation_ok _)).
  - induction T as [|n IH]; [exact I|]. cbn [repeat fk_from_good]. split; [|exact IH]. intros x. cbv zeta. cbn [uw].
    rewrite (functional_extensionality _ (fun u => 0 * 0 + (exp 1 - 1) ^ n * exp u)).
    2:{ intros u. rewrite exp_model_fk. ring. }
    destruct uniform_expectation_ok as (Hc & Hl).
    apply (Hl (fun _ => 0) exp 0 ((exp 1 - 1) ^ n) (proj1 (Hc 0)) (ex_intro _ _ is_RInt_exp)).
Qed.
Lemma exp_model_evidence T : feynman_kac uniform_mean (fun u (_ : unit) => u) (fun u (_ : R) (_ : unit) => u) (fun _ y _ => Fin y) tt (repeat tt T) (fun _ => 1) = (exp 1 - 1) ^ T.
Proof.
  unfold feynman_kac. transitivity (uniform_mean (fun _ => (exp 1 - 1) ^ T)); [|exact (proj2 (proj1 uniform_expectation_ok _))].
  f_equal. apply functional_extensionality. intros u. apply exp_model_fk.
Qed.
Example C64_hypotheses_met (T : nat) : exists (split : list (nat * nat) -> nat -> list (list (nat * nat))) (est : (list (nat * nat) -> R) -> R)
    (keq : forall a b : list (nat * nat), {a = b} + {a <> b}),
  split_ok split /\ split_injective split /\
  (forall w, pf_reports 0 (fun _ => 1) T
     (filter split (pf_build_filter split (fun k (_ : unit) => w k) (fun k _ _ => w k) (fun _ y _ => Fin y)
        (fun k => adaptive_fn (systematic_fn 0 true (fun u => u)) (1/2) (w k)) 5 0) (tt :: repeat tt T) false (Some [])) (est w)) /\
  expectation keq uniform_mean (consumed split [] 5 T) est (fun _ => 0) = (exp 1 - 1) ^ T.
Proof.
  destruct C38_hypotheses_met as (split & Hs & Hi).
  assert (keq : forall a b : list (nat * nat), {a = b} + {a <> b}).
  { apply list_eq_dec. intros [a b] [c d]. destruct (Nat.eq_dec a c), (Nat.eq_dec b d); subst; auto; right; congruence. }
  assert (Hf : forall (a b : R) (x : unit), exists r, Fin b = Fin r) by (intros; eauto).
  destruct (C64_unbiased_partial keq uniform_mean uniform_good 0 split (fun u (_ : unit) => u) (fun u (_ : R) (_ : unit) => u) (fun _ y _ => Fin y)
     (adaptive_fn (systematic_fn 0 true (fun u => u)) (1/2)) 5 0 (fun _ => 1) tt (repeat tt T) [] (fun _ => 0)
     uniform_expectation_ok Hs (C38_no_reuse_partial split [] 5 _ Hi) ltac:(lia) Hf) as ((est & He) & Q); auto.
  { apply adaptive_resampler_ok, systematic_resampler_ok. }
  { apply adaptive_total, systematic_total. }
  { apply adaptive_contract; [apply uniform_expectation_ok|apply systematic_contract]. }
  { apply exp_model_good. }
  rewrite repeat_length in He, Q. exists split, est, keq. split; [exact Hs|]. split; [exact Hi|]. split; [exact He|].
  rewrite <- (nodup_fixed_point keq (C38_no_reuse_partial split [] 5 T Hi)).
  rewrite (Q est He). apply exp_model_evidence.
Qed.

(** *** The full statement is false: with a splitting function whose child i does not depend on the
    number of children, the seed that resamples is the seed of particle 0, and the seed that moves
    slot 0 is the seed of particle 1. *)
Definition coin_mean (f : bool -> R) : R := (f true + f false) / 2.
Definition coin_good (f : bool -> R) : Prop := True.
Lemma coin_expectation_ok : expectation_ok coin_mean coin_good.
Proof. split; intros; (split; [exact I|unfold coin_mean; field]). Qed.
(** keeps all particles, in random order *)
Definition shuffle_fn {X} (u : bool) (l : list ext) (xs : list X) (n : nat) : result (list nat * list ext * list X) :=
  if (n =? length l)%nat then
    if u then Ok (rev (seq 0 n), rev l, rev xs) else Ok (seq 0 n, l, xs)
  else Err ValueError.
Lemma rev_seq_nth n j : (j < n)%nat -> nth j (rev (seq 0 n)) 0%nat = (n - 1 - j)%nat.
Proof. intros H. rewrite rev_nth; rewrite seq_length; [|lia]. rewrite seq_nth by lia. lia. Qed.
Lemma shuffle_ok {X} (dX : X) : resampler_ok dX shuffle_fn.
Proof.
  intros k l xs n idx lw ys Hv L Hn. unfold shuffle_fn. destruct (Nat.eqb_spec n (length l)) as [->|]; [|discriminate].
  destruct k; intros H; injection H as <- <- <-.
  - rewrite !rev_length, seq_length. repeat split; auto.
    + apply Forall_rev. apply Hv.
    + apply Exists_rev. apply Hv.
    + rewrite rev_seq_nth by assumption. lia.
    + rewrite rev_seq_nth by assumption. rewrite rev_nth by lia. f_equal. lia.
  - rewrite seq_length. repeat split; auto; try apply Hv; now rewrite seq_nth.
Qed.
Lemma shuffle_total {X} : resampler_total (X := X) shuffle_fn.
Proof. intros k l xs Hv L. unfold shuffle_fn. rewrite Nat.eqb_refl. destruct k; eauto. Qed.
Lemma lsum_rev {A} (f : A -> R) l : lsum f (rev l) = lsum f l.
Proof. induction l as [|a l IH]; [reflexivity|]. simpl rev. rewrite lsum_app, IH. cbn [lsum]. ring. Qed.
Lemma lsum_seq_rev (f : nat -> R) n : lsum (fun j => f (n - 1 - j)%nat) (seq 0 n) = lsum f (seq 0 n).
Proof.
  rewrite <- (lsum_rev f). rewrite (lsum_nth_seq f (rev (seq 0 n)) 0%nat), rev_length, seq_length.
  apply lsum_seq_ext. intros i Hi. now rewrite rev_seq_nth.
Qed.
Lemma shuffle_contract {X} N : resampler_unbiased coin_mean coin_good N (shuffle_fn (X := X)).
Proof.
  intros l xs phi Hv LN L f. split; [exact I|]. unfold coin_mean.
  assert (E1 : f true = lsum (fun i => wt l i * phi i) (seq 0 (length l))).
  { unfold f, shuffle_fn. rewrite Nat.eqb_refl. rewrite <- (lsum_seq_rev (fun i => wt l i * phi i)).
    apply lsum_seq_ext. intros j Hj. rewrite rev_seq_nth by assumption. f_equal.
    unfold wt. rewrite lsum_rev, rev_nth by assumption. do 3 f_equal. lia. }
  assert (E2 : f false = lsum (fun i => wt l i * phi i) (seq 0 (length l))).
  { unfold f, shuffle_fn. rewrite Nat.eqb_refl. apply lsum_seq_ext. intros j Hj. now rewrite seq_nth. }
  rewrite E1, E2. field.
Qed.

Definition coin_initial (u : bool) (_ : unit) : R := if u then 1 else 0.
Definition coin_propagate (u : bool) (_ : R) (_ : unit) : R := if u then 1 else 0.
Definition coin_potential (a y : R) (_ : unit) : ext := Fin (ln (1 + a * y)).
Definition nat_list_eq : forall a b : list nat, {a = b} + {a <> b} := list_eq_dec Nat.eq_dec.
Definition coin_run (w : list nat -> bool) :=
  filter demo_split (pf_build_filter demo_split (fun k => coin_initial (w k)) (fun k => coin_propagate (w k)) coin_potential
                                    (fun k => shuffle_fn (w k)) 2 0) [tt; tt] false (Some []).
Lemma coin_reports (w : list nat -> bool) :
  let b (k : list nat) : R := if w k then 1 else 0 in
  pf_reports 0 (fun _ => 1) 1 (coin_run w)
   (if w [0%nat; 0%nat] then 1/2 * (1 + b [1%nat; 0%nat] * b [1%nat; 0%nat]) + 1/2 * (1 + b [2%nat; 0%nat])
    else 1/2 * 1 + 1/2 * (1 + b [1%nat; 0%nat] * b [2%nat; 0%nat])).
Proof.
  intros b.
  assert (Hb : forall k, b k = 0 \/ b k = 1) by (intros k; unfold b; destruct (w k); auto).
  set (s0 := {| pf_key := [0%nat]; pf_particles := [b [0%nat; 0%nat]; b [1%nat; 0%nat]]; pf_log_weights := zeros 2;
              pf_ancestor_indices := [0%nat; 1%nat]; pf_model_inputs := tt;
              pf_log_normalizing_constant := esub (logsumexp (zeros 2)) (elog (Fin (INR 2))) |}).
  assert (Z0 : pf_log_normalizing_constant s0 = Fin 0).
  { unfold s0. cbn [pf_log_normalizing_constant]. unfold zeros. rewrite lse_repeat by lia. unfold elog, esub.
    destruct Rlt_dec as [H|H]; [|exfalso; apply H; simpl; lra]. cbn [eopp eadd]. f_equal. ring. }
  assert (Hfin : forall c d (x : unit), exists r, coin_potential c d x = Fin r) by (intros; eexists; reflexivity).
  assert (I0 : pf_inv 2 s0).
  { split; [repeat split; reflexivity|]. split; [apply zeros_valid; lia|eauto]. }
  destruct (pf_step_facts coin_mean 0 demo_split demo_split_ok coin_propagate coin_potential Hfin shuffle_fn
     (shuffle_ok 0) shuffle_total 2 ltac:(lia) 0 (fun _ => 1) w s0 tt [1%nat] I0)
    as (kr & kp & s' & idx & lw & anc & E1 & _ & E2 & _ & _ & _ & E3 & (W & V & z & Z) & _ & Hv).
  specialize (Hv []). cbn [fk_from] in Hv. rewrite Z0 in Hv. cbn [uw] in Hv. rewrite exp_0 in Hv.
  cbn in E1. injection E1 as <- <-. cbn [pf_log_weights s0] in E2.
  exists [s0; s'], s', z. split.
  { unfold coin_run. cbn. f_equal. f_equal. f_equal. exact E3. }
  split; [reflexivity|]. split; [exact Z|].
  unfold pf_val in Hv. cbn [fk_from] in Hv. rewrite Z in Hv. cbn [uw] in Hv.
  replace (length (pf_particles s')) with 2%nat by (symmetry; apply W).
  rewrite Hv. clear Hv.
  unfold shuffle_fn in E2. cbn in E2.
  assert (Hw : forall j, (j < 2)%nat -> wt (zeros 2) j = 1/2).
  { intros j Hj. rewrite wt_zeros by assumption. simpl. field. }
  assert (Hu : forall y, 0 <= y -> uw (coin_potential y 1 tt) = 1 + y /\ uw (coin_potential y 0 tt) = 1).
  { intros y Hy. unfold coin_potential. cbn [uw]. rewrite !exp_ln by lra. split; ring. }
  destruct (w [0%nat; 0%nat]) eqn:E0; injection E2 as <- <- <-.
  - cbn [lsum seq nth]. change (Fin 0 :: Fin 0 :: nil) with (zeros 2). rewrite !Hw by lia. cbv zeta. cbn [map nth].
    unfold b. rewrite E0. unfold coin_propagate.
    destruct (w [1%nat; 0%nat]), (w [2%nat; 0%nat]); rewrite ?(proj1 (Hu 1 ltac:(lra))), ?(proj2 (Hu 1 ltac:(lra))), ?(proj1 (Hu 0 ltac:(lra))), ?(proj2 (Hu 0 ltac:(lra))); field.
  - cbn [lsum seq nth]. change (Fin 0 :: Fin 0 :: nil) with (zeros 2). rewrite !Hw by lia. cbv zeta. cbn [map nth].
    unfold b. rewrite E0. unfold coin_propagate.
    destruct (w [1%nat; 0%nat]), (w [2%nat; 0%nat]); rewrite ?(proj1 (Hu 1 ltac:(lra))), ?(proj2 (Hu 1 ltac:(lra))), ?(proj1 (Hu 0 ltac:(lra))), ?(proj2 (Hu 0 ltac:(lra))); field.
Qed.
Lemma demo_split_distinct : distinct_children demo_split.
Proof.
  intros k i k' i' n c H1 H2. apply demo_split_nth in H1. apply demo_split_nth in H2.
  destruct H1 as (_ & ->), H2 as (_ & H2). injection H2. auto.
Qed.
Theorem C64_refuted : exists (est : (list nat -> bool) -> R),
  expectation_ok coin_mean coin_good /\ split_ok demo_split /\ distinct_children demo_split /\
  (forall a b x, exists r, coin_potential a b x = Fin r) /\
  resampler_ok 0 shuffle_fn /\ resampler_total (X := R) shuffle_fn /\ resampler_unbiased coin_mean coin_good 2 (shuffle_fn (X := R)) /\
  fk_good coin_mean coin_good coin_initial coin_propagate coin_potential tt [tt] (fun _ => 1) /\
  (forall w, pf_reports 0 (fun _ => 1) 1 (coin_run w) (est w)) /\
  expectation nat_list_eq coin_mean (nodup nat_list_eq (consumed demo_split [] 2 1)) est (fun _ => true) = 21/16 /\
  feynman_kac coin_mean coin_initial coin_propagate coin_potential tt [tt] (fun _ => 1) = 5/4.
Proof.
  exists (fun w : list nat -> bool => let b (k : list nat) : R := if w k then 1 else 0 in
    if w [0%nat; 0%nat] then 1/2 * (1 + b [1%nat; 0%nat] * b [1%nat; 0%nat]) + 1/2 * (1 + b [2%nat; 0%nat])
    else 1/2 * 1 + 1/2 * (1 + b [1%nat; 0%nat] * b [2%nat; 0%nat])).
  split; [exact coin_expectation_ok|]. split; [exact demo_split_ok|]. split; [exact demo_split_distinct|].
  split; [intros; eexists; reflexivity|]. split; [apply shuffle_ok|]. split; [exact shuffle_total|].
  split; [exact (shuffle_contract 2)|]. split; [repeat split|]. split; [exact coin_reports|]. split.
  - assert (E : nodup nat_list_eq (consumed demo_split [] 2 1) = [[0%nat; 0%nat]; [1%nat; 0%nat]; [2%nat; 0%nat]]) by (vm_compute; reflexivity).
    rewrite E. cbn [expectation]. unfold coin_mean, assign.
    cbv zeta.
    repeat match goal with
      | |- context [nat_list_eq ?a ?a] => destruct (nat_list_eq a a) as [_|Hne]; [|exfalso; apply Hne; reflexivity]
      | |- context [nat_list_eq ?a ?b] => destruct (nat_list_eq a b) as [Heq|_]; [exfalso; discriminate Heq|]
      end. field.
  - unfold feynman_kac. cbn [fk_from]. unfold coin_mean, coin_initial, coin_propagate, coin_potential. cbv zeta. cbn [uw].
    rewrite !exp_ln by lra. field.
Qed.
Print Assumptions C64_refuted.
Theorem C64_statement_false : ~ C64_statement.
Proof.
  intros H. destruct C64_refuted as (est & A & B & C & D & E & F & G & I & J & K & L).
  pose proof (H _ _ _ _ nat_list_eq coin_mean coin_good 0 demo_split coin_initial coin_propagate coin_potential shuffle_fn 2%nat 0
    (fun _ => 1) tt [tt] [] (fun _ => true) est A B C ltac:(lia) D E F G I J) as Q.
  change (length [tt]) with 1%nat in Q. rewrite K, L in Q. lra.
Qed.
Print Assumptions C64_statement_false.
