(** Property C84: mean square error of the particle filter with multinomial resampling. *)
From Coq Require Import Reals List Arith ZArith Bool Lia Lra Permutation FunctionalExtensionality.
From Verif Require Import Ext ScanModel ScanProofs DriverSpec DriverProofs DiscreteSpec Sums
  ResamplingModel ResamplingSpec ResamplingProofs SmcModel SmcSpec SmcProofs SmcResamplers
  SmcRuns KeyProofs UnbiasedSpec Martingale SmcUnbiased IterSpec SeedSpec Seeds PropSmc PropUnbiased PropUnbiasedBuiltin
  PairSpec Moments SmcMoments PairBounds.
Import ListNotations.
Open Scope R_scope.

(** the weighted average of [phi] over the particles of the last state of a run *)
Definition pf_averages {Key X Inp} (dX : X) (phi : X -> R) (T : nat)
           (run : result (list (result (PFState Key X Inp)))) (e : R) : Prop :=
  exists states s, run = Ok (map Ok states) /\ nth_error states T = Some s /\
    e = lsum (fun i => wt (pf_log_weights s) i * phi (nth i (pf_particles s) dX)) (seq 0 (length (pf_particles s))).

Lemma states_inj {A} (st st' : list A) : map Ok st = map Ok st' -> st = st'.
Proof.
  revert st'. induction st as [|a st IH]; intros [|b st'] E; try discriminate; auto. simpl in E. injection E as -> E. f_equal. auto.
Qed.

Lemma lsum_Rabs {A} (f : A -> R) l : Rabs (lsum f l) <= lsum (fun a => Rabs (f a)) l.
Proof.
  induction l as [|a l IH]; cbn [lsum]; [rewrite Rabs_R0; lra|]. eapply Rle_trans; [apply Rabs_triang|]. lra.
Qed.

Section C84.
  Context {Key S X Inp : Type}.
  Variable keq : forall a b : Key, {a = b} + {a <> b}.
  Variables (meanS : (S -> R) -> R) (goodS : (S -> R) -> Prop).
  Variables (dX : X) (split : Key -> nat -> list Key).
  Variables (initial : S -> Inp -> X) (propagate : S -> X -> Inp -> X) (log_potential : X -> X -> Inp -> ext).
  Variables (cpu : bool) (N : nat) (dummy : X) (x0 : Inp) (inputs : list Inp) (key : Key) (w0 : Key -> list nat * list R * S).
  Let T := length inputs.
  Let mean := seed_mean meanS N (N + 1).
  Let good := seed_good meanS goodS N (N + 1).
  Let keys := consumed split key N T.
  Let run w := filter split (pf_build_filter split (fun k => initial (snd (w k))) (fun k => propagate (snd (w k))) log_potential
                               (fun k => multinomial_seeded dX cpu (w k)) N dummy) (x0 :: inputs) false (Some key).
  Let gamma := feynman_kac meanS initial propagate log_potential x0 inputs.
  Let second := second_moment meanS initial propagate log_potential N x0 inputs.
  Let finite_moments phi := fk_good meanS goodS initial propagate log_potential x0 inputs phi /\
    pair_good meanS goodS initial propagate log_potential N x0 inputs phi.
  Hypothesis HS : expectation_ok meanS goodS.
  Hypothesis Hs : split_ok split.
  Hypothesis Hi : split_injective split.
  Hypothesis HN : (0 < N)%nat.
  Hypothesis Hf : forall a b x, exists r, log_potential a b x = Fin r.

  Lemma moments : exists last : (Key -> list nat * list R * S) -> PFState Key X Inp,
    (forall w, exists states z, run w = Ok (map Ok states) /\ nth_error states T = Some (last w) /\
       pf_log_normalizing_constant (last w) = Fin z /\ valid_logits (pf_log_weights (last w)) /\
       length (pf_log_weights (last w)) = N /\ length (pf_particles (last w)) = N) /\
    forall phi al be ce, finite_moments phi ->
      let F w := al * (lin dX N phi (last w) * lin dX N phi (last w)) + be * lin dX N phi (last w) + ce in
      integrable keq mean good keys F w0 /\ expectation keq mean keys F w0 = al * second phi + be * gamma phi + ce.
  Proof using HS Hs Hi HN Hf.
    pose proof (C38_no_reuse_partial split key N T Hi) as Hnd.
    pose proof (seed_expectation_ok meanS goodS HS N (N + 1)) as HE.
    destruct (pf_moments keq mean good HE dX split Hs (fun u => initial (snd u)) (fun u => propagate (snd u)) log_potential Hf
      (multinomial_seeded dX cpu) (multinomial_seeded_ok dX cpu) (multinomial_seeded_total dX cpu) (multinomial_seeded_uniform dX cpu) N
      (multinomial_pairwise meanS goodS HS dX cpu N) HN dummy x0 inputs key w0 Hnd) as (last & A & B).
    exists last. split.
    - intros w. destruct (A w) as (st & z & E & En & Ez & V & L). exists st, z. do 5 (split; [assumption|]).
      destruct (C32_runs_exist dX split (fun k => initial (snd (w k))) (fun k => propagate (snd (w k))) log_potential (fun k => multinomial_seeded dX cpu (w k))
        N dummy (x0 :: inputs) key Hs HN ltac:(discriminate) ltac:(intros k; apply multinomial_seeded_ok) ltac:(intros k; apply multinomial_seeded_total) Hf) as (st' & E' & _ & L').
      unfold seeded_pf in E. rewrite E in E'. injection E' as E'. apply states_inj in E'. subst st'. now apply (L' _ _ En).
    - intros phi al be ce (G1 & G2) F.
      destruct (B phi al be (seed_fk_good meanS goodS N (N + 1) initial propagate log_potential x0 inputs phi G1)
        (seed_pair_good meanS goodS HS N (N + 1) N initial propagate log_potential phi x0 inputs G2)) as (I1 & I2). cbv zeta in I1, I2. fold T in I1, I2. fold keys in I1, I2.
      destruct (integrable_const keq mean good HE keys ce w0) as (C1 & C2).
      destruct (integrable_lin keq mean good HE keys _ _ 1 1 w0 I1 C1) as (D1 & D2).
      assert (Q : (fun w => 1 * (al * (lin dX N phi (last w) * lin dX N phi (last w)) + be * lin dX N phi (last w)) + 1 * ce) = F)
        by (apply functional_extensionality; intros w; unfold F; ring).
      rewrite Q in D1, D2. split; [exact D1|]. rewrite D2, C2, I2.
      unfold mean. rewrite (seed_second_moment meanS goodS HS N (N + 1) N initial propagate log_potential phi x0 inputs).
      rewrite (seed_fk meanS N (N + 1)). unfold second, gamma. ring.
  Qed.
  Lemma reports_lin phi (last : (Key -> list nat * list R * S) -> PFState Key X Inp) w e :
    (exists states z, run w = Ok (map Ok states) /\ nth_error states T = Some (last w) /\
       pf_log_normalizing_constant (last w) = Fin z /\ valid_logits (pf_log_weights (last w)) /\
       length (pf_log_weights (last w)) = N /\ length (pf_particles (last w)) = N) ->
    pf_reports dX phi T (run w) e -> e = lin dX N phi (last w).
  Proof.
    intros (st & z & E & En & Ez & V & L & L') (st' & s' & z' & E' & En' & Ez' & ->). rewrite E in E'. injection E' as E'. apply states_inj in E'. subst st'.
    rewrite En in En'. injection En' as <-. unfold lin. rewrite L', Ez'. reflexivity.
  Qed.

  (** the exact second moment and variance of the estimate of the unnormalised measure of phi *)
  Theorem C84_second_moment phi est : finite_moments phi -> (forall w, pf_reports dX phi T (run w) (est w)) ->
    integrable keq mean good keys (fun w => est w * est w) w0 /\
    expectation keq mean keys (fun w => est w * est w) w0 = second phi /\
    integrable keq mean good keys (fun w => (est w - gamma phi) * (est w - gamma phi)) w0 /\
    expectation keq mean keys (fun w => (est w - gamma phi) * (est w - gamma phi)) w0 = second phi - gamma phi * gamma phi.
  Proof using HS Hs Hi HN Hf.
    intros G He. destruct moments as (last & A & B).
    assert (Q : forall w, est w = lin dX N phi (last w)) by (intros w; apply (reports_lin phi last w); [apply A|apply He]).
    destruct (B phi 1 0 0 G) as (I1 & I2). destruct (B phi 1 (- 2 * gamma phi) (gamma phi * gamma phi) G) as (J1 & J2). cbv zeta in *.
    rewrite (functional_extensionality (fun w => est w * est w) (fun w => 1 * (lin dX N phi (last w) * lin dX N phi (last w)) + 0 * lin dX N phi (last w) + 0))
      by (intros w; rewrite Q; ring).
    rewrite (functional_extensionality (fun w => (est w - gamma phi) * (est w - gamma phi))
      (fun w => 1 * (lin dX N phi (last w) * lin dX N phi (last w)) + - 2 * gamma phi * lin dX N phi (last w) + gamma phi * gamma phi)) by (intros w; rewrite Q; ring).
    split; [exact I1|]. split; [rewrite I2; ring|]. split; [exact J1|]. rewrite J2. ring.
  Qed.

  Hypothesis Hpos : expectation_monotone meanS goodS.
  Variables (B : R).
  Hypothesis HB : forall a b x, uw (log_potential a b x) <= B.
  Lemma moments_close phi F : (forall x, Rabs (phi x) <= F) -> finite_moments phi ->
    second phi - gamma phi * gamma phi <= 2 * (INR T + 1) * (B ^ T * F * (B ^ T * F)) / INR N.
  Proof using HS HN Hpos HB.
    intros HF (G1 & G2). eapply Rle_trans; [apply Rle_abs|].
    apply (second_moment_close meanS goodS HS Hpos N HN initial propagate log_potential B F phi HB HF x0 inputs G1 G2).
  Qed.
  (** bounded potentials: the mean square error decreases like 1/N *)
  Theorem C84_mean_square phi F est : (forall x, Rabs (phi x) <= F) -> finite_moments phi -> (forall w, pf_reports dX phi T (run w) (est w)) ->
    expectation keq mean keys (fun w => (est w - gamma phi) * (est w - gamma phi)) w0
    <= 2 * (INR T + 1) * (B ^ T * F * (B ^ T * F)) / INR N.
  Proof using HS Hs Hi HN Hf Hpos HB.
    intros HF G He. destruct (C84_second_moment phi est G He) as (_ & _ & _ & ->). now apply moments_close.
  Qed.

  (** averages over the particles: the squared error is dominated by a function of mean O(1/N) *)
  Theorem C84_averages phi F est : (forall x, Rabs (phi x) <= F) -> finite_moments phi -> finite_moments (fun _ => 1) -> 0 < gamma (fun _ => 1) ->
    (forall w, pf_averages dX phi T (run w) (est w)) ->
    exists W, (forall w, (est w - gamma phi / gamma (fun _ => 1)) * (est w - gamma phi / gamma (fun _ => 1)) <= W w) /\
      integrable keq mean good keys W w0 /\
      expectation keq mean keys W w0 <= 8 * (INR T + 1) * (B ^ T * F * (B ^ T * F)) / (INR N * (gamma (fun _ => 1) * gamma (fun _ => 1))).
  Proof using HS Hs Hi HN Hf Hpos HB.
    intros HF G G1 Pg He. destruct moments as (last & A & M).
    set (one := fun _ : X => 1). set (a := gamma phi). set (b := gamma one). change (0 < b) in Pg.
    set (c := 2 / (b * b)). assert (Pc : 0 < c) by (unfold c; apply Rdiv_lt_0_compat; [lra|now apply Rmult_lt_0_compat]).
    destruct (M phi c (- 2 * a * c) (a * a * c) G) as (I1 & I2).
    destruct (M one (c * (F * F)) (- 2 * b * (c * (F * F))) (b * b * (c * (F * F))) G1) as (J1 & J2). cbv zeta in I1, I2, J1, J2.
    pose proof (seed_expectation_ok meanS goodS HS N (N + 1)) as HE.
    destruct (integrable_lin keq mean good HE keys _ _ 1 1 w0 I1 J1) as (K1 & K2). rewrite I2, J2 in K2.
    eexists. split; [|split; [exact K1|]].
    - intros w. cbv beta. destruct (A w) as (st & z & E & En & Ez & V & L & L'). destruct (He w) as (st' & s' & E' & En' & ->).
      rewrite E in E'. injection E' as E'. apply states_inj in E'. subst st'. rewrite En in En'. injection En' as <-. rewrite L'.
      set (h := lsum (fun i => wt (pf_log_weights (last w)) i * phi (nth i (pf_particles (last w)) dX)) (seq 0 N)).
      assert (W1 : lsum (wt (pf_log_weights (last w))) (seq 0 N) = 1) by (pose proof (wt_sum _ V) as W1; unfold cdf in W1; rewrite L in W1; exact W1).
      assert (La : lin dX N phi (last w) = exp z * h) by (unfold lin; rewrite Ez; reflexivity).
      assert (Lb : lin dX N one (last w) = exp z).
      { unfold lin, one. rewrite Ez. rewrite (lsum_ext _ (wt (pf_log_weights (last w)))) by (intros; ring). rewrite W1. cbn [uw]. ring. }
      assert (Hh : Rabs h <= F).
      { unfold h. rewrite <- (Rmult_1_r F), <- W1, <- lsum_scal. eapply Rle_trans; [apply lsum_Rabs|]. apply lsum_le. intros i _.
        rewrite Rabs_mult. rewrite (Rabs_pos_eq (wt _ i)) by now apply wt_nonneg. rewrite (Rmult_comm F). apply Rmult_le_compat_l; [now apply wt_nonneg|apply HF]. }
      rewrite La, Lb. set (q := exp z).
      assert (D : h - a / b = ((q * h - a) + h * (b - q)) / b) by (field; lra).
      assert (Hh2 : h * h <= F * F).
      { apply (Rsqr_le_abs_1 h F). rewrite (Rabs_pos_eq F); [exact Hh|]. eapply Rle_trans; [apply Rabs_pos|exact Hh]. }
      rewrite D. set (d := q * h - a). set (e := b - q).
      replace ((d + h * e) / b * ((d + h * e) / b)) with (c / 2 * ((d + h * e) * (d + h * e))) by (unfold c; field; lra).
      match goal with |- _ <= ?r => replace r with (c * (d * d) + c * ((F * F) * (e * e))) by (unfold d, e; ring) end.
      assert (S1 : (d + h * e) * (d + h * e) <= 2 * (d * d) + 2 * ((h * h) * (e * e))).
      { assert (0 <= (d - h * e) * (d - h * e)) by apply Rle_0_sqr. lra. }
      assert (S2 : (h * h) * (e * e) <= (F * F) * (e * e)) by (apply Rmult_le_compat_r; [apply Rle_0_sqr|exact Hh2]).
      apply Rle_trans with (c / 2 * (2 * (d * d) + 2 * ((F * F) * (e * e)))); [apply Rmult_le_compat_l; lra|]. lra.
    - rewrite K2. pose proof (moments_close phi F HF G) as Ca.
      pose proof (moments_close one 1 ltac:(intros; unfold one; rewrite Rabs_R1; lra) G1) as Cb. fold a in Ca. fold b in Cb |- *.
      replace (8 * (INR T + 1) * (B ^ T * F * (B ^ T * F)) / (INR N * (b * b)))
        with (c * (2 * (INR T + 1) * (B ^ T * F * (B ^ T * F)) / INR N) + c * (F * F) * (2 * (INR T + 1) * (B ^ T * 1 * (B ^ T * 1)) / INR N))
        by (unfold c; field; split; [lra|apply not_0_INR; lia]).
      assert (0 <= c * (F * F)) by (apply Rmult_le_pos; [lra|apply Rle_0_sqr]).
      pose proof (Rmult_le_compat_l c _ _ ltac:(lra) Ca) as Da. pose proof (Rmult_le_compat_l _ _ _ H Cb) as Db.
      match goal with |- ?l <= _ => replace l with (c * (second phi - a * a) + c * (F * F) * (second one - b * b)) by (unfold a, b; ring) end. lra.
  Qed.
End C84.
Print Assumptions C84_second_moment.
Print Assumptions C84_mean_square.
Print Assumptions C84_averages.

(** *** coin-flip seeds: a chain that keeps its state or moves to [false]; potentials 1 and 1/e *)
Definition coin_mean (f : bool -> R) : R := (f true + f false) / 2.
Lemma coin_ok : expectation_ok coin_mean (fun _ => True).
Proof. split; intros; unfold coin_mean; split; auto; lra. Qed.
Lemma coin_monotone : expectation_monotone coin_mean (fun _ => True).
Proof. intros f _ H. unfold coin_mean. pose proof (H true). pose proof (H false). lra. Qed.
Lemma coin_fk_good {X Inp} (initial : bool -> Inp -> X) propagate log_potential x0 inputs phi :
  fk_good coin_mean (fun _ => True) initial propagate log_potential x0 inputs phi.
Proof. split; [exact I|]. induction inputs as [|i r IH]; [exact I|]. split; [easy|exact IH]. Qed.
Lemma coin_pair_good {X Inp} (initial : bool -> Inp -> X) propagate log_potential N x0 inputs phi :
  pair_good coin_mean (fun _ => True) initial propagate log_potential N x0 inputs phi.
Proof.
  split; [unfold mix_good; tauto|]. induction inputs as [|i r IH]; [exact I|]. split; [intros; unfold mix_good; tauto|exact IH].
Qed.
Example C84_hypotheses_met (N T : nat) : (0 < N)%nat -> exists (split : list (nat * nat) -> nat -> list (list (nat * nat)))
    (keq : forall a b : list (nat * nat), {a = b} + {a <> b}) est gamma,
  split_ok split /\ split_injective split /\ 0 < gamma /\
  (forall w, pf_reports true (fun b : bool => if b then 1 else 0) T
     (filter split (pf_build_filter split (fun k (_ : unit) => snd (w k)) (fun k x _ => andb (snd (w k)) x) (fun _ y _ => Fin (if y then 0 else - 1))
        (fun k => multinomial_seeded true true (w k)) N true) (tt :: repeat tt T) false (Some [])) (est w)) /\
  expectation keq (seed_mean coin_mean N (N + 1)) (consumed split [] N T) (fun w => (est w - gamma) * (est w - gamma)) (fun _ => ([], [], true))
  <= 2 * (INR T + 1) / INR N.
Proof.
  intros HN. destruct C38_hypotheses_met as (split & Hs & Hi).
  assert (keq : forall a b : list (nat * nat), {a = b} + {a <> b}).
  { apply list_eq_dec. intros [a b] [c d]. destruct (Nat.eq_dec a c), (Nat.eq_dec b d); subst; auto; right; congruence. }
  set (pot := fun (_ y : bool) (_ : unit) => Fin (if y then 0 else - 1)). set (phi := fun b : bool => if b then 1 else 0).
  assert (Hf : forall (a b : bool) (x : unit), exists r, pot a b x = Fin r) by (intros; unfold pot; eauto).
  set (gamma := feynman_kac coin_mean (fun u (_ : unit) => u) (fun u x (_ : unit) => andb u x) pot tt (repeat tt T) phi).
  destruct (C64_builtin keq coin_mean (fun _ => True) true split (fun u (_ : unit) => u) (fun u x (_ : unit) => andb u x) pot
     true Multinomial None N true phi tt (repeat tt T) [] (fun _ => ([], [], true))
     coin_ok Hs Hi HN Hf (coin_fk_good _ _ _ _ _ _)) as ((est & He) & _).
  exists split, keq, est, gamma. split; [exact Hs|]. split; [exact Hi|]. split.
  { assert (Q : forall n, fk_from coin_mean (fun u x (_ : unit) => andb u x) pot (repeat tt n) phi false = 0 /\
                         0 < fk_from coin_mean (fun u x (_ : unit) => andb u x) pot (repeat tt n) phi true).
    { induction n as [|n (I1 & I2)]; [cbn; lra|]. cbn [repeat fk_from]. unfold coin_mean at 1 3. cbn [andb]. rewrite I1.
      split; [lra|]. assert (P : uw (pot true true tt) = 1) by (unfold pot; cbn [uw]; apply exp_0). rewrite P. lra. }
    destruct (Q T) as (Q1 & Q2). unfold gamma, feynman_kac, coin_mean at 1. rewrite Q1. lra. }
  rewrite repeat_length in He. split; [exact He|].
  pose proof (C84_mean_square keq coin_mean (fun _ => True) true split (fun u (_ : unit) => u) (fun u x (_ : unit) => andb u x) pot
    true N true tt (repeat tt T) [] (fun _ => ([], [], true)) coin_ok Hs Hi HN Hf coin_monotone 1) as Q.
  rewrite repeat_length in Q. specialize (Q ltac:(intros a [|] x; unfold pot; cbn [uw]; [rewrite exp_0; lra|rewrite <- exp_0; left; apply exp_increasing; lra])
    phi 1 est ltac:(intros [|]; unfold phi; [rewrite Rabs_R1|rewrite Rabs_R0]; lra)
    (conj (coin_fk_good _ _ _ _ _ _) (coin_pair_good _ _ _ _ _ _ _)) He).
  rewrite pow1 in Q. eapply Rle_trans; [exact Q|]. right. field. apply not_0_INR. lia.
Qed.
