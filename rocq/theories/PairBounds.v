(** Bounds on second moments, and second moments with the seeds of the built-in resamplers. *)
From Coq Require Import Reals List Arith Bool Lia Lra Permutation FunctionalExtensionality.
From Coquelicot Require Import Coquelicot.
From Verif Require Import Ext ScanModel DiscreteSpec Sums ResamplingModel ResamplingSpec ResamplingProofs SmcModel SmcSpec
  UnbiasedSpec IterSpec Iter Spacings MultinomialLaw SeedSpec Seeds PropMultinomial PropMultinomialPairs PropUnbiased PairSpec.
Import ListNotations.
Open Scope R_scope.

(** expectations of nonnegative functions are nonnegative *)
Definition expectation_monotone {U} (mean : (U -> R) -> R) (good : (U -> R) -> Prop) : Prop :=
  forall f, good f -> (forall u, 0 <= f u) -> 0 <= mean f.

Section Bounds.
  Context {U X Inp : Type}.
  Variable mean : (U -> R) -> R.
  Variable good : (U -> R) -> Prop.
  Hypothesis Hm : expectation_ok mean good.
  Hypothesis Hpos : expectation_monotone mean good.
  Lemma mean_le f g : good f -> good g -> (forall u, f u <= g u) -> mean f <= mean g.
  Proof using Hm Hpos.
    intros Gf Gg H. destruct (proj2 Hm g f 1 (-1) Gg Gf) as (G & M). assert (0 <= mean (fun u => 1 * g u + -1 * f u)).
    { apply Hpos; [exact G|]. intros u. specialize (H u). lra. }
    lra.
  Qed.
  Lemma mean_close f g c : good f -> good g -> (forall u, Rabs (f u - g u) <= c) -> Rabs (mean f - mean g) <= c.
  Proof using Hm Hpos.
    intros Gf Gg H. destruct (proj1 Hm 1) as (G1 & M1).
    destruct (proj2 Hm g (fun _ => 1) 1 c Gg G1) as (A1 & A2). destruct (proj2 Hm g (fun _ => 1) 1 (- c) Gg G1) as (B1 & B2).
    assert (mean f <= mean (fun u => 1 * g u + c * 1)).
    { apply mean_le; auto. intros u. specialize (H u). apply Rabs_le_between in H. lra. }
    assert (mean (fun u => 1 * g u + - c * 1) <= mean f).
    { apply mean_le; auto. intros u. specialize (H u). apply Rabs_le_between in H. lra. }
    rewrite M1 in A2, B2. apply Rabs_le. lra.
  Qed.
  Lemma mean_abs f c : good f -> (forall u, Rabs (f u) <= c) -> Rabs (mean f) <= c.
  Proof using Hm Hpos.
    intros Gf H. destruct (proj1 Hm 0) as (G0 & M0). rewrite <- (Rminus_0_r (mean f)), <- M0. apply mean_close; auto.
    intros u. now rewrite Rminus_0_r.
  Qed.
  Lemma mean_scal f c : good f -> good (fun u => c * f u) /\ mean (fun u => c * f u) = c * mean f.
  Proof using Hm.
    intros Gf. destruct (proj2 Hm f f c 0 Gf Gf) as (G & M).
    rewrite (functional_extensionality (fun u => c * f u) (fun u => c * f u + 0 * f u)) by (intros; ring). split; [exact G|]. rewrite M. ring.
  Qed.

  Variable N : nat.
  Hypothesis HN : (0 < N)%nat.
  Lemma share : 0 < / INR N <= 1.
  Proof using HN.
    assert (1 <= INR N) by (apply (le_INR 1); lia). split; [apply Rinv_0_lt_compat; lra|]. rewrite <- Rinv_1. apply Rinv_le_contravar; lra.
  Qed.
  (** both iterated means of H are close to those of a product *)
  Lemma mix_abs H D c : mix_good mean good H D -> (forall u v, Rabs (H u v) <= c) -> (forall u, Rabs (D u) <= c) -> Rabs (mix mean N H D) <= c.
  Proof using Hm Hpos HN.
    intros (G1 & G2 & G3 & G4 & G5) HH HD. unfold mix. pose proof share as Sh.
    assert (A : Rabs (mean (fun u => mean (fun v => H u v))) <= c) by (apply mean_abs; [exact G3|intros u; apply mean_abs; auto]).
    assert (B : Rabs (mean (fun v => mean (fun u => H u v))) <= c) by (apply mean_abs; [exact G4|intros u; apply mean_abs; auto]).
    assert (C : Rabs (mean D) <= c) by (apply mean_abs; auto).
    apply Rabs_le_between in A, B, C. apply Rabs_le. set (n := / INR N) in *. nra.
  Qed.
  Lemma mix_close H D f g e d : mix_good mean good H D -> good f -> good g ->
    (forall u v, Rabs (H u v - f u * g v) <= e) -> Rabs (mean D - mean f * mean g) <= d ->
    Rabs (mix mean N H D - mean f * mean g) <= (1 - / INR N) * e + / INR N * d.
  Proof using Hm Hpos HN.
    intros (G1 & G2 & G3 & G4 & G5) Gf Gg HH HD. pose proof share as Sh.
    assert (A : Rabs (mean (fun u => mean (fun v => H u v)) - mean f * mean g) <= e).
    { destruct (mean_scal f (mean g) Gf) as (S1 & S2). rewrite (Rmult_comm (mean f)), <- S2. apply mean_close; auto. intros u.
      destruct (mean_scal g (f u) Gg) as (T1 & T2). rewrite (Rmult_comm (mean g)), <- T2. apply mean_close; auto. }
    assert (B : Rabs (mean (fun v => mean (fun u => H u v)) - mean f * mean g) <= e).
    { destruct (mean_scal g (mean f) Gg) as (S1 & S2). rewrite <- S2. apply mean_close; auto. intros v.
      destruct (mean_scal f (g v) Gf) as (T1 & T2). rewrite (Rmult_comm (mean f)), <- T2. apply mean_close; auto.
      intros u. rewrite (Rmult_comm (g v)). apply HH. }
    unfold mix. apply Rabs_le_between in A, B, HD. apply Rabs_le. set (n := / INR N) in *. nra.
  Qed.

  Variable initial : U -> Inp -> X.
  Variable propagate : U -> X -> Inp -> X.
  Variable log_potential : X -> X -> Inp -> ext.
  Variables (B F : R) (phi : X -> R).
  Hypothesis HB : forall a b x, uw (log_potential a b x) <= B.
  Hypothesis HF : forall x, Rabs (phi x) <= F.
  Notation fk := (fk_from mean propagate log_potential).
  Notation pair := (pair_from mean propagate log_potential N).
  Lemma uw_range a b x : 0 <= uw (log_potential a b x) <= B.
  Proof using HB. split; [apply uw_nonneg|apply HB]. Qed.
  Lemma fk_abs r : fk_from_good mean good propagate log_potential r phi -> forall x, Rabs (fk r phi x) <= B ^ length r * F.
  Proof using Hm Hpos HB HF.
    induction r as [|i r IH]; intros G x; [cbn; rewrite Rmult_1_l; apply HF|]. destruct G as (G & G'). cbn [fk_from length pow].
    apply mean_abs; [apply G|]. intros u. cbv zeta. rewrite Rabs_mult, Rmult_assoc. pose proof (uw_range x (propagate u x i) i) as Q.
    rewrite (Rabs_pos_eq (uw _)) by apply Q. apply Rmult_le_compat; try apply Q; [apply Rabs_pos|]. now apply IH.
  Qed.
  Lemma weighted_abs i (P : X -> X -> R) c x y u v : (forall a b, Rabs (P a b) <= c) -> Rabs (weighted propagate log_potential i P x y u v) <= B * B * c.
  Proof using HB.
    intros HP. unfold weighted. cbv zeta. rewrite !Rabs_mult.
    pose proof (uw_range x (propagate u x i) i) as Q. pose proof (uw_range y (propagate v y i) i) as Q'.
    rewrite !(Rabs_pos_eq (uw _)) by (apply Q || apply Q'). apply Rmult_le_compat; try apply HP; try apply Rabs_pos.
    - apply Rmult_le_pos; [apply Q|apply Q'].
    - apply Rmult_le_compat; [apply Q|apply Q'|apply Q|apply Q'].
  Qed.
  Lemma pair_abs r : pair_from_good mean good propagate log_potential N r phi -> forall x y, Rabs (pair r phi x y) <= B ^ length r * F * (B ^ length r * F).
  Proof using Hm Hpos HN HB HF.
    induction r as [|i r IH]; intros G x y.
    - cbn. rewrite !Rmult_1_l, Rabs_mult. apply Rmult_le_compat; try apply Rabs_pos; apply HF.
    - destruct G as (G & G'). cbn [pair_from length pow].
      replace (B * B ^ length r * F * (B * B ^ length r * F)) with (B * B * (B ^ length r * F * (B ^ length r * F))) by ring.
      apply mix_abs; [apply G| |]; intros; apply weighted_abs; now apply IH.
  Qed.
  Lemma pair_close r : fk_from_good mean good propagate log_potential r phi -> pair_from_good mean good propagate log_potential N r phi ->
    forall x y, Rabs (pair r phi x y - fk r phi x * fk r phi y) <= 2 * INR (length r) * (B ^ length r * F * (B ^ length r * F)) / INR N.
  Proof using Hm Hpos HN HB HF.
    induction r as [|i r IH]; intros Gf Gp x y.
    - cbn. replace (phi x * phi y - phi x * phi y) with 0 by ring. rewrite Rabs_R0. unfold Rdiv. lra.
    - pose proof (fk_abs _ Gf x) as Fx. pose proof (fk_abs _ Gf y) as Fy. pose proof (pair_abs _ Gp x x) as Dx.
      destruct Gf as (Gf & Gf'), Gp as (Gp & Gp'). pose proof share as Sh.
      set (c := B ^ length r * F * (B ^ length r * F)).
      replace (B ^ length (i :: r) * F * (B ^ length (i :: r) * F)) with (B * B * c) in Dx |- * by (unfold c; cbn [length pow]; ring).
      assert (C : Rabs (fk (i :: r) phi x * fk (i :: r) phi y) <= B * B * c).
      { rewrite Rabs_mult. replace (B * B * c) with (B ^ length (i :: r) * F * (B ^ length (i :: r) * F)) by (unfold c; cbn [length pow]; ring).
        apply Rmult_le_compat; auto; apply Rabs_pos. }
      assert (Dd : Rabs (mean (fun u => weighted propagate log_potential i (pair r phi) x x u u)) <= B * B * c).
      { apply mean_abs; [apply (Gp x x)|]. intros u. apply weighted_abs. apply pair_abs, Gp'. }
      assert (B2 : 0 <= B * B) by apply Rle_0_sqr. assert (C0 : 0 <= c) by apply Rle_0_sqr.
      change (pair (i :: r) phi x y) with (mix mean N (weighted propagate log_potential i (pair r phi) x y) (fun u => weighted propagate log_potential i (pair r phi) x x u u)).
      eapply Rle_trans.
      + apply (mix_close _ _ (fun u => let x' := propagate u x i in uw (log_potential x x' i) * fk r phi x')
          (fun u => let y' := propagate u y i in uw (log_potential y y' i) * fk r phi y') (B * B * (2 * INR (length r) * c / INR N)) (2 * (B * B * c))).
        * apply Gp.
        * apply Gf.
        * apply Gf.
        * intros u v. replace (weighted propagate log_potential i (pair r phi) x y u v - _)
            with (weighted propagate log_potential i (fun a b => pair r phi a b - fk r phi a * fk r phi b) x y u v) by (unfold weighted; cbv zeta; ring).
          apply weighted_abs. intros a b. now apply IH.
        * change (mean (fun u => let x' := propagate u x i in uw (log_potential x x' i) * fk r phi x')) with (fk (i :: r) phi x).
          change (mean (fun u => let y' := propagate u y i in uw (log_potential y y' i) * fk r phi y')) with (fk (i :: r) phi y).
          apply Rabs_le_between in C, Dd. apply Rabs_le. lra.
      + cbn [length]. rewrite S_INR. unfold Rdiv. set (n := / INR N) in *. pose proof (pos_INR (length r)) as PL.
        assert (K : 0 <= B * B * (2 * INR (length r) * c * n)).
        { apply Rmult_le_pos; [exact B2|]. apply Rmult_le_pos; [apply Rmult_le_pos; [lra|exact C0]|lra]. }
        set (k := B * B * (2 * INR (length r) * c * n)) in *.
        replace (2 * (INR (length r) + 1) * (B * B * c) * n) with (k + n * (2 * (B * B * c))) by (unfold k; ring).
        assert (0 <= n * k) by (apply Rmult_le_pos; lra). lra.
  Qed.
  Lemma second_moment_close x0 inputs : fk_good mean good initial propagate log_potential x0 inputs phi ->
    pair_good mean good initial propagate log_potential N x0 inputs phi ->
    let g := feynman_kac mean initial propagate log_potential x0 inputs phi in
    Rabs (second_moment mean initial propagate log_potential N x0 inputs phi - g * g)
    <= 2 * (INR (length inputs) + 1) * (B ^ length inputs * F * (B ^ length inputs * F)) / INR N.
  Proof using Hm Hpos HN HB HF.
    intros (Gf & Gf') (Gp & Gp') g. pose proof share as Sh. set (c := B ^ length inputs * F * (B ^ length inputs * F)).
    assert (C0 : 0 <= c) by apply Rle_0_sqr. pose proof (pos_INR (length inputs)) as PL.
    assert (Eg : Rabs (g * g) <= c).
    { rewrite Rabs_mult. assert (Rabs g <= B ^ length inputs * F) by (apply mean_abs; [exact Gf|intros u; now apply fk_abs]).
      apply Rmult_le_compat; auto; apply Rabs_pos. }
    assert (Dd : Rabs (mean (fun u => pair inputs phi (initial u x0) (initial u x0))) <= c).
    { apply mean_abs; [apply Gp|]. intros u. now apply pair_abs. }
    eapply Rle_trans.
    - apply (mix_close _ _ (fun u => fk inputs phi (initial u x0)) (fun u => fk inputs phi (initial u x0)) (2 * INR (length inputs) * c / INR N) (2 * c)); auto.
      + intros u v. now apply pair_close.
      + fold (feynman_kac mean initial propagate log_potential x0 inputs phi). fold g. apply Rabs_le_between in Eg, Dd. apply Rabs_le. lra.
    - unfold Rdiv. set (n := / INR N) in *. set (k := 2 * INR (length inputs) * c * n).
      assert (0 <= k) by (unfold k; apply Rmult_le_pos; [apply Rmult_le_pos; [lra|exact C0]|lra]). assert (0 <= n * k) by (apply Rmult_le_pos; lra).
      replace (2 * (INR (length inputs) + 1) * c * n) with (k + n * (2 * c)) by (unfold k; ring). lra.
  Qed.
End Bounds.

(** ** Seeds that also carry permutations and uniforms *)
Section SeedPairs.
  Context {S X Inp : Type}.
  Variables (meanS : (S -> R) -> R) (goodS : (S -> R) -> Prop).
  Hypothesis HS : expectation_ok meanS goodS.
  Variables (n m : nat).
  Notation mean := (seed_mean meanS n m).
  Notation good := (seed_good meanS goodS n m).
  Variable N : nat.
  Lemma seed_mix (H : S -> S -> R) (D : S -> R) : mix mean N (fun u v => H (snd u) (snd v)) (fun u => D (snd u)) = mix meanS N H D.
  Proof using HS.
    unfold mix. rewrite (seed_snd meanS n m D).
    rewrite (functional_extensionality _ (fun u => (fun s => meanS (fun t => H s t)) (snd u)) (fun u => seed_snd meanS n m (fun t => H (snd u) t))).
    rewrite (seed_snd meanS n m (fun s => meanS (fun t => H s t))).
    rewrite (functional_extensionality _ (fun v => (fun t => meanS (fun s => H s t)) (snd v)) (fun v => seed_snd meanS n m (fun s => H s (snd v)))).
    now rewrite (seed_snd meanS n m (fun t => meanS (fun s => H s t))).
  Qed.
  Lemma seed_mix_good (H : S -> S -> R) (D : S -> R) : mix_good meanS goodS H D -> mix_good mean good (fun u v => H (snd u) (snd v)) (fun u => D (snd u)).
  Proof using HS.
    intros (A & B & C & E & F). split; [|split; [|split; [|split]]].
    - intros u. apply (seed_snd_good meanS goodS n m (fun t => H (snd u) t)). apply A.
    - intros v. apply (seed_snd_good meanS goodS n m (fun s => H s (snd v))). apply B.
    - rewrite (functional_extensionality _ (fun u => (fun s => meanS (fun t => H s t)) (snd u)) (fun u => seed_snd meanS n m (fun t => H (snd u) t))).
      now apply (seed_snd_good meanS goodS n m (fun s => meanS (fun t => H s t))).
    - rewrite (functional_extensionality _ (fun v => (fun t => meanS (fun s => H s t)) (snd v)) (fun v => seed_snd meanS n m (fun s => H s (snd v)))).
      now apply (seed_snd_good meanS goodS n m (fun t => meanS (fun s => H s t))).
    - now apply (seed_snd_good meanS goodS n m D).
  Qed.
  Variables (initial : S -> Inp -> X) (propagate : S -> X -> Inp -> X) (log_potential : X -> X -> Inp -> ext) (phi : X -> R).
  Lemma seed_pair_from r : pair_from mean (fun u => propagate (snd u)) log_potential N r phi = pair_from meanS propagate log_potential N r phi.
  Proof using HS.
    induction r as [|i r IH]; [reflexivity|]. apply functional_extensionality. intros x. apply functional_extensionality. intros y.
    cbn [pair_from]. rewrite IH.
    apply (seed_mix (weighted propagate log_potential i (pair_from meanS propagate log_potential N r phi) x y)
      (fun u => weighted propagate log_potential i (pair_from meanS propagate log_potential N r phi) x x u u)).
  Qed.
  Lemma seed_pair_from_good r : pair_from_good meanS goodS propagate log_potential N r phi ->
    pair_from_good mean good (fun u => propagate (snd u)) log_potential N r phi.
  Proof using HS.
    induction r as [|i r IH]; [easy|]. cbn [pair_from_good]. intros (A & B). split; [|now apply IH]. intros x y. rewrite seed_pair_from.
    apply (seed_mix_good (weighted propagate log_potential i (pair_from meanS propagate log_potential N r phi) x y)
      (fun u => weighted propagate log_potential i (pair_from meanS propagate log_potential N r phi) x x u u)). apply A.
  Qed.
  Lemma seed_second_moment x0 inputs : second_moment mean (fun u => initial (snd u)) (fun u => propagate (snd u)) log_potential N x0 inputs phi
    = second_moment meanS initial propagate log_potential N x0 inputs phi.
  Proof using HS.
    unfold second_moment. rewrite seed_pair_from.
    apply (seed_mix (fun u v => pair_from meanS propagate log_potential N inputs phi (initial u x0) (initial v x0))
      (fun u => pair_from meanS propagate log_potential N inputs phi (initial u x0) (initial u x0))).
  Qed.
  Lemma seed_pair_good x0 inputs : pair_good meanS goodS initial propagate log_potential N x0 inputs phi ->
    pair_good mean good (fun u => initial (snd u)) (fun u => propagate (snd u)) log_potential N x0 inputs phi.
  Proof using HS.
    intros (A & B). split; [|now apply seed_pair_from_good]. rewrite seed_pair_from.
    apply (seed_mix_good (fun u v => pair_from meanS propagate log_potential N inputs phi (initial u x0) (initial v x0))
      (fun u => pair_from meanS propagate log_potential N inputs phi (initial u x0) (initial u x0))). exact A.
  Qed.
End SeedPairs.

(** multinomial resampling draws slots independently *)
Section Pairwise.
  Context {S X : Type}.
  Variables (meanS : (S -> R) -> R) (goodS : (S -> R) -> Prop).
  Hypothesis HS : expectation_ok meanS goodS.
  Variables (dX : X) (cpu : bool) (N : nat).
  Lemma multinomial_pairwise : resampler_pairwise (seed_mean meanS N (N + 1)) (seed_good meanS goodS N (N + 1)) N (multinomial_seeded (S := S) dX cpu).
  Proof using HS.
    intros l xs Hv LN L.
    assert (Ei : forall p us (s : S), Permutation p (seq 0 N) -> length us = (N + 1)%nat -> inside us ->
      exists lw ys, multinomial_seeded dX cpu (p, us, s) l xs N = Ok (indices cpu us p l N, lw, ys)).
    { intros p us s P Lu I. unfold multinomial_seeded, multinomial_fn. rewrite perm_at_id by exact P.
      rewrite (draws_at_id 0 (N + 1)) by easy. cbn [skipn]. rewrite <- (C68_indices dX cpu us p l xs N). destruct multinomial_resampling as [[a b] c]. eauto. }
    split.
    - intros j f Hj. cbv zeta. rewrite LN. destruct (C68_slot cpu l N j f Hv Hj) as (A & B). rewrite LN in B.
      apply (seed_fst meanS goodS HS N (N + 1) (fun p us => f (nth j (indices cpu us p l N) 0%nat))).
      + intros p us s P Lu I. destruct (Ei p us s P Lu I) as (lw & ys & ->). reflexivity.
      + replace (N + 1)%nat with (Datatypes.S N) by lia. exact A.
      + replace (N + 1)%nat with (Datatypes.S N) by lia. exact B.
    - intros j k f Hj Hk H. cbv zeta. rewrite LN. destruct (C68_two_slots cpu l N j k f Hv Hj Hk H) as (A & B). cbv zeta in A, B. rewrite LN in B.
      apply (seed_fst meanS goodS HS N (N + 1) (fun p us => f (nth j (indices cpu us p l N) 0%nat) (nth k (indices cpu us p l N) 0%nat))).
      + intros p us s P Lu I. destruct (Ei p us s P Lu I) as (lw & ys & ->). reflexivity.
      + replace (N + 1)%nat with (Datatypes.S N) by lia. exact A.
      + replace (N + 1)%nat with (Datatypes.S N) by lia. exact B.
  Qed.
End Pairwise.
