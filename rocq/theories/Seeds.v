(** Multinomial and killing resampling are unbiased resamplers. *)
From Coq Require Import Reals List Arith Bool Lia Lra Permutation FunctionalExtensionality.
From Coquelicot Require Import Coquelicot.
From Verif Require Import Ext ScanModel DiscreteSpec Sums ResamplingModel ResamplingSpec ResamplingProofs
  ConditionalProofs KillingProofs SystematicProofs ConditionalLaw SmcModel SmcSpec SmcProofs SmcResamplers UnbiasedSpec
  IterSpec Iter Spacings MultinomialLaw SeedSpec PropMultinomial PropUnbiased.
Import ListNotations.
Open Scope R_scope.

Section Seeds.
  Context {S : Type}.
  Variables (meanS : (S -> R) -> R) (goodS : (S -> R) -> Prop).
  Hypothesis HS : expectation_ok meanS goodS.
  Variables (N m : nat).
  Notation mean := (seed_mean meanS N m).
  Notation good := (seed_good meanS goodS N m).
  Lemma seed_expectation_ok : expectation_ok mean good.
  Proof.
    destruct HS as (Hc & Hl). split.
    - intros c. split.
      + intros p _. split; [intros; apply Hc|]. apply igood_ext with (2 := proj1 (imean_const m c)). intros us _ _. symmetry. apply Hc.
      + unfold seed_mean. rewrite (perm_mean_ext N _ (fun _ => c)); [apply perm_mean_const|]. intros p _.
        rewrite (imean_ext m _ (fun _ => c)); [apply imean_const|]. intros us _ _. apply Hc.
    - intros f g a b Hf Hg.
      assert (E : forall p us, Permutation p (seq 0 N) -> length us = m -> inside us ->
        meanS (fun s => a * f (p, us, s) + b * g (p, us, s)) = a * meanS (fun s => f (p, us, s)) + b * meanS (fun s => g (p, us, s))).
      { intros p us P L I. apply Hl; [now apply (Hf p P)|now apply (Hg p P)]. }
      split.
      + intros p P. destruct (Hf p P) as (F1 & F2), (Hg p P) as (G1 & G2). split.
        * intros us L I. apply Hl; auto.
        * apply igood_ext with (2 := proj1 (imean_lin m _ _ a b F2 G2)). intros us L I. symmetry. now apply E.
      + unfold seed_mean. rewrite <- perm_mean_lin. apply perm_mean_ext. intros p P.
        destruct (Hf p P) as (F1 & F2), (Hg p P) as (G1 & G2). rewrite <- (proj2 (imean_lin m _ _ a b F2 G2)).
        apply imean_ext. intros us L I. now apply E.
  Qed.
  (** functions of the model's source only *)
  Lemma seed_snd (g : S -> R) : mean (fun x => g (snd x)) = meanS g.
  Proof.
    unfold seed_mean. cbn [snd]. rewrite (functional_extensionality _ (fun _ : list nat => meanS g)) by (intros; apply imean_const).
    apply perm_mean_const.
  Qed.
  Lemma seed_snd_good (g : S -> R) : goodS g -> good (fun x => g (snd x)).
  Proof. intros H p _. split; [intros; exact H|]. cbn [snd]. apply imean_const. Qed.
  (** functions of the uniforms and the permutation only *)
  Lemma seed_fst (F : list nat -> list R -> R) (f : list nat * list R * S -> R) v :
    (forall p us s, Permutation p (seq 0 N) -> length us = m -> inside us -> f (p, us, s) = F p us) ->
    (forall p, Permutation p (seq 0 N) -> igood m (F p)) ->
    perm_mean N (fun p => imean m (F p)) = v -> good f /\ mean f = v.
  Proof.
    intros E G <-. destruct HS as (Hc & _).
    assert (Q : forall p us, Permutation p (seq 0 N) -> length us = m -> inside us -> (fun s => f (p, us, s)) = (fun _ => F p us)).
    { intros p us P L I. apply functional_extensionality. intros s. now apply E. }
    split.
    - intros p P. split; [intros us L I; rewrite (Q p us P L I); apply Hc|].
      apply igood_ext with (2 := G p P). intros us L I. rewrite (Q p us P L I). symmetry. apply Hc.
    - unfold seed_mean. apply perm_mean_ext. intros p P. apply imean_ext. intros us L I. rewrite (Q p us P L I). apply Hc.
  Qed.

  Context {X Inp : Type}.
  Variables (initial : S -> Inp -> X) (propagate : S -> X -> Inp -> X) (log_potential : X -> X -> Inp -> ext).
  Lemma seed_fk_from inputs phi x :
    fk_from mean (fun u => propagate (snd u)) log_potential inputs phi x = fk_from meanS propagate log_potential inputs phi x.
  Proof.
    revert x. induction inputs as [|i r IH]; intros x; [reflexivity|]. cbn [fk_from].
    etransitivity; [|apply (seed_snd (fun s => let y := propagate s x i in uw (log_potential x y i) * fk_from meanS propagate log_potential r phi y))].
    f_equal. apply functional_extensionality. intros u. cbv zeta. now rewrite IH.
  Qed.
  Lemma seed_fk x0 inputs phi :
    feynman_kac mean (fun u => initial (snd u)) (fun u => propagate (snd u)) log_potential x0 inputs phi
    = feynman_kac meanS initial propagate log_potential x0 inputs phi.
  Proof.
    unfold feynman_kac. rewrite <- (seed_snd (fun s => fk_from meanS propagate log_potential inputs phi (initial s x0))).
    f_equal. apply functional_extensionality. intros u. apply seed_fk_from.
  Qed.
  Lemma seed_fk_from_good inputs phi : fk_from_good meanS goodS propagate log_potential inputs phi ->
    fk_from_good mean good (fun u => propagate (snd u)) log_potential inputs phi.
  Proof.
    induction inputs as [|i r IH]; [easy|]. cbn [fk_from_good]. intros (A & B). split; [|now apply IH].
    intros x. specialize (A x). apply seed_snd_good in A.
    rewrite (functional_extensionality _ (fun u => let y := propagate (snd u) x i in uw (log_potential x y i) * fk_from meanS propagate log_potential r phi y)).
    - exact A.
    - intros u. cbv zeta. now rewrite seed_fk_from.
  Qed.
  Lemma seed_fk_good x0 inputs phi : fk_good meanS goodS initial propagate log_potential x0 inputs phi ->
    fk_good mean good (fun u => initial (snd u)) (fun u => propagate (snd u)) log_potential x0 inputs phi.
  Proof.
    intros (A & B). split; [|now apply seed_fk_from_good]. apply seed_snd_good in A.
    rewrite (functional_extensionality _ (fun u => fk_from meanS propagate log_potential inputs phi (initial (snd u) x0))); [exact A|].
    intros u. apply seed_fk_from.
  Qed.
End Seeds.

Section Draws.
  Context {S : Type}.
  Notation seed := (list nat * list R * S)%type.
  Lemma regular_range u : 0 < regular u < 1.
  Proof. unfold regular. destruct Rlt_dec; [destruct Rlt_dec|]; lra. Qed.
  Lemma draws_ok a extra : uniforms_ok (Key := seed) (fun x n => draws_at (a n) (n + extra) x) extra.
  Proof.
    intros x n. unfold draws_at. split; [now rewrite map_length, seq_length|]. apply Forall_forall. intros u Hu.
    apply in_map_iff in Hu. destruct Hu as (k & <- & _). apply regular_range.
  Qed.
  Lemma perm_at_ok : perm_ok (Key := seed) (fun x n => perm_at n x).
  Proof.
    intros x n. unfold perm_at. destruct in_dec as [H|H]; [|reflexivity]. now apply perms_perm.
  Qed.
  Lemma perm_at_id n p us (s : S) : Permutation p (seq 0 n) -> perm_at n (p, us, s) = p.
  Proof. intros P. unfold perm_at. cbn [fst]. destruct in_dec as [H|H]; [reflexivity|]. elim H. now apply perms_complete. Qed.
  Lemma draws_at_id a n p us (s : S) : length us = (a + n)%nat -> inside us -> draws_at a n (p, us, s) = skipn a us.
  Proof.
    intros L I. unfold draws_at. cbn [fst snd]. apply (nth_list_ext _ _ 0).
    - rewrite map_length, seq_length, skipn_length. lia.
    - intros k Hk. rewrite map_length, seq_length in Hk.
      rewrite (nth_indep _ 0 (regular (nth (a + 0) us (1/2)))) by (rewrite map_length, seq_length; lia).
      rewrite (map_nth (fun k => regular (nth (a + k) us (1/2)))), seq_nth by lia. cbn [Nat.add].
      rewrite (nth_indep us (1/2) 0) by lia.
      assert (H : 0 < nth (a + k) us 0 < 1).
      { unfold inside in I. rewrite Forall_forall in I. apply I. apply nth_In. lia. }
      assert (E : nth (a + k) us 0 = nth k (skipn a us) 0).
      { transitivity (nth (a + k) (firstn a us ++ skipn a us) 0); [now rewrite firstn_skipn|].
        rewrite app_nth2 by (rewrite firstn_length; lia). rewrite firstn_length, Nat.min_l by lia. f_equal. lia. }
      rewrite <- E.
      unfold regular. destruct Rlt_dec; [destruct Rlt_dec|]; lra.
  Qed.
  Lemma draws_at_first n p us vs (s : S) : length us = n -> inside us -> draws_at 0 n (p, us ++ vs, s) = us.
  Proof.
    intros L I. rewrite <- (draws_at_id 0 n p us s) at 2 by easy. unfold draws_at. cbn [fst snd]. apply map_ext_in.
    intros k Hk. apply in_seq in Hk. now rewrite app_nth1 by lia.
  Qed.
End Draws.

Section Contracts.
  Context {S X : Type}.
  Variables (meanS : (S -> R) -> R) (goodS : (S -> R) -> Prop).
  Hypothesis HS : expectation_ok meanS goodS.
  Variables (dX : X) (cpu : bool) (N : nat).
  Notation seed := (list nat * list R * S)%type.
  Definition multinomial_seeded : Resampling seed X :=
    multinomial_fn dX cpu (fun x n => draws_at 0 (n + 1) x) (fun x n => perm_at n x).
  Definition killing_seeded : Resampling seed X :=
    killing_fn dX cpu (fun x n => draws_at 0 n x) (fun x n => draws_at n (n + 1) x) (fun x n => perm_at n x).
  Lemma draws0_ok : uniforms_ok (Key := seed) (fun x n => draws_at 0 n x) 0.
  Proof. intros x n. pose proof (draws_ok (S := S) (fun _ => 0%nat) 0 x n) as H. cbv beta in H. rewrite Nat.add_0_r in *. exact H. Qed.
  Lemma multinomial_seeded_ok : resampler_ok dX multinomial_seeded.
  Proof. apply multinomial_resampler_ok; [apply (draws_ok (fun _ => 0%nat))|apply perm_at_ok]. Qed.
  Lemma killing_seeded_ok : resampler_ok dX killing_seeded.
  Proof. apply killing_resampler_ok; [apply draws0_ok|apply (draws_ok (fun n => n))|apply perm_at_ok]. Qed.
  Lemma multinomial_seeded_total : resampler_total multinomial_seeded.
  Proof. intros k l xs _ _. unfold multinomial_seeded, multinomial_fn. destruct multinomial_resampling as [[a b] c]. eauto. Qed.
  Lemma killing_seeded_total : resampler_total killing_seeded.
  Proof.
    intros k l xs _ _. unfold killing_seeded, killing_fn, killing_resampling. rewrite Nat.eqb_refl. simpl negb. cbv iota.
    destruct multinomial_resampling as [[a b] c]. eauto.
  Qed.
  Lemma multinomial_seeded_uniform : resampler_uniform multinomial_seeded.
  Proof. intros k l xs n idx lw ys H. unfold multinomial_seeded, multinomial_fn, multinomial_resampling in H. now injection H. Qed.
  Lemma killing_seeded_uniform : resampler_uniform killing_seeded.
  Proof.
    intros k l xs n idx lw ys H. unfold killing_seeded, killing_fn, killing_resampling in H.
    destruct (Nat.eqb_spec n (length l)) as [->|]; [|discriminate]. simpl negb in H. cbv iota in H.
    destruct multinomial_resampling as [[a b] c]. now injection H.
  Qed.

  Lemma multinomial_contract : resampler_unbiased (seed_mean meanS N (N + 1)) (seed_good meanS goodS N (N + 1)) N multinomial_seeded.
  Proof.
    intros l xs phi Hv LN L. cbv zeta. pose proof (valid_length l Hv) as Hn. rewrite LN in *.
    assert (PN : 0 < INR N) by (apply lt_0_INR; lia).
    apply (seed_fst meanS goodS HS N (N + 1) (fun p us => / INR N * lsum phi (indices cpu us p l N) + 0 * 0)).
    - intros p us s P Lu I. unfold multinomial_seeded, multinomial_fn. rewrite perm_at_id by exact P.
      rewrite (draws_at_id 0 (N + 1)) by easy. cbn [skipn].
      pose proof (multinomial_facts cpu dX us p l xs N Hv ltac:(lia) I P) as (A & _).
      unfold indices, multinomial_resampling in *. cbn [fst] in *.
      rewrite (lsum_seq_ext _ (fun j => / INR N * phi (nth j (map (fun i => nth i (inverse_cdf cpu (sorted_uniforms us) l) 0%nat) p) 0%nat))).
      2:{ intros j Hj. now rewrite wt_zeros. }
      rewrite lsum_scal, (lsum_seq_nth _ phi N A). ring.
    - intros p P. destruct (C68_unbiased cpu p l N phi Hv P) as (A & _). replace (N + 1)%nat with (Datatypes.S N) by lia.
      apply (imean_lin (Datatypes.S N) _ (fun _ => 0) (/ INR N) 0 A). apply imean_const.
    - rewrite (perm_mean_ext N _ (fun _ => lsum (fun i => wt l i * phi i) (seq 0 N))); [apply perm_mean_const|].
      intros p P. destruct (C68_unbiased cpu p l N phi Hv P) as (A & B). replace (N + 1)%nat with (Datatypes.S N) by lia.
      rewrite (proj2 (imean_lin (Datatypes.S N) _ (fun _ => 0) (/ INR N) 0 A (proj1 (imean_const _ 0)))), B, LN. field. lra.
  Qed.

  (** one slot of killing resampling *)
  Lemma killing_slot l s j (phi : nat -> R) : valid_logits l -> length l = N -> (s < N)%nat -> (j < N)%nat ->
    let F us := phi (killing_index l (nth s (firstn N us) 0) s (si cpu l (skipn N us) j)) in
    let M := imean (N + 1) (fun us => phi (si cpu l us j)) in
    igood (N + (N + 1)) F /\ imean (N + (N + 1)) F = ratio l s * phi s + (1 - ratio l s) * M.
  Proof.
    intros Hv LN Hs Hj F M. set (r := ratio l s). assert (Hr : 0 <= r <= 1) by (apply ratio_range; [exact Hv|lia]).
    set (h := fun v : R => if Rle_dec v r then 1 else 0).
    destruct (si_mean cpu l Hv N j phi Hj) as (G0 & _). replace (Datatypes.S N) with (N + 1)%nat in G0 by lia.
    assert (Ih : is_RInt h 0 1 r).
    { apply is_RInt_val with (clamp r); [|unfold clamp; rewrite Rmin_right, Rmax_right; lra].
      apply is_RInt_indicator. intros u Hu. unfold h. destruct (Rle_dec u r); split; intros; try reflexivity; lra. }
    assert (E : forall vs us, length vs = N -> inside vs -> F (vs ++ us) = (phi s * h (nth s vs 0)) * 1 + (1 - h (nth s vs 0)) * phi (si cpu l us j)).
    { intros vs us Lv Iv. unfold F. rewrite firstn_app, Lv, Nat.sub_diag, firstn_O, app_nil_r, <- Lv, firstn_all.
      rewrite skipn_app, skipn_all, Nat.sub_diag. cbn [app skipn]. unfold killing_index.
      assert (H : 0 < nth s vs 0 < 1).
      { unfold inside in Iv. rewrite Forall_forall in Iv. apply Iv. apply nth_In. lia. }
      rewrite survived_iff by (try easy; try lia; lra). fold r. unfold h. destruct Rle_dec; ring. }
    assert (E2 : forall vs, length vs = N -> inside vs ->
      igood (N + 1) (fun us => F (vs ++ us)) /\
      imean (N + 1) (fun us => F (vs ++ us)) = (phi s - M) * h (nth s vs 0) + M * 1).
    { intros vs Lv Iv. destruct (imean_lin (N + 1) (fun _ => 1) (fun us => phi (si cpu l us j)) (phi s * h (nth s vs 0)) (1 - h (nth s vs 0))
        (proj1 (imean_const _ 1)) G0) as (A & B).
      split.
      - apply igood_ext with (2 := A). intros us _ _. symmetry. now apply E.
      - rewrite (imean_ext _ _ (fun us => (phi s * h (nth s vs 0)) * 1 + (1 - h (nth s vs 0)) * phi (si cpu l us j))) by (intros; now apply E).
        rewrite B, (proj2 (imean_const _ 1)). fold M. ring. }
    destruct (imean_coord N s h Hs (ex_intro _ _ Ih)) as (C1 & C2).
    destruct (imean_lin N (fun vs => h (nth s vs 0)) (fun _ => 1) (phi s - M) M C1 (proj1 (imean_const _ 1))) as (D1 & D2).
    split.
    - apply igood_app; [intros; now apply E2|]. apply igood_ext with (2 := D1). intros vs Lv Iv. symmetry. now apply E2.
    - rewrite imean_app. rewrite (imean_ext N _ (fun vs => (phi s - M) * h (nth s vs 0) + M * 1)) by (intros; now apply E2).
      rewrite D2, C2, (proj2 (imean_const _ 1)), (is_RInt_unique _ _ _ _ Ih). ring.
  Qed.
  Lemma killing_contract : resampler_unbiased (seed_mean meanS N (N + (N + 1))) (seed_good meanS goodS N (N + (N + 1))) N killing_seeded.
  Proof.
    intros l xs phi Hv LN L. cbv zeta. pose proof (valid_length l Hv) as Hn. rewrite LN in *.
    assert (PN : 0 < INR N) by (apply lt_0_INR; lia).
    assert (Hp : forall p s, Permutation p (seq 0 N) -> (s < N)%nat -> (nth s p 0 < N)%nat).
    { intros p s P Hs. assert (H : In (nth s p 0%nat) (seq 0 N)); [|apply in_seq in H; lia].
      apply (Permutation_in _ P). apply nth_In. rewrite (Permutation_length P), seq_length. exact Hs. }
    set (G := fun p s us => phi (killing_index l (nth s (firstn N us) 0) s (si cpu l (skipn N us) (nth s p 0%nat)))).
    set (W := lsum (fun i => wt l i * phi i) (seq 0 N)).
    set (M := fun j => imean (N + 1) (fun us => phi (si cpu l us j))).
    apply (seed_fst meanS goodS HS N (N + (N + 1)) (fun p us => lsum (fun s => / INR N * G p s us) (seq 0 N))).
    - intros p us s P Lu I. unfold killing_seeded, killing_fn. rewrite perm_at_id by exact P.
      rewrite (draws_at_id N (N + 1)) by easy.
      assert (Ed : draws_at 0 N (p, us, s) = firstn N us).
      { rewrite <- (firstn_skipn N us) at 1. apply draws_at_first; [rewrite firstn_length; lia|].
        unfold inside in *. rewrite Forall_forall in *. intros u Hu. apply I. rewrite <- (firstn_skipn N us). apply in_or_app. now left. }
      rewrite Ed. unfold killing_resampling. rewrite LN, Nat.eqb_refl. simpl negb. cbv iota. unfold multinomial_resampling.
      apply lsum_seq_ext. intros j Hj. rewrite wt_zeros by exact Hj. f_equal. unfold G. f_equal.
      rewrite (map2_nth_d _ 0%nat (0, 0%nat)).
      + rewrite seq_nth by exact Hj. rewrite combine_nth by (rewrite map_length, firstn_length, (Permutation_length P), seq_length; lia).
        cbn [fst snd Nat.add]. f_equal. unfold si.
        rewrite (nth_indep _ 0%nat ((fun i => nth i (inverse_cdf cpu (sorted_uniforms (skipn N us)) l) 0%nat) 0%nat))
          by (rewrite map_length, (Permutation_length P), seq_length; exact Hj).
        now rewrite (map_nth (fun i => nth i (inverse_cdf cpu (sorted_uniforms (skipn N us)) l) 0%nat)).
      + now rewrite seq_length.
      + rewrite combine_length, map_length, firstn_length, (Permutation_length P), seq_length. lia.
    - intros p P. apply imean_lsum. intros s Hs. apply in_seq in Hs. apply killing_slot; auto; try lia. apply Hp; [exact P|lia].
    - rewrite (perm_mean_ext N _ (fun p => lsum (fun s => / INR N * (ratio l s * phi s + (1 - ratio l s) * M (nth s p 0%nat))) (seq 0 N))).
      2:{ intros p P. rewrite (proj2 (imean_lsum (N + (N + 1)) (seq 0 N) (fun _ => / INR N) (G p)
            ltac:(intros s Hs; apply in_seq in Hs; apply killing_slot; auto; try lia; apply Hp; [exact P|lia]))).
          apply lsum_seq_ext. intros s Hs. f_equal. apply (killing_slot l s (nth s p 0%nat) phi); auto. }
      assert (EM : lsum M (seq 0 N) / INR N = W).
      { unfold M, W. destruct (si_sum cpu l Hv N phi) as (_ & B).
        destruct (imean_lsum (Datatypes.S N) (seq 0 N) (fun _ => 1) (fun j us => phi (si cpu l us j))) as (_ & C).
        { intros j Hj. apply in_seq in Hj. now apply si_mean. }
        rewrite (imean_ext _ _ (fun us => lsum (fun j => phi (si cpu l us j)) (seq 0 N))) in C by (intros; apply lsum_ext; intros; ring).
        rewrite B, LN in C. replace (N + 1)%nat with (Datatypes.S N) by lia.
        rewrite (lsum_ext _ (fun j => 1 * imean (Datatypes.S N) (fun us => phi (si cpu l us j)))) by (intros; ring).
        rewrite <- C. field. lra. }
      assert (ES : forall (l0 : list nat), (forall s, In s l0 -> (s < N)%nat) ->
        perm_mean N (fun p => lsum (fun s => / INR N * (ratio l s * phi s + (1 - ratio l s) * M (nth s p 0%nat))) l0)
        = lsum (fun s => / INR N * (ratio l s * phi s + (1 - ratio l s) * W)) l0).
      { induction l0 as [|s l0 IH]; intros H; [apply (perm_mean_const N 0)|]. cbn [lsum].
        rewrite <- IH by (intros; apply H; now right).
        transitivity (perm_mean N (fun p => 1 * (/ INR N * (1 - ratio l s) * M (nth s p 0%nat) + / INR N * (ratio l s * phi s) * 1)
           + 1 * lsum (fun s => / INR N * (ratio l s * phi s + (1 - ratio l s) * M (nth s p 0%nat))) l0)).
        { f_equal. apply functional_extensionality. intros p. ring. }
        rewrite perm_mean_lin, !Rmult_1_l. f_equal.
        rewrite (perm_mean_lin N (fun p => M (nth s p 0%nat)) (fun _ => 1)), perm_mean_const, (perm_mean_slot N s M), EM by (apply H; now left). ring. }
      rewrite ES by (intros s Hs; apply in_seq in Hs; lia).
      rewrite lsum_scal, lsum_plus, (lsum_scal_r (fun s => 1 - ratio l s) W).
      destruct (ratio_wt l Hv) as (m & Hm & ER). pose proof (valid_sum_pos l Hv) as HSum.
      assert (E1 : lsum (fun s => ratio l s * phi s) (seq 0 N) = lsum uw l / m * W).
      { unfold W. rewrite <- lsum_scal. apply lsum_ext. intros i _. rewrite ER. unfold wt. field. lra. }
      assert (E2 : lsum (fun s => 1 - ratio l s) (seq 0 N) = INR N - lsum uw l / m).
      { rewrite lsum_minus. f_equal.
        - clear. induction N; [reflexivity|]. rewrite lsum_seq_S, IHn, S_INR. ring.
        - rewrite (lsum_nth_seq uw l NInf), LN, <- lsum_div. apply lsum_ext. intros; apply ER. }
      rewrite E1, E2. field. lra.
  Qed.
End Contracts.
