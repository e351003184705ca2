(** C83: why the accuracy theorem assumes that nothing underflows. *)
From Coq Require Import Reals List Arith ZArith Permutation Lia Lra.
From Flocq Require Import Core Relative.
From Verif Require Import ScanModel DriverSpec DriverProofs DiscreteSpec Sums
  FloatDiscreteModel FloatDiscreteSpec FloatDiscreteProofs FloatDiscreteRuns FloatDiscreteSmooth PropFloatDiscrete.
Import ListNotations.
Open Scope R_scope.

(** Rounding to nearest in a format with [prec] digits and smallest positive number 2^emin (IEEE formats
    with gradual underflow; overflow is not represented). *)
Definition rounded_flt (prec emin : Z) : arith :=
  let rd := round radix2 (FLT_exp emin prec) ZnearestE in
  {| fadd := fun a b => rd (a + b); fsub := fun a b => rd (a - b); fmul := fun a b => rd (a * b);
     fdiv := fun a b => rd (a / b); fexp := fun a => rd (exp a); flog := fun a => rd (ln a) |}.

Section Underflow.
  Variables prec emin : Z.
  Hypothesis Hprec : (1 < prec)%Z.
  Hypothesis Hemin : (emin <= -4)%Z.
  Let p := bpow radix2 emin.
  Let rd := round radix2 (FLT_exp emin prec) ZnearestE.
  Let ar := rounded_flt prec emin.

  Local Instance prec_pos : Prec_gt_0 prec. Proof. unfold Prec_gt_0. lia. Qed.

  Lemma rd_bpow e : (emin <= e)%Z -> rd (bpow radix2 e) = bpow radix2 e.
  Proof.
    intros He. apply round_generic; [apply valid_rnd_N|]. apply generic_format_bpow.
    unfold FLT_exp. lia.
  Qed.
  Lemma rd_0 : rd 0 = 0. Proof. apply round_0. apply valid_rnd_N. Qed.
  Lemma rd_1 : rd 1 = 1. Proof. apply (rd_bpow 0). lia. Qed.
  Lemma rd_le x y : x <= y -> rd x <= rd y.
  Proof. apply round_le; [apply FLT_exp_valid; exact prec_pos | apply valid_rnd_N]. Qed.
  Lemma rd_idem x : rd (rd x) = rd x.
  Proof.
    apply round_generic; [apply valid_rnd_N|]. apply generic_format_round;
      [apply FLT_exp_valid; exact prec_pos | apply valid_rnd_N].
  Qed.
  Lemma rd_small x : 0 <= x -> x < bpow radix2 (emin - 1) -> rd x = 0.
  Proof.
    intros Hx Hs. destruct Hx as [Hx|<-]; [|apply rd_0].
    apply round_N_small_pos with (ex := mag radix2 x).
    - apply (conj (bpow_mag_le radix2 x ltac:(lra)) ) || idtac.
      destruct (mag radix2 x) as [ex Hex]. simpl. specialize (Hex ltac:(lra)).
      rewrite Rabs_right in Hex by lra. exact Hex.
    - destruct (mag radix2 x) as [ex Hex]. simpl. specialize (Hex ltac:(lra)).
      rewrite Rabs_right in Hex by lra. 
      assert (bpow radix2 (ex - 1) < bpow radix2 (emin - 1)) as Hb by lra.
      apply lt_bpow in Hb. unfold FLT_exp. lia.
  Qed.

  (** Prior 2^emin on state 0; only state 0 can move to state 1, with probability 2^emin. *)
  Definition u_init (_ : bool) (j : nat) : R := match j with O => p | _ => 1 end.
  Definition u_trans (_ : bool) (i j : nat) : R :=
    match i, j with O, O => 1 | O, _ => p | _, O => 1 | _, _ => 0 end.
  Definition u_lls (_ : bool) (_ : nat) : R := 0.
  Let order2 := Node (Leaf 0) (Leaf 1).

  Lemma p_pos : 0 < p. Proof. apply bpow_gt_0. Qed.
  Lemma p_small : p <= / 16.
  Proof. replace (/ 16) with (bpow radix2 (-4)) by (cbn; lra). apply bpow_le. lia. Qed.

  Lemma combined_zero key : 
    ffdist (fd_filter_combine ar 2 order2 order2 (fd_init_prepare ar u_init false (key : option unit))
              (fd_filter_prepare ar 2 order2 u_trans u_lls true (key : option unit))) 1 = 0.
  Proof using Hprec Hemin.
    pose proof p_pos as Hp. pose proof p_small as Hps.
    assert (HrP : rd p = p) by (apply rd_bpow; lia).
    unfold ffdist, fd_filter_combine, fd_init_prepare, fd_filter_prepare, ffiltering_operator, fmatmul,
      fcondition_on_obs, fcondition_vec, fcond_weights, order2, u_lls, felem, ff, fg, fst, snd.
    cbn [fsum rmaxn].
    change (fadd ar) with (fun a b => rd (a + b)). change (fsub ar) with (fun a b => rd (a - b)).
    change (fmul ar) with (fun a b => rd (a * b)). change (fdiv ar) with (fun a b => rd (a / b)).
    change (fexp ar) with (fun a => rd (exp a)). change (flog ar) with (fun a => rd (ln a)).
    cbn beta. cbn [u_init u_trans].
    replace (rd (exp (rd (0 - Rmax 0 0)))) with 1.
    2:{ unfold Rmax. destruct (Rle_dec 0 0); rewrite Rminus_0_r, rd_0, exp_0, rd_1; reflexivity. }
    rewrite !Rmult_1_r, ?HrP, ?rd_1, ?rd_0, ?Rplus_0_r, ?rd_1, ?ln_1, ?rd_0.
    set (N0 := rd (1 + p)).
    assert (HN0 : 1 <= N0 <= 2).
    { unfold N0. split; [pose proof (rd_le 1 (1 + p) ltac:(lra)) as Hq; rewrite rd_1 in Hq; exact Hq|].
      replace 2 with (rd 2) by (apply (rd_bpow 1); lia). apply rd_le. lra. }
    set (m0 := rd (rd (ln N0) + Rmax 0 0)). set (m1 := rd (0 + Rmax 0 0)).
    assert (Hm1 : m1 = 0).
    { unfold m1, Rmax. destruct (Rle_dec 0 0); rewrite Rplus_0_l; apply rd_0. }
    assert (Hm0 : 0 <= m0 <= 1).
    { unfold m0. replace (Rmax 0 0) with 0 by (unfold Rmax; destruct (Rle_dec 0 0); lra).
      rewrite Rplus_0_r, rd_idem. split.
      - apply Rle_trans with (rd 0); [rewrite rd_0; lra|]. apply rd_le. rewrite <- ln_1. destruct (proj1 HN0) as [Hl| <-]; [left; apply ln_increasing; lra | lra].
      - apply Rle_trans with (rd 1); [|rewrite rd_1; lra]. apply rd_le. rewrite <- (ln_exp 1).
        assert (N0 <= exp 1) as [Hl|Hl] by (pose proof (exp_ineq1_le 1); lra);
          [left; apply ln_increasing; lra | rewrite Hl; lra]. }
    rewrite Hm1. set (m := Rmax m0 0).
    assert (Hm : m = m0) by (unfold m; apply Rmax_left; lra). rewrite Hm.
    replace (rd (exp (rd (m0 - m0)))) with 1.
    2:{ rewrite Rminus_diag_eq by reflexivity. rewrite rd_0, exp_0, rd_1. reflexivity. }
    set (E1 := rd (exp (rd (0 - m0)))).
    assert (HE1 : / 4 <= E1).
    { unfold E1. replace (/ 4) with (rd (/ 4)).
      - apply rd_le. apply Rle_trans with (exp (- (1))).
        + rewrite exp_Ropp. apply Rinv_le_contravar; [apply exp_pos|]. pose proof exp_le_3. lra.
        + apply exp_le_exp. replace (- (1)) with (rd (- (1))).
          * apply rd_le. lra.
          * unfold rd. rewrite round_NE_opp. fold rd. now rewrite rd_1.
      - replace (/ 4) with (bpow radix2 (-2)) by (cbn; lra). apply rd_bpow. lia. }
    rewrite ?Rmult_1_r, ?Rmult_1_l, ?HrP.
    set (N := rd (p + rd E1)).
    assert (HN : / 4 <= N).
    { unfold N. replace (/ 4) with (rd (/ 4)).
      - apply rd_le. unfold E1. rewrite rd_idem. fold E1. lra.
      - replace (/ 4) with (bpow radix2 (-2)) by (cbn; lra). apply rd_bpow. lia. }
    assert (Hc : 0 <= rd (p / N) <= 4 * p).
    { split.
      - apply Rle_trans with (rd 0); [rewrite rd_0; lra|]. apply rd_le. apply Rmult_le_pos; [lra|]. left. apply Rinv_0_lt_compat. lra.
      - replace (4 * p) with (rd (4 * p)).
        + apply rd_le. unfold Rdiv. rewrite Rmult_comm. apply Rmult_le_compat_r; [lra|].
          replace 4 with (/ / 4) by lra. apply Rinv_le_contravar; lra.
        + replace (4 * p) with (bpow radix2 (2 + emin)) by (rewrite bpow_plus; reflexivity). apply rd_bpow. lia. }
    assert (Hf : 0 <= rd (p / N0) <= p).
    { split.
      - apply Rle_trans with (rd 0); [rewrite rd_0; lra|]. apply rd_le. apply Rmult_le_pos; [lra|]. left. apply Rinv_0_lt_compat. lra.
      - apply Rle_trans with (rd p); [|rewrite HrP; lra]. apply rd_le. unfold Rdiv. rewrite <- (Rmult_1_r p) at 2. apply Rmult_le_compat_l; [lra|].
        rewrite <- Rinv_1. apply Rinv_le_contravar; lra. }
    assert (H0 : rd (rd (p / N) * rd (p / N0)) = 0).
    { apply rd_small; [apply Rmult_le_pos; lra|].
      apply Rle_lt_trans with (4 * p * p).
      - apply Rmult_le_compat; lra.
      - replace (4 * p * p) with (bpow radix2 (2 + emin + emin)) by (rewrite !bpow_plus; reflexivity).
        apply bpow_lt. lia. }
    rewrite H0. unfold Rdiv. rewrite Rmult_0_l, rd_0, Rmult_0_r, rd_0, Rplus_0_r, rd_0.
    reflexivity.
  Qed.

  Lemma underflow_moderate : moderate 2 1 u_init u_trans u_lls false [true].
  Proof using Hemin.
    pose proof p_pos as Hp. pose proof p_small as Hps.
    assert (He1 : exp (- (1)) <= / 2).
    { rewrite exp_Ropp. apply Rinv_le_contravar; [lra|]. pose proof (exp_ineq1_le 1). lra. }
    assert (He2 : 2 <= exp 1) by (pose proof (exp_ineq1_le 1); lra).
    split; [lra|]. split.
    - split; [intros [|j] Hj; cbn; lra|]. unfold near; cbn. split; lra.
    - intros x _ [|i] Hi; (split; [intros [|j] Hj; cbn; lra|]); (split; [unfold u_lls; rewrite Rabs_R0; lra|]);
        unfold near, u_lls; cbn; rewrite ?exp_0; split; lra.
  Qed.

  Lemma underflow_posterior : 0 < posterior 2 (u_init false) (map (hmm_step u_trans u_lls) [true]) 1 1.
  Proof using Hemin.
    pose proof p_pos as Hp. unfold posterior. apply Rdiv_lt_0_compat.
    - unfold joint_at. cbn. unfold u_lls. rewrite exp_0. nra.
    - unfold evidence. cbn. unfold u_lls. rewrite exp_0. nra.
  Qed.

  Lemma underflow_run parallel :
    exists states s, filter (Key := unit) (fun k n => repeat k n)
        (fd_build_filter ar 2 order2 order2 u_init u_trans u_lls) [false; true] parallel None = Ok states /\
      nth_error states 1 = Some s /\ ffdist s 1 = 0.
  Proof using Hprec Hemin.
    destruct (filter_interval (Key := unit) (fun k n => repeat k n)
       (fd_build_filter ar 2 order2 order2 u_init u_trans u_lls)
       (fun a b s => (a = 0 -> b = 1 -> s = fd_init_prepare ar u_init false (@None unit))%nat /\
                     (a = 1 -> b = 2 -> s = fd_filter_prepare ar 2 order2 u_trans u_lls true (@None unit))%nat /\
                     (a = 0%nat -> b = 2%nat -> ffdist s 1 = 0))
       [false; true] parallel None) as (sts & H1 & H2 & H3).
    - intros k n. apply repeat_length.
    - discriminate.
    - intros i j k x y Hij Hjk Hk (X1 & _) (_ & Y2 & _). cbn [length] in Hk.
      split; [lia|]. split; [lia|]. intros -> ->. assert (j = 1)%nat by lia. subst j.
      rewrite (X1 eq_refl eq_refl), (Y2 eq_refl eq_refl). apply combined_zero.
    - intros x k [= <-]. split; [reflexivity|]. split; discriminate.
    - intros [|[|t]] x k Hx; try discriminate. injection Hx as <-. split; [discriminate|].
      split; [reflexivity | discriminate].
    - destruct sts as [|s0 [|s1 [|s2 sts]]]; try discriminate.
      exists [s0; s1], s1. split; [exact H1|]. split; [reflexivity|].
      destruct (H3 1%nat s1 eq_refl) as (_ & _ & H). now apply H.
  Qed.
End Underflow.

(** In any format with a smallest positive number, the relative accuracy of [C83_filter] can be lost
    completely: a state with positive posterior probability gets probability exactly 0. *)
Theorem C83_underflow :
  forall prec emin, (1 < prec)%Z -> (emin <= -4)%Z ->
  exists (init : bool -> nat -> R) (trans : bool -> nat -> nat -> R) (lls : bool -> nat -> R),
    moderate 2 1 init trans lls false [true] /\
    0 < posterior 2 (init false) (map (hmm_step trans lls) [true]) 1 1 /\
    forall parallel, exists states s,
      filter (Key := unit) (fun k n => repeat k n)
        (fd_build_filter (rounded_flt prec emin) 2 (Node (Leaf 0) (Leaf 1)) (Node (Leaf 0) (Leaf 1)) init trans lls)
        [false; true] parallel None = Ok states /\
      nth_error states 1 = Some s /\ ffdist s 1 = 0.
Proof.
  intros prec emin Hp He. exists (u_init emin), (u_trans emin), u_lls.
  split; [now apply underflow_moderate|]. split; [now apply underflow_posterior|].
  intros parallel. now apply underflow_run.
Qed.
Print Assumptions C83_underflow.
