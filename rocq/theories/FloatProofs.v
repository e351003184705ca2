(** Lemmas about the floating-point inverse-CDF code. *)
From Coq Require Import Reals List Arith ZArith Bool Lia Lra.
From Flocq Require Import Core Plus_error Relative.
From Verif Require Import ScanModel ScanProofs DiscreteSpec Sums ResamplingModel ResamplingSpec ResamplingProofs FloatModel.
Import ListNotations.
Open Scope R_scope.

Section FloatProofs.
  Variables prec emin : Z.
  Context {Hp : Prec_gt_0 prec}.
  Notation fl := (fl prec emin).
  Notation is_fl := (is_fl prec emin).

  (** unit roundoff *)
  Definition eps : R := bpow radix2 (- prec).

  Lemma fl_is x : is_fl (fl x).
  Proof. apply generic_format_round; typeclasses eauto. Qed.
  Lemma fl_mono x y : x <= y -> fl x <= fl y.
  Proof. apply round_le; typeclasses eauto. Qed.
  Lemma fl_id x : is_fl x -> fl x = x.
  Proof. apply round_generic; typeclasses eauto. Qed.
  Lemma fl_0 : is_fl 0.
  Proof. apply generic_format_0. Qed.
  Lemma fl_nonneg x : 0 <= x -> 0 <= fl x.
  Proof. intros H. rewrite <- (fl_id 0 fl_0). now apply fl_mono. Qed.
  Lemma eps_pos : 0 < eps.
  Proof. apply bpow_gt_0. Qed.
  Lemma u_ro_eps : u_ro radix2 prec = eps.
  Proof.
    unfold u_ro, eps. replace (- prec + 1)%Z with (1 + - prec)%Z by ring.
    rewrite bpow_plus. change (bpow radix2 1) with 2. field.
  Qed.
  Lemma fl_add_err x y : is_fl x -> is_fl y -> 0 <= x -> 0 <= y ->
    Rabs (fl (x + y) - (x + y)) <= eps * (x + y).
  Proof.
    intros Fx Fy Hx Hy.
    destruct (FLT_plus_error_N_ex radix2 emin prec (fun z => negb (Z.even z)) x y Fx Fy) as (d & Bd & E).
    unfold FloatModel.fl. rewrite E. rewrite u_ro_eps in Bd. pose proof eps_pos.
    replace ((x + y) * (1 + d) - (x + y)) with (d * (x + y)) by ring.
    rewrite Rabs_mult, (Rabs_pos_eq (x + y)) by lra.
    apply Rmult_le_compat_r; [lra|]. apply Rle_trans with (1 := Bd).
    apply Rle_trans with (eps / 1); [|lra]. unfold Rdiv. apply Rmult_le_compat_l; [lra|].
    apply Rinv_le; lra.
  Qed.

  (** the running sum of the loop: the first weight, then rounded additions *)
  Fixpoint fsum (ws : list R) (i : nat) : R :=
    match i with
    | O => 0
    | S O => nth 0 ws 0
    | S i' => fl (fsum ws i' + nth i' ws 0)
    end.
  Definition good (ws : list R) : Prop := Forall (fun w => is_fl w /\ 0 <= w) ws.
  Lemma good_nth ws i : good ws -> is_fl (nth i ws 0) /\ 0 <= nth i ws 0.
  Proof.
    intros H. destruct (lt_dec i (length ws)) as [L|L].
    - unfold good in H. rewrite Forall_forall in H. apply H. now apply nth_In.
    - rewrite nth_overflow by lia. split; [apply fl_0|lra].
  Qed.
  Lemma fsum_S ws i : good ws -> fsum ws (S i) = fl (fsum ws i + nth i ws 0).
  Proof.
    intros G. destruct i; [|reflexivity]. cbn [fsum]. rewrite Rplus_0_l. symmetry. apply fl_id.
    now apply good_nth.
  Qed.
  Lemma fsum_good ws i : good ws -> is_fl (fsum ws i) /\ 0 <= fsum ws i.
  Proof.
    intros G. induction i as [|i [F P]]; [split; [apply fl_0|simpl; lra]|].
    rewrite fsum_S by easy. split; [apply fl_is|]. apply fl_nonneg.
    destruct (good_nth ws i G). lra.
  Qed.
  Lemma fsum_le ws i : good ws -> fsum ws i <= fsum ws (S i).
  Proof.
    intros G. rewrite fsum_S by easy. destruct (fsum_good ws i G) as [F P].
    rewrite <- (fl_id (fsum ws i) F) at 1. apply fl_mono. destruct (good_nth ws i G). lra.
  Qed.
  (** effective weights *)
  Definition weff (ws : list R) (i : nat) : R := fsum ws (S i) - fsum ws i.
  Lemma weff_nonneg ws i : good ws -> 0 <= weff ws i.
  Proof. intros G. unfold weff. pose proof (fsum_le ws i G). lra. Qed.
  Lemma cdf_weff ws i : cdf (weff ws) i = fsum ws i.
  Proof.
    induction i; [reflexivity|]. rewrite cdf_S, IHi. unfold weff. ring.
  Qed.
  Lemma weff_0 ws i : good ws -> nth i ws 0 = 0 -> weff ws i = 0.
  Proof.
    intros G E. unfold weff. rewrite fsum_S, E, Rplus_0_r by easy.
    rewrite fl_id; [ring|]. now apply fsum_good.
  Qed.
  Lemma fsum_upper ws i : good ws ->
    fsum ws i <= (1 + eps) ^ (i - 1) * cdf (fun k => nth k ws 0%R) i.
  Proof.
    intros G. pose proof eps_pos as E. induction i as [|i IH]; [unfold cdf; simpl; lra|].
    destruct i as [|i].
    - cbn [fsum]. rewrite cdf_S. unfold cdf; simpl. lra.
    - rewrite fsum_S by easy. destruct (fsum_good ws (S i) G) as [F P]. destruct (good_nth ws (S i) G) as [Fn Pn].
      pose proof (fl_add_err _ _ F Fn P Pn) as H. apply Rabs_le_inv in H. rewrite cdf_S.
      replace (S (S i) - 1)%nat with (S i) by lia. replace (S i - 1)%nat with i in IH by lia.
      assert (1 <= (1 + eps) ^ i) by (apply pow_R1_Rle; lra).
      set (c := cdf _ _) in *. cbn [pow].
      set (p := (1 + eps) ^ i) in *. set (w := nth (S i) ws 0) in *. set (s := fsum ws (S i)) in *.
      apply Rle_trans with ((1 + eps) * (s + w)); [lra|].
      rewrite Rmult_assoc. apply Rmult_le_compat_l; [lra|].
      rewrite Rmult_plus_distr_l. assert (1 * w <= p * w) by (apply Rmult_le_compat_r; lra). lra.
  Qed.
  Lemma cdf_nth_nonneg ws i : good ws -> 0 <= cdf (fun k => nth k ws 0%R) i.
  Proof.
    intros G. replace 0 with (cdf (fun k => nth k ws 0%R) 0) by reflexivity.
    apply cdf_mono; [|lia]. intros k. now apply good_nth.
  Qed.
  Lemma weff_err ws i : good ws ->
    Rabs (weff ws i - nth i ws 0) <= eps * (1 + eps) ^ i * cdf (fun k => nth k ws 0%R) (S i).
  Proof.
    intros G. pose proof eps_pos as E. unfold weff. rewrite fsum_S by easy.
    destruct (fsum_good ws i G) as [F P]. destruct (good_nth ws i G) as [Fn Pn].
    pose proof (fl_add_err _ _ F Fn P Pn) as H.
    replace (fl (fsum ws i + nth i ws 0) - fsum ws i - nth i ws 0)
      with (fl (fsum ws i + nth i ws 0) - (fsum ws i + nth i ws 0)) by ring.
    apply Rle_trans with (1 := H). rewrite Rmult_assoc. apply Rmult_le_compat_l; [lra|].
    rewrite cdf_S, Rmult_plus_distr_l.
    assert (A : 1 <= (1 + eps) ^ i) by (apply pow_R1_Rle; lra).
    pose proof (fsum_upper ws i G) as U. pose proof (cdf_nth_nonneg ws i G) as C.
    assert ((1 + eps) ^ (i - 1) <= (1 + eps) ^ i) by (apply Rle_pow; [lra|lia]).
    assert ((1 + eps) ^ (i - 1) * cdf (fun k => nth k ws 0%R) i <= (1 + eps) ^ i * cdf (fun k => nth k ws 0%R) i)
      by (now apply Rmult_le_compat_r).
    assert (1 * nth i ws 0 <= (1 + eps) ^ i * nth i ws 0) by (now apply Rmult_le_compat_r). lra.
  Qed.
  Lemma fsum_err ws i : good ws ->
    Rabs (fsum ws i - cdf (fun k => nth k ws 0%R) i) <=
    ((1 + eps) ^ (i - 1) - 1) * cdf (fun k => nth k ws 0%R) i.
  Proof.
    intros G. pose proof eps_pos as E. induction i as [|i IH]; [unfold cdf; simpl; rewrite Rminus_0_r, Rabs_R0; lra|].
    destruct i as [|i].
    - cbn [fsum]. rewrite cdf_S. unfold cdf; simpl.
      replace (nth 0 ws 0 - (0 + nth 0 ws 0)) with 0 by ring. rewrite Rabs_R0. lra.
    - rewrite fsum_S by easy. destruct (fsum_good ws (S i) G) as [F P]. destruct (good_nth ws (S i) G) as [Fn Pn].
      pose proof (fl_add_err _ _ F Fn P Pn) as H. rewrite cdf_S.
      pose proof (fsum_upper ws (S i) G) as U.
      replace (S (S i) - 1)%nat with (S i) by lia. replace (S i - 1)%nat with i in IH, U by lia.
      assert (A : 1 <= (1 + eps) ^ i) by (apply pow_R1_Rle; lra).
      set (c := cdf _ _) in *. cbn [pow]. set (p := (1 + eps) ^ i) in *.
      set (w := nth (S i) ws 0) in *. set (s := fsum ws (S i)) in *.
      replace (fl (s + w) - (c + w)) with ((fl (s + w) - (s + w)) + (s - c)) by ring.
      apply Rle_trans with (1 := Rabs_triang _ _).
      assert (1 * w <= p * w) by (apply Rmult_le_compat_r; lra).
      assert (eps * (s + w) <= eps * (p * c + p * w)) by (apply Rmult_le_compat_l; lra).
      nra.
  Qed.

  (** *** the loop *)
  Lemma fl_advance_spec ws u : good ws -> forall fuel j,
    (j < length ws)%nat -> (length ws - 1 - j <= fuel)%nat ->
    (j = 0%nat \/ fsum ws j < u) ->
    exists j', fl_advance prec emin fuel u ws j (fsum ws (S j)) = (j', fsum ws (S j')) /\
      (j <= j')%nat /\ inverse_at (length ws) (weff ws) u j'.
  Proof.
    intros G. induction fuel as [|fuel IH]; intros j Hj Hf Hl; cbn [fl_advance].
    - exists j. split; [reflexivity|]. split; [lia|]. split; [easy|]. rewrite !cdf_weff. split; [easy|]. right. lia.
    - destruct (Rlt_dec (fsum ws (S j)) u) as [L|L]; cbn [andb].
      + destruct (Nat.ltb_spec j (length ws - 1)) as [L2|L2].
        * rewrite <- fsum_S by easy. destruct (IH (S j)) as (j' & E & A & B); [lia|lia|now right|].
          exists j'. split; [exact E|]. split; [lia|exact B].
        * exists j. split; [reflexivity|]. split; [lia|]. split; [easy|]. rewrite !cdf_weff. split; [easy|]. right. lia.
      + exists j. split; [reflexivity|]. split; [lia|]. split; [easy|]. rewrite !cdf_weff. split; [easy|]. left. lra.
  Qed.
  Lemma fl_loop_spec ws : good ws -> forall su j,
    sorted su -> (j < length ws)%nat ->
    (j = 0%nat \/ forall u, In u su -> fsum ws j < u) ->
    length (fl_numba_loop prec emin su ws j (fsum ws (S j))) = length su /\
    forall n, (n < length su)%nat ->
      inverse_at (length ws) (weff ws) (nth n su 0) (nth n (fl_numba_loop prec emin su ws j (fsum ws (S j))) 0%nat).
  Proof.
    intros G su. induction su as [|u su IH]; intros j Hs Hj Hl; [split; [reflexivity|simpl; lia]|].
    cbn [fl_numba_loop].
    destruct (fl_advance_spec ws u G (length ws) j) as (j' & E & A & B); [easy|lia| |].
    { destruct Hl as [->|Hl]; [now left|right; apply Hl; now left]. }
    rewrite E. destruct (IH j') as (L & F).
    { intros a b Hab. apply (Hs (S a) (S b)). simpl. lia. }
    { apply B. }
    { destruct B as (_ & [B|B] & _); [now left|]. right. rewrite cdf_weff in B. intros v Hv.
      apply Rlt_le_trans with (1 := B). destruct (In_nth su v 0 Hv) as (k & Hk & <-).
      apply (Hs 0%nat (S k)). simpl. lia. }
    split; [cbn [length]; now rewrite L|]. intros [|n] Hn; [exact B|]. cbn [nth]. apply F. cbn [length] in Hn. lia.
  Qed.
  Lemma fl_cpu_spec ws su : good ws -> (0 < length ws)%nat -> sorted su ->
    length (fl_inverse_cdf_cpu prec emin su ws) = length su /\
    forall n, (n < length su)%nat ->
      inverse_at (length ws) (weff ws) (nth n su 0) (nth n (fl_inverse_cdf_cpu prec emin su ws) 0%nat).
  Proof.
    intros G HN Hs. destruct (fl_loop_spec ws G su 0 Hs HN (or_introl eq_refl)) as (L & F).
    cbn [fsum] in L, F. unfold fl_inverse_cdf_cpu. split; [now rewrite map_length|].
    intros n Hn. rewrite (nth_indep _ 0%nat (clip 0 (length ws - 1) 0)) by (now rewrite map_length, L).
    rewrite map_nth. rewrite clip_id; [now apply F|]. apply (F n Hn).
  Qed.
End FloatProofs.
