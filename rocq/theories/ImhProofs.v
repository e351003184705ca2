From Coq Require Import Reals List Arith ZArith Bool Lia Lra.
From Coquelicot Require Import Coquelicot.
From Verif Require Import Ext ScanModel ScanProofs DiscreteSpec Sums
  ResamplingModel ResamplingSpec ResamplingProofs ConditionalProofs KillingProofs SystematicProofs
  ConditionalLaw SmcModel SmcSpec SmcProofs BackwardKernels.
Import ListNotations.
Open Scope R_scope.

(** acceptance probability of the log ratio [la] *)
Definition theta (la : ext) : R :=
  match la with PInf => 1 | Fin x => Rmin 1 (exp x) | _ => 0 end.
Lemma theta_range la : 0 <= theta la <= 1.
Proof.
  destruct la; simpl; try lra. pose proof (exp_pos r). split; [apply Rmin_glb; lra|apply Rmin_l].
Qed.
Lemma accept_iff la u : 0 < u < 1 ->
  eltb (elog (Fin u)) la = if Rlt_dec u (theta la) then true else false.
Proof.
  intros Hu. unfold eltb, elog. destruct (Rlt_dec 0 u); [|lra].
  destruct la as [x| | |]; simpl.
  - destruct (Rlt_dec (ln u) x) as [H|H], (Rlt_dec u (Rmin 1 (exp x))) as [H1|H1]; auto; exfalso.
    + apply H1. apply Rmin_glb_lt; [lra|]. rewrite <- (exp_ln u) by lra. now apply exp_increasing.
    + apply H. apply exp_lt_inv. rewrite exp_ln by lra. pose proof (Rmin_r 1 (exp x)). lra.
  - destruct Rlt_dec; [auto|lra].
  - destruct Rlt_dec; [lra|auto].
  - destruct Rlt_dec; [lra|auto].
Qed.
Lemma two_valued_RInt (f : R -> R) la a b :
  (forall u, 0 < u < 1 -> f u = if eltb (elog (Fin u)) la then a else b) ->
  is_RInt f 0 1 (theta la * a + (1 - theta la) * b).
Proof.
  intros Hf. pose proof (theta_range la) as Ht.
  apply is_RInt_ext with (fun u => plus b (scal (a - b) (if Rlt_dec u (theta la) then 1 else 0))).
  { intros u Hu. rewrite Rmin_left, Rmax_right in Hu by lra. rewrite Hf, accept_iff by lra.
    destruct Rlt_dec; unfold plus, scal; simpl; unfold mult; simpl; lra. }
  apply is_RInt_val with (plus (scal (1 - 0) b) (scal (a - b) (theta la))).
  2:{ unfold plus, scal; simpl; unfold mult; simpl. lra. }
  apply (is_RInt_plus (V:=R_NormedModule)); [apply (is_RInt_const (V:=R_NormedModule))|].
  apply (is_RInt_scal (V:=R_NormedModule)).
  apply is_RInt_val with (theta la + 0); [|lra].
  apply (is_RInt_Chasles (V:=R_NormedModule)) with (theta la).
  - apply is_RInt_ext with (fun _ => 1); [|apply is_RInt_const1; lra].
    intros u Hu. rewrite Rmin_left, Rmax_right in Hu by lra. destruct Rlt_dec; lra.
  - apply is_RInt_ext with (fun _ => 0); [|apply is_RInt_const0].
    intros u Hu. rewrite Rmin_left, Rmax_right in Hu by lra. destruct Rlt_dec; lra.
Qed.

Section Kernel.
  Context {X : Type}.
  Variable dX : X.
  Variable x0 : list X.
  Variable x1 : X.
  Variable lw : list ext.
  Variable ld : X -> X -> ext.
  Let N := length lw.
  Let L i := ld (nth i x0 dX) x1.
  Let step := imh_step dX x0 x1 ld.
  Let law := chain_law step lw.

  Lemma step_RInt n c j m :
    is_RInt (fun u => law n (step c j u) m) 0 1
      (theta (esub (L j) (snd c)) * law n (j, L j) m + (1 - theta (esub (L j) (snd c))) * law n c m).
  Proof using.
    apply two_valued_RInt. intros u _. unfold step, imh_step. destruct c as [i e]. simpl.
    unfold L. destruct eltb; reflexivity.
  Qed.
  Lemma law_S n c m : law (S n) c m =
    lsum (fun j => wt lw j * (theta (esub (L j) (snd c)) * law n (j, L j) m
                              + (1 - theta (esub (L j) (snd c))) * law n c m)) (seq 0 N).
  Proof using.
    simpl. apply lsum_seq_ext. intros j _. f_equal. apply is_RInt_unique. apply step_RInt.
  Qed.

  Hypothesis Hv : backward_valid dX x0 x1 lw ld.
  Lemma Llogit i : (i < N)%nat -> is_logit (L i) /\ is_logit (nth i lw NInf).
  Proof using Hv.
    intros Hi. destruct Hv as (Ln & Hw & Hd & _). split.
    - apply Hd. apply nth_In. unfold N in Hi. lia.
    - rewrite Forall_forall in Hw. apply Hw, nth_In. exact Hi.
  Qed.
  Lemma lw_valid : valid_logits lw.
  Proof using Hv.
    destruct Hv as (_ & Hw & _ & i & w & _ & Hi & _). split; [exact Hw|].
    apply Exists_exists. exists (Fin w). split; [|eauto]. eapply nth_error_In; eauto.
  Qed.
  Lemma Z_pos : 0 < lsum (fun k => uw (nth k lw NInf) * uw (L k)) (seq 0 N).
  Proof using Hv.
    destruct Hv as (_ & _ & _ & i & w & l & Hi & Hl).
    assert (i < N)%nat by (apply nth_error_Some; congruence).
    apply lsum_pos with i.
    - intros k _. apply Rmult_le_pos; apply uw_nonneg.
    - apply in_seq. lia.
    - rewrite (nth_error_nth _ _ NInf Hi). unfold L. rewrite Hl. simpl. apply Rmult_lt_0_compat; apply exp_pos.
  Qed.
  Let pi := backward_prob lw L.
  Lemma flow i j : (i < N)%nat -> (j < N)%nat ->
    pi i * (wt lw j * theta (esub (L j) (L i))) =
    uw (nth i lw NInf) * uw (nth j lw NInf) * Rmin (uw (L i)) (uw (L j)) /
    (lsum (fun k => uw (nth k lw NInf) * uw (L k)) (seq 0 N) * lsum uw lw).
  Proof using Hv.
    intros Hi Hj. unfold pi, backward_prob, wt. fold N.
    pose proof Z_pos as HZ. pose proof (valid_sum_pos lw lw_valid) as HS.
    assert (E : uw (L i) * theta (esub (L j) (L i)) = Rmin (uw (L i)) (uw (L j))).
    { destruct (Llogit i Hi) as ([->|[a ->]] & _); destruct (Llogit j Hj) as ([->|[b ->]] & _); simpl.
      - rewrite Rmin_left; lra.
      - rewrite Rmin_left; [lra|]. pose proof (exp_pos b); lra.
      - rewrite Rmin_right; [lra|]. pose proof (exp_pos a); lra.
      - pose proof (exp_pos a). unfold Rmin at 2.
        assert (Q : exp a * exp (b + - a) = exp b) by (rewrite <- exp_plus; f_equal; lra).
        pose proof (exp_pos (b + - a)).
        destruct (Rle_dec (exp a) (exp b)) as [H1|H1].
        + rewrite Rmin_left; [lra|]. nra.
        + rewrite Rmin_right; [exact Q|]. nra. }
    rewrite <- E. field. split; lra.
  Qed.
  Lemma balance (g : nat -> R) :
    lsum (fun i => pi i * lsum (fun j => wt lw j * (theta (esub (L j) (L i)) * g j
                                                  + (1 - theta (esub (L j) (L i))) * g i)) (seq 0 N)) (seq 0 N)
    = lsum (fun i => pi i * g i) (seq 0 N).
  Proof using Hv.
    set (s := fun i j => pi i * (wt lw j * theta (esub (L j) (L i)))).
    assert (Hs : forall i j, (i < N)%nat -> (j < N)%nat -> s i j = s j i).
    { intros i j Hi Hj. unfold s. rewrite !flow by assumption. rewrite (Rmin_comm (uw (L i))). f_equal. ring. }
    transitivity (lsum (fun i => pi i * g i + lsum (fun j => s i j * g j - s i j * g i) (seq 0 N)) (seq 0 N)).
    { apply lsum_seq_ext. intros i Hi.
      assert (W : lsum (wt lw) (seq 0 N) = 1) by (apply (wt_sum lw lw_valid)).
      transitivity (pi i * (g i * lsum (wt lw) (seq 0 N)) + lsum (fun j => s i j * g j - s i j * g i) (seq 0 N)).
      - rewrite <- !lsum_scal, <- lsum_plus. apply lsum_ext. intros j _. unfold s. ring.
      - rewrite W. ring. }
    rewrite lsum_plus.
    assert (E : lsum (fun i => lsum (fun j => s i j * g j - s i j * g i) (seq 0 N)) (seq 0 N) = 0).
    { transitivity (lsum (fun i => lsum (fun j => s i j * g j) (seq 0 N)) (seq 0 N)
                    - lsum (fun i => lsum (fun j => s i j * g i) (seq 0 N)) (seq 0 N)).
      - rewrite <- lsum_minus. apply lsum_ext. intros i _. now rewrite lsum_minus.
      - rewrite (lsum_swap (fun i j => s i j * g i)).
        match goal with |- ?a - ?b = 0 => replace b with a; [lra|] end.
        apply lsum_seq_ext. intros i Hi. apply lsum_seq_ext. intros j Hj. now rewrite Hs. }
    rewrite E. lra.
  Qed.
  Lemma imh_invariant n m : (m < N)%nat ->
    lsum (fun i => pi i * law n (i, L i) m) (seq 0 N) = pi m.
  Proof using Hv.
    intros Hm. induction n as [|n IH].
    - transitivity (lsum (fun i => if Nat.eqb i m then pi i else 0) (seq 0 N)); [|now apply lsum_seq_delta'].
      apply lsum_ext. intros i _. unfold law. simpl. destruct Nat.eqb; lra.
    - rewrite <- IH. rewrite <- (balance (fun i => law n (i, L i) m)).
      apply lsum_ext. intros i _. rewrite law_S. reflexivity.
  Qed.
  Lemma pi_sum : lsum pi (seq 0 N) = 1.
  Proof using Hv. unfold pi, backward_prob. rewrite lsum_div. fold N. pose proof Z_pos. field. lra. Qed.
End Kernel.
