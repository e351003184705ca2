(** Normalised sums of exponential spacings have the law of uniform order statistics. *)
From Coq Require Import Reals List Arith Bool Lia Lra FunctionalExtensionality.
From Coquelicot Require Import Coquelicot.
From Verif Require Import DiscreteSpec Sums SystematicProofs IterSpec Iter.
Import ListNotations.
Open Scope R_scope.

(** ** Polynomials t^m / m! *)
Definition Pw (m : nat) (t : R) : R := t ^ m / INR (fact m).
Fixpoint Sk (k : nat) (t : R) : R := match k with O => 0 | S k' => Sk k' t + Pw k' t end.
Lemma Pw_0 t : Pw 0 t = 1.
Proof. unfold Pw. simpl. field. Qed.
Lemma Pw_S0 m : Pw (S m) 0 = 0.
Proof. unfold Pw. simpl. unfold Rdiv. ring. Qed.
Lemma Pw_S m t : Pw (S m) t = Pw m t * t / INR (S m).
Proof.
  unfold Pw. rewrite fact_simpl, mult_INR, <- tech_pow_Rmult. field. split; [apply INR_fact_neq_0|apply not_0_INR; lia].
Qed.
Lemma Pw_derive m t : is_derive (Pw (S m)) t (Pw m t).
Proof.
  unfold Pw. auto_derive; [exact I|]. change (match m with 0%nat => 1 | S _ => INR m + 1 end) with (INR (S m)).
  change (fact m + m * fact m)%nat with (S m * fact m)%nat. rewrite mult_INR. field.
  split; [apply INR_fact_neq_0|apply not_0_INR; lia].
Qed.
Lemma Sk_derive k t : is_derive (Sk (S k)) t (Sk k t).
Proof.
  revert t. induction k; intros t.
  - apply (is_derive_ext (fun _ => 1)); [intros s; simpl; rewrite Pw_0; ring|]. simpl. apply (is_derive_const (V := R_NormedModule)).
  - cbn [Sk] in *. apply (is_derive_plus (V := R_NormedModule) (fun t => Sk k t + Pw k t) (Pw (S k)) t (Sk k t) (Pw k t)); [apply IHk|apply Pw_derive].
Qed.
Lemma Sk_S0 k : Sk (S k) 0 = 1.
Proof. induction k; [simpl; rewrite Pw_0; ring|]. cbn [Sk] in *. rewrite IHk, Pw_S0. ring. Qed.
Lemma Pw_nonneg m t : 0 <= t -> 0 <= Pw m t.
Proof. intros H. unfold Pw. apply Rmult_le_pos; [now apply pow_le|]. left. apply Rinv_0_lt_compat, INR_fact_lt_0. Qed.
Lemma Pw_exp m t : 0 <= t -> Pw m t <= exp t.
Proof.
  revert t. induction m; intros t Ht.
  - rewrite Pw_0. rewrite <- exp_0. destruct Ht as [Ht| <-]; [left; now apply exp_increasing|lra].
  - assert (D : forall s, is_derive (fun s => exp s - Pw (S m) s) s (exp s - Pw m s)).
    { intros s. exact (is_derive_minus (V := R_NormedModule) exp (Pw (S m)) s (exp s) (Pw m s)
        (proj2 (is_derive_Reals _ _ _) (derivable_pt_lim_exp s)) (Pw_derive m s)). }
    destruct (MVT_gen (fun s => exp s - Pw (S m) s) 0 t (fun s => exp s - Pw m s)) as (c & Hc & E).
    + intros s _. apply D.
    + intros s _. apply continuity_pt_filterlim. apply (ex_derive_continuous (V := R_NormedModule) (fun s => exp s - Pw (S m) s)).
      eexists. apply D.
    + rewrite Rmin_left, Rmax_right in Hc by lra. specialize (IHm c ltac:(lra)). rewrite Pw_S0, exp_0 in E.
      assert (0 <= (exp c - Pw m c) * (t - 0)) by (apply Rmult_le_pos; lra). lra.
Qed.

(** ** The draws after the threshold *)
Definition neg (us : list R) : R := lsum (fun u => - ln u) us.
Lemma ln_neg u : 0 < u < 1 -> ln u < 0.
Proof. intros H. rewrite <- ln_1. apply ln_increasing; lra. Qed.
Lemma neg_nonneg us : inside us -> 0 <= neg us.
Proof.
  intros H. apply lsum_nonneg. intros u Hu. unfold inside in H. rewrite Forall_forall in H. pose proof (ln_neg u (H u Hu)). lra.
Qed.
Definition psi (x c : R) (us : list R) : R := if Rle_dec c (x * neg us) then 1 else 0.
Lemma psi_cons x c u us : psi x c (u :: us) = psi x (c + x * ln u) us.
Proof. unfold psi, neg. cbn [lsum]. destruct Rle_dec, Rle_dec; try reflexivity; exfalso; nra. Qed.
Definition Tk (k : nat) (y : R) : R := exp (- y) * Sk k y.

Lemma Tk_step k y : 0 < y ->
  is_RInt (fun u => if Rle_dec (y + ln u) 0 then 1 else Tk k (y + ln u)) 0 1 (Tk (S k) y).
Proof.
  intros Hy. set (b := exp (- y)). assert (B0 : 0 < b) by apply exp_pos.
  assert (B1 : b < 1) by (unfold b; rewrite <- exp_0; apply exp_increasing; lra).
  assert (Lb : ln b = - y) by (unfold b; apply ln_exp).
  replace (Tk (S k) y) with (plus (scal (b - 0) 1) (minus (b * Sk (S k) (y + ln 1)) (b * Sk (S k) (y + ln b)))).
  2: { rewrite Lb, ln_1. replace (y + - y) with 0 by ring. rewrite Rplus_0_r, Sk_S0.
       unfold Tk, minus, plus, opp, scal, mult; simpl. unfold mult; simpl. fold b. ring. }
  apply (is_RInt_Chasles (V := R_NormedModule) _ 0 b 1).
  - apply (is_RInt_ext (V := R_NormedModule) (fun _ => 1)).
    + rewrite Rmin_left, Rmax_right by lra. intros u Hu. destruct Rle_dec as [|n]; [reflexivity|]. elim n.
      assert (ln u < ln b) by (apply ln_increasing; lra). lra.
    + apply (is_RInt_const (V := R_NormedModule)).
  - apply (is_RInt_ext (V := R_NormedModule) (fun u => b * (Sk k (y + ln u) * / u))).
    + rewrite Rmin_left, Rmax_right by lra. intros u Hu. destruct Rle_dec as [D|D].
      * exfalso. assert (ln b < ln u) by (apply ln_increasing; lra). lra.
      * unfold Tk. rewrite Ropp_plus_distr, exp_plus, exp_Ropp, exp_Ropp, exp_ln by lra. unfold b. rewrite exp_Ropp. inR. ring.
    + apply (is_RInt_derive (fun u => b * Sk (S k) (y + ln u)) (fun u => b * (Sk k (y + ln u) * / u))).
      * rewrite Rmin_left, Rmax_right by lra. intros u Hu. apply is_derive_scal.
        replace (Sk k (y + ln u) * / u) with (scal (/ u) (Sk k (y + ln u))) by (unfold scal; simpl; unfold mult; simpl; ring).
        apply (is_derive_comp (V := R_NormedModule) (Sk (S k)) (fun u => y + ln u)); [apply Sk_derive|].
        replace (/ u) with (plus 0 (/ u)) by (unfold plus; simpl; ring).
        apply (is_derive_plus (V := R_NormedModule)); [apply (is_derive_const (V := R_NormedModule))|].
        apply is_derive_Reals. apply derivable_pt_lim_ln. lra.
      * rewrite Rmin_left, Rmax_right by lra. intros u Hu. apply (ex_derive_continuous (V := R_NormedModule)).
        assert (Dl : ex_derive (fun u => y + ln u) u).
        { eexists. apply (is_derive_plus (V := R_NormedModule)); [apply (is_derive_const (V := R_NormedModule))|].
          apply is_derive_Reals. apply derivable_pt_lim_ln. lra. }
        apply ex_derive_scal. apply ex_derive_mult.
        -- apply ex_derive_comp; [|exact Dl]. destruct k; [eexists; apply (is_derive_const (V := R_NormedModule))|eexists; apply Sk_derive].
        -- apply ex_derive_inv; [apply ex_derive_id|lra].
Qed.

Lemma psi_mean x k : 0 < x -> forall c,
  igood k (psi x c) /\ imean k (psi x c) = if Rle_dec c 0 then 1 else Tk k (c / x).
Proof.
  intros Hx. induction k; intros c.
  - split; [exact I|]. cbn [imean]. unfold psi, neg. cbn [lsum]. rewrite Rmult_0_r. destruct Rle_dec; [reflexivity|].
    unfold Tk. simpl. ring.
  - cbn [igood imean].
    assert (E : forall u, imean k (fun us => psi x c (u :: us)) = if Rle_dec (c + x * ln u) 0 then 1 else Tk k ((c + x * ln u) / x)).
    { intros u. rewrite <- (proj2 (IHk (c + x * ln u))). apply imean_ext. intros; apply psi_cons. }
    assert (G : forall u, igood k (fun us => psi x c (u :: us))).
    { intros u. apply igood_ext with (2 := proj1 (IHk (c + x * ln u))). intros; symmetry; apply psi_cons. }
    destruct (Rle_dec c 0) as [Hc|Hc].
    + assert (E1 : forall u, 0 < u < 1 -> imean k (fun us => psi x c (u :: us)) = 1).
      { intros u Hu. rewrite E. destruct Rle_dec as [|n]; [reflexivity|]. elim n. pose proof (ln_neg u Hu). nra. }
      split; [split; [intros; apply G|]|].
      * apply ex_RInt_ext01 with (fun _ => 1); [intros; symmetry; now apply E1|apply RInt_c].
      * rewrite (RInt_ext01 _ (fun _ => 1) E1). apply RInt_c.
    + assert (Hy : 0 < c / x) by (apply Rdiv_lt_0_compat; lra). pose proof (Tk_step k (c / x) Hy) as H.
      assert (E1 : forall u, imean k (fun us => psi x c (u :: us)) = if Rle_dec (c / x + ln u) 0 then 1 else Tk k (c / x + ln u)).
      { intros u. rewrite E. assert (Q : (c + x * ln u) / x = c / x + ln u) by (field; lra). rewrite Q.
        assert (Q2 : c + x * ln u = x * (c / x + ln u)) by (field; lra). rewrite Q2.
        destruct Rle_dec, Rle_dec; try reflexivity; exfalso; nra. }
      split; [split; [intros; apply G|]|].
      * apply ex_RInt_ext01 with (2 := ex_intro _ _ H). intros; symmetry; apply E1.
      * rewrite (RInt_ext01 _ _ (fun u _ => E1 u)). now apply is_RInt_unique.
Qed.

(** ** The draws before the threshold *)
Section Outer.
  Variable x : R.
  Hypothesis Hx : 0 < x < 1.
  Let r := (1 - x) / x.
  Lemma r_pos : 0 < r.
  Proof. apply Rdiv_lt_0_compat; lra. Qed.
  Definition h (m : nat) (t : R) : R := exp (- t) * Pw m t.
  Lemma h_bound m t : 0 <= t -> 0 <= h m t <= 1.
  Proof.
    intros Ht. unfold h. pose proof (exp_pos (- t)). pose proof (Pw_nonneg m t Ht). pose proof (Pw_exp m t Ht).
    split; [apply Rmult_le_pos; lra|]. replace 1 with (exp (- t) * exp t) by (rewrite <- exp_plus; replace (- t + t) with 0 by ring; apply exp_0).
    apply Rmult_le_compat_l; lra.
  Qed.
  Lemma h_decay m t : 0 < t -> h m t <= INR (S m) / t.
  Proof.
    intros Ht. pose proof (h_bound (S m) t ltac:(lra)) as (_ & H). unfold h in *. rewrite Pw_S in H.
    assert (0 < INR (S m)) by (apply lt_0_INR; lia).
    replace (exp (- t) * Pw m t) with (exp (- t) * (Pw m t * t / INR (S m)) * (INR (S m) / t)) by (field; lra).
    rewrite <- (Rmult_1_l (INR (S m) / t)) at 2. apply Rmult_le_compat_r; [|exact H].
    left. now apply Rdiv_lt_0_compat.
  Qed.
  Lemma h_derive m t : is_derive (h m) t ((match m with O => 0 | S m' => h m' t end) - h m t).
  Proof.
    unfold h. evar_last.
    - apply (is_derive_mult (fun t => exp (- t)) (Pw m) t (- exp (- t)) (match m with O => 0 | S m' => Pw m' t end)).
      + auto_derive; [exact I|ring].
      + destruct m; [|apply Pw_derive]. apply (is_derive_ext (fun _ => 1)); [intros; now rewrite Pw_0|apply (is_derive_const (V := R_NormedModule))].
      + intros; apply Rmult_comm.
    - unfold plus, mult; simpl. unfold mult; simpl. destruct m; ring.
  Qed.
  Lemma h_ex_derive m t : ex_derive (h m) t.
  Proof. eexists. apply h_derive. Qed.

  Variable y : R.
  Hypothesis Hy : 0 <= y.
  Definition arg (u : R) : R := y - r * ln u.
  Lemma arg_derive u : 0 < u -> is_derive arg u (- r / u).
  Proof. intros Hu. unfold arg. auto_derive; [exact Hu|]. field. lra. Qed.
  Lemma arg_nonneg u : 0 < u <= 1 -> 0 <= arg u.
  Proof.
    intros Hu. unfold arg. assert (ln u <= 0); [|pose proof r_pos; nra].
    destruct (Req_dec u 1) as [->|]; [rewrite ln_1; lra|]. left. apply ln_neg. lra.
  Qed.
  Lemma arg_1 : arg 1 = y.
  Proof. unfold arg. rewrite ln_1. ring. Qed.
  Fixpoint Q (m : nat) : R := match m with O => x | S m' => x * Pw (S m') y + (1 - x) * Q m' end.
  Definition G (m : nat) (u : R) : R := u * h m (arg u).
  Lemma harg_derive m u : 0 < u -> is_derive (fun u => h m (arg u)) u (- r / u * ((match m with O => 0 | S m' => h m' (arg u) end) - h m (arg u))).
  Proof. intros Hu. apply (is_derive_comp (V := R_NormedModule) (h m) arg); [apply h_derive|now apply arg_derive]. Qed.
  Lemma G_derive m u : 0 < u -> is_derive (G m) u (/ x * h m (arg u) - r * match m with O => 0 | S m' => h m' (arg u) end).
  Proof.
    intros Hu. unfold G. evar_last.
    - apply (is_derive_mult (fun u => u) (fun u => h m (arg u)) u 1 (- r / u * ((match m with O => 0 | S m' => h m' (arg u) end) - h m (arg u)))); [apply (is_derive_id u)|now apply harg_derive|intros; apply Rmult_comm].
    - unfold plus, mult; simpl. unfold r. field. lra.
  Qed.
  Lemma G_int m a : 0 < a < 1 ->
    is_RInt (fun u => / x * h m (arg u) - r * match m with O => 0 | S m' => h m' (arg u) end) a 1 (G m 1 - G m a).
  Proof.
    intros Ha. apply (is_RInt_derive (G m)); rewrite Rmin_left, Rmax_right by lra; intros u Hu.
    - apply G_derive. lra.
    - apply (ex_derive_continuous (V := R_NormedModule)
        (fun u => / x * h m (arg u) - r * match m with O => 0 | S m' => h m' (arg u) end)).
      assert (E : forall k, ex_derive (fun u => h k (arg u)) u) by (intros k; eexists; apply harg_derive; lra).
      apply (ex_derive_minus (V := R_NormedModule) (fun u => / x * h m (arg u)) (fun u => r * match m with O => 0 | S m' => h m' (arg u) end)).
      + apply ex_derive_scal. apply E.
      + apply ex_derive_scal. destruct m; [apply (ex_derive_const (V := R_NormedModule))|apply E].
  Qed.
  Lemma J_part m a : 0 < a < 1 -> exists v, is_RInt (fun u => h m (arg u)) a 1 v /\ Rabs (v - exp (- y) * Q m) <= a.
  Proof.
    intros Ha.
    assert (B : forall m, 0 <= G m a <= a).
    { intros k. unfold G. pose proof (h_bound k (arg a) (arg_nonneg a ltac:(lra))). nra. }
    induction m as [|m (v & Iv & Ev)].
    - exists (x * (G 0 1 - G 0 a)). split.
      + apply (is_RInt_ext (V := R_NormedModule) (fun u => scal x (/ x * h 0 (arg u) - r * 0))).
        { intros u _. unfold scal; simpl; unfold mult; simpl. inR. field. lra. }
        apply (is_RInt_scal (V := R_NormedModule)). apply (G_int 0 a Ha).
      + unfold G at 1, h at 1. rewrite arg_1, Pw_0. cbn [Q]. replace (x * (1 * (exp (- y) * 1) - G 0 a) - exp (- y) * x) with (- (x * G 0 a)) by ring.
        rewrite Rabs_Ropp, Rabs_right; [|apply Rle_ge, Rmult_le_pos; [lra|apply B]]. specialize (B 0%nat). nra.
    - exists (x * (G (S m) 1 - G (S m) a) + (1 - x) * v). split.
      + apply (is_RInt_ext (V := R_NormedModule) (fun u => plus (scal x (/ x * h (S m) (arg u) - r * h m (arg u))) (scal (1 - x) (h m (arg u))))).
        { intros u _. unfold plus, scal; simpl; unfold mult; simpl. inR. unfold r. field. lra. }
        apply (is_RInt_plus (V := R_NormedModule)); apply (is_RInt_scal (V := R_NormedModule)); [apply (G_int (S m) a Ha)|exact Iv].
      + unfold G at 1, h at 1. rewrite arg_1. cbn [Q].
        replace (x * (1 * (exp (- y) * Pw (S m) y) - G (S m) a) + (1 - x) * v - exp (- y) * (x * Pw (S m) y + (1 - x) * Q m))
          with ((1 - x) * (v - exp (- y) * Q m) - x * G (S m) a) by ring.
        specialize (B (S m)). apply Rabs_le_between in Ev. apply Rabs_le_between. nra.
  Qed.
  Definition fhat (m : nat) (u : R) : R := if Rle_dec u 0 then 0 else h m (arg u).
  Lemma fhat_cont m u : 0 <= u <= 1 -> continuous (fhat m) u.
  Proof.
    intros Hu. destruct (Req_dec u 0) as [->|Hne].
    - apply continuity_pt_filterlim. intros eps He.
      pose proof r_pos as Hr. assert (HS : 0 < INR (S m)) by (apply lt_0_INR; lia).
      pose proof (h_decay m) as HD0. set (c := INR (S m)) in *. clearbody c.
      exists (Rmin 1 (exp (- (2 * c / eps / r)))). split; [apply Rmin_glb_lt; [lra|apply exp_pos]|].
      intros u ((_ & Hn) & Hd). unfold dist in *; simpl in *. unfold R_dist in *. unfold fhat at 2.
      destruct (Rle_dec 0 0) as [_|n]; [|lra]. rewrite Rminus_0_r in *. unfold fhat.
      destruct (Rle_dec u 0) as [D|D]; [rewrite Rabs_R0; exact He|]. rewrite (Rabs_right u) in Hd by lra.
      pose proof (Rmin_l 1 (exp (- (2 * c / eps / r)))). pose proof (Rmin_r 1 (exp (- (2 * c / eps / r)))).
      assert (L : ln u < - (2 * c / eps / r)).
      { rewrite <- (ln_exp (- (2 * c / eps / r))). apply ln_increasing; lra. }
      assert (T : 2 * c / eps < arg u).
      { unfold arg. assert (r * ln u < r * (- (2 * c / eps / r))) by (apply Rmult_lt_compat_l; lra).
        replace (r * (- (2 * c / eps / r))) with (- (2 * c / eps)) in H1 by (field; lra). lra. }
      assert (P : 0 < 2 * c / eps) by (apply Rdiv_lt_0_compat; lra).
      pose proof (HD0 (arg u) ltac:(lra)) as HD. pose proof (h_bound m (arg u) ltac:(lra)) as (HB & _).
      rewrite Rabs_right by lra. eapply Rle_lt_trans; [exact HD|].
      apply Rmult_lt_reg_r with (arg u); [lra|]. unfold Rdiv. rewrite Rmult_assoc, Rinv_l, Rmult_1_r by lra.
      assert (eps * (2 * c / eps) < eps * arg u) by (apply Rmult_lt_compat_l; lra).
      replace (eps * (2 * c / eps)) with (2 * c) in H1 by (field; lra). lra.
    - apply (continuous_ext_loc (T := R_UniformSpace) (U := R_UniformSpace) (fhat m) (fun u => h m (arg u)) u).
      + exists (mkposreal u ltac:(lra)). intros v Hv. unfold ball in Hv; simpl in Hv. unfold AbsRing_ball, abs, minus, plus, opp in Hv; simpl in Hv.
        apply Rabs_lt_between in Hv. unfold fhat. destruct (Rle_dec v 0); [lra|reflexivity].
      + apply (ex_derive_continuous (V := R_NormedModule) (fun u => h m (arg u))). eexists. apply harg_derive. lra.
  Qed.
  Lemma J_int m : is_RInt (fun u => h m (arg u)) 0 1 (exp (- y) * Q m).
  Proof.
    assert (X : ex_RInt (fhat m) 0 1).
    { apply (ex_RInt_continuous (V := R_CompleteNormedModule)). rewrite min01, max01. apply fhat_cont. }
    destruct X as (v & Iv).
    assert (E : v = exp (- y) * Q m).
    { apply Rminus_diag_uniq. apply Rabs_eq_0. apply Rle_antisym; [|apply Rabs_pos].
      apply le_epsilon. intros e He. rewrite Rplus_0_l.
      set (a := Rmin (1/2) (e / 2)). assert (A0 : 0 < a) by (apply Rmin_glb_lt; lra).
      assert (A1 : a < 1) by (pose proof (Rmin_l (1/2) (e/2)); unfold a; lra). pose proof (Rmin_r (1/2) (e / 2)) as A2. fold a in A2.
      destruct (J_part m a ltac:(lra)) as (w & Iw & Ew).
      assert (Ia : ex_RInt (fhat m) 0 a).
      { apply (ex_RInt_continuous (V := R_CompleteNormedModule)). rewrite Rmin_left, Rmax_right by lra. intros; apply fhat_cont; lra. }
      destruct Ia as (w0 & Iw0).
      assert (Iw' : is_RInt (fhat m) a 1 w).
      { apply (is_RInt_ext (V := R_NormedModule)) with (2 := Iw). rewrite Rmin_left, Rmax_right by lra. intros u Hu.
        unfold fhat. destruct (Rle_dec u 0); [lra|reflexivity]. }
      pose proof (is_RInt_Chasles (V := R_NormedModule) _ _ _ _ _ _ Iw0 Iw') as Iv'.
      assert (Ev : v = w0 + w) by (rewrite <- (is_RInt_unique _ _ _ _ Iv); now apply is_RInt_unique).
      assert (W0 : 0 <= w0 <= a).
      { split.
        - apply (is_RInt_ge_0 (fhat m) 0 a w0); [lra|exact Iw0|]. intros u Hu. unfold fhat. destruct (Rle_dec u 0); [lra|].
          apply h_bound, arg_nonneg. lra.
        - replace a with (scal (a - 0) 1) by (unfold scal; simpl; unfold mult; simpl; ring).
          apply (is_RInt_le (fhat m) (fun _ => 1) 0 a); [lra|exact Iw0|apply (is_RInt_const (V := R_NormedModule))|].
          intros u Hu. unfold fhat. destruct (Rle_dec u 0); [lra|]. apply h_bound, arg_nonneg. lra. }
      rewrite Ev. apply Rabs_le_between in Ew. apply Rabs_le_between. lra. }
    rewrite <- E. apply (is_RInt_ext (V := R_NormedModule)) with (2 := Iv). rewrite min01, max01. intros u Hu.
    unfold fhat. destruct (Rle_dec u 0); [lra|reflexivity].
  Qed.
End Outer.

(** ** Binomial tails *)
Lemma tail_big x n : forall j, (n < j)%nat -> tail x n j = 0.
Proof. induction n; intros j Hj; destruct j; try lia; simpl; [reflexivity|]. rewrite !IHn by lia. ring. Qed.
Lemma tail_one n : forall j, (j <= n)%nat -> tail 1 n j = 1.
Proof. induction n; intros j Hj; destruct j; try lia; simpl; try reflexivity. rewrite IHn by lia. ring. Qed.
Lemma tail_zero n : forall j, (1 <= j)%nat -> tail 0 n j = 0.
Proof. induction n; intros j Hj; destruct j; try lia; simpl; [reflexivity|]. rewrite (IHn (S j)) by lia. ring. Qed.
Lemma lsum_seq_shift (f : nat -> R) n : lsum f (seq 0 (S n)) = f 0%nat + lsum (fun j => f (S j)) (seq 0 n).
Proof. cbn [seq lsum]. f_equal. now rewrite <- seq_shift, lsum_map. Qed.
Lemma tail_sum x n : lsum (fun j => tail x n (S j)) (seq 0 n) = INR n * x.
Proof.
  induction n; [simpl; ring|].
  rewrite (lsum_ext _ (fun j => x * tail x n j + (1 - x) * tail x n (S j))) by reflexivity.
  rewrite lsum_plus, !lsum_scal. rewrite (lsum_seq_shift (tail x n)), lsum_seq_S, IHn, (tail_big x n (S n)), S_INR by lia.
  replace (tail x n 0) with 1 by (destruct n; reflexivity). ring.
Qed.

Section Chi.
  Variable x : R.
  Hypothesis Hx : 0 < x < 1.
  Definition chi (j : nat) (c : R) (us : list R) : R :=
    if Rle_dec (c + (1 - x) * neg (firstn j us)) (x * neg (skipn j us)) then 1 else 0.
  Lemma chi_0 c us : chi 0 c us = psi x c us.
  Proof. unfold chi, psi. cbn [firstn skipn]. unfold neg at 1. cbn [lsum]. destruct Rle_dec, Rle_dec; try reflexivity; exfalso; lra. Qed.
  Lemma chi_S j c u us : chi (S j) c (u :: us) = chi j (c - (1 - x) * ln u) us.
  Proof.
    unfold chi. cbn [firstn skipn]. unfold neg at 1. cbn [lsum]. fold (neg (firstn j us)).
    destruct Rle_dec, Rle_dec; try reflexivity; exfalso; nra.
  Qed.
  (** the two recursions agree *)
  Lemma convolve (b b' : nat -> R) y : b' 0%nat = 0 -> (forall l, b' (S l) = x * b (S l) + (1 - x) * b' l) ->
    forall k, lsum (fun m => b (k - m)%nat * Q x y m) (seq 0 k) = lsum (fun m => b' (k - m)%nat * Pw m y) (seq 0 k).
  Proof.
    intros B0 BS. induction k; [reflexivity|].
    rewrite lsum_seq_shift. cbn [Q Nat.sub].
    rewrite (lsum_ext _ (fun m => x * (b (k - m)%nat * Pw (S m) y) + (1 - x) * (b (k - m)%nat * Q x y m))) by (intros; ring).
    rewrite lsum_plus, !lsum_scal, IHk.
    rewrite (lsum_seq_ext (fun m => b' (S k - m)%nat * Pw m y) (fun m => x * (b (S k - m)%nat * Pw m y) + (1 - x) * (b' (k - m)%nat * Pw m y))).
    2:{ intros m Hm. replace (S k - m)%nat with (S (k - m)) by lia. rewrite BS. ring. }
    rewrite lsum_plus, !lsum_scal. rewrite (lsum_seq_S (fun m => b' (k - m)%nat * Pw m y)), Nat.sub_diag, B0.
    rewrite (lsum_seq_shift (fun m => b (S k - m)%nat * Pw m y)), Pw_0. cbn [Nat.sub]. ring.
  Qed.
  Lemma chi_mean k : (1 <= k)%nat -> forall j c, 0 <= c ->
    igood (j + k) (chi j c) /\
    imean (j + k) (chi j c) = lsum (fun m => tail x (j + (k - m) - 1) j * h m (c / x)) (seq 0 k).
  Proof.
    intros Hk. induction j; intros c Hc.
    - cbn [Nat.add]. destruct (psi_mean x k ltac:(lra) c) as (P1 & P2). split.
      + apply igood_ext with (2 := P1). intros; symmetry; apply chi_0.
      + rewrite (imean_ext k (chi 0 c) (psi x c)) by (intros; apply chi_0). rewrite P2.
        assert (E : lsum (fun m => tail x (k - m - 1) 0 * h m (c / x)) (seq 0 k) = Tk k (c / x)).
        { rewrite (lsum_ext _ (fun m => exp (- (c / x)) * Pw m (c / x))).
          2:{ intros m _. replace (tail x (k - m - 1) 0) with 1 by (destruct (k - m - 1)%nat; reflexivity). unfold h. ring. }
          rewrite lsum_scal. unfold Tk. f_equal. clear. induction k; [reflexivity|]. rewrite lsum_seq_S, IHk. reflexivity. }
        rewrite E. destruct Rle_dec as [D|D]; [|reflexivity]. assert (c = 0) as -> by lra.
        unfold Rdiv. rewrite Rmult_0_l. unfold Tk. rewrite Ropp_0, exp_0. destruct k; [lia|]. rewrite Sk_S0. ring.
    - set (y := c / x). assert (Hy : 0 <= y) by (apply Rmult_le_pos; [exact Hc|left; apply Rinv_0_lt_compat; lra]).
      assert (A : forall u, 0 < u < 1 -> 0 <= c - (1 - x) * ln u) by (intros u Hu; pose proof (ln_neg u Hu); nra).
      assert (E : forall u, 0 < u < 1 -> imean (j + k) (fun us => chi (S j) c (u :: us)) =
        lsum (fun m => tail x (j + (k - m) - 1) j * h m (arg x y u)) (seq 0 k)).
      { intros u Hu. rewrite (imean_ext _ _ (chi j (c - (1 - x) * ln u))) by (intros; apply chi_S).
        rewrite (proj2 (IHj _ (A u Hu))). apply lsum_ext. intros m _. do 2 f_equal. unfold arg, y. field. lra. }
      assert (I : is_RInt (fun u => imean (j + k) (fun us => chi (S j) c (u :: us))) 0 1
        (lsum (fun m => tail x (S j + (k - m) - 1) (S j) * h m y) (seq 0 k))).
      { apply (is_RInt_ext (V := R_NormedModule) (fun u => lsum (fun m => tail x (j + (k - m) - 1) j * h m (arg x y u)) (seq 0 k))).
        { rewrite min01, max01. intros u Hu. symmetry. now apply E. }
        apply is_RInt_val with (lsum (fun m => tail x (j + (k - m) - 1) j * (exp (- y) * Q x y m)) (seq 0 k)).
        - apply is_RInt_lsum. intros m _. apply (is_RInt_scal (V := R_NormedModule)). now apply J_int.
        - pose proof (convolve (fun l => tail x (j + l - 1) j) (fun l => tail x (S j + l - 1) (S j)) y) as CV.
          rewrite (lsum_ext _ (fun m => exp (- y) * (tail x (j + (k - m) - 1) j * Q x y m))) by (intros; ring).
          rewrite lsum_scal, CV.
          + rewrite <- lsum_scal. apply lsum_ext. intros m _. unfold h. ring.
          + apply tail_big. lia.
          + intros l. replace (S j + S l - 1)%nat with (S (j + l)) by lia. cbn [tail].
            replace (j + S l - 1)%nat with (j + l)%nat by lia. replace (S j + l - 1)%nat with (j + l)%nat by lia. reflexivity. }
      split.
      + cbn [igood Nat.add]. split; [|eexists; exact I]. intros u Hu.
        apply igood_ext with (2 := proj1 (IHj _ (A u Hu))). intros; symmetry; apply chi_S.
      + cbn [imean Nat.add]. now apply is_RInt_unique.
  Qed.
  Lemma chi_law n j : (j <= n)%nat -> igood (S n) (chi j 0) /\ imean (S n) (chi j 0) = tail x n j.
  Proof.
    intros Hj. destruct (chi_mean (S n - j) ltac:(lia) j 0 ltac:(lra)) as (A & B).
    replace (j + (S n - j))%nat with (S n) in A, B by lia. split; [exact A|]. rewrite B.
    replace (S n - j)%nat with (S (n - j)) by lia. rewrite lsum_seq_shift.
    unfold Rdiv. rewrite Rmult_0_l. unfold h. rewrite Pw_0, Ropp_0, exp_0.
    rewrite (lsum_ext _ (fun _ => 0)) by (intros; rewrite Pw_S0; ring). rewrite lsum_zero.
    replace (j + (S (n - j) - 0) - 1)%nat with n by lia. ring.
  Qed.
End Chi.

(** the same tails for independent uniform draws *)
Lemma below_cons x v vs : below x (v :: vs) = ((if Rle_dec v x then 1 else 0) + below x vs)%nat.
Proof. unfold below. simpl. destruct Rle_dec; reflexivity. Qed.
Lemma below_law x : 0 <= x <= 1 -> forall n j,
  igood n (fun vs => at_least j (below x vs)) /\ imean n (fun vs => at_least j (below x vs)) = tail x n j.
Proof.
  intros Hx. induction n; intros j.
  - split; [exact I|]. cbn [imean tail]. unfold below. simpl. destruct j; reflexivity.
  - assert (E : forall v, (if Rle_dec v x then imean n (fun vs => at_least (j - 1) (below x vs)) else imean n (fun vs => at_least j (below x vs)))
        = imean n (fun vs => at_least j (below x (v :: vs)))).
    { intros v. destruct (Rle_dec v x) as [D|D]; apply imean_ext; intros vs _ _; rewrite below_cons; destruct (Rle_dec v x); try tauto.
      unfold at_least. cbn [Nat.add]. destruct j; [reflexivity|]. cbn [Nat.sub Nat.leb]. now rewrite Nat.sub_0_r. }
    assert (I : is_RInt (fun v => imean n (fun vs => at_least j (below x (v :: vs)))) 0 1 (tail x (S n) j)).
    { apply (is_RInt_ext (V := R_NormedModule) (fun v => if Rle_dec v x then imean n (fun vs => at_least (j - 1) (below x vs)) else imean n (fun vs => at_least j (below x vs)))).
      { intros v _. apply E. }
      rewrite !(proj2 (IHn _)).
      apply is_RInt_val with (plus (scal (x - 0) (tail x n (j - 1))) (scal (1 - x) (tail x n j))).
      2:{ change (plus (scal (x - 0) (tail x n (j - 1))) (scal (1 - x) (tail x n j))) with ((x - 0) * tail x n (j - 1) + (1 - x) * tail x n j).
          destruct j; cbn [tail Nat.sub]; [replace (tail x n 0) with 1 by (destruct n; reflexivity); ring|].
          rewrite Nat.sub_0_r. ring. }
      apply (is_RInt_Chasles (V := R_NormedModule) _ 0 x 1).
      - apply (is_RInt_ext (V := R_NormedModule) (fun _ => tail x n (j - 1))); [|apply (is_RInt_const (V := R_NormedModule))].
        rewrite Rmin_left, Rmax_right by lra. intros v Hv. destruct Rle_dec; [reflexivity|lra].
      - apply (is_RInt_ext (V := R_NormedModule) (fun _ => tail x n j)); [|apply (is_RInt_const (V := R_NormedModule))].
        rewrite Rmin_left, Rmax_right by lra. intros v Hv. destruct Rle_dec; [lra|reflexivity]. }
    split.
    + cbn [igood]. split; [|eexists; exact I]. intros v _. destruct (Rle_dec v x) as [D|D].
      * apply igood_ext with (2 := proj1 (IHn (j - 1)%nat)). intros vs _ _. rewrite below_cons. destruct (Rle_dec v x); try tauto.
        unfold at_least. cbn [Nat.add]. destruct j; [reflexivity|]. cbn [Nat.sub Nat.leb]. now rewrite Nat.sub_0_r.
      * apply igood_ext with (2 := proj1 (IHn j)). intros vs _ _. rewrite below_cons. destruct (Rle_dec v x); tauto.
    + cbn [imean]. now apply is_RInt_unique.
Qed.
