(** The tree-ordered floating-point cumulative sum, and computing with binary floats. *)
From Coq Require Import Reals List Arith ZArith Bool Lia Lra.
From Flocq Require Import Core Plus_error Relative.
From Verif Require Import ScanModel ScanProofs DiscreteSpec Sums ResamplingModel ResamplingSpec ResamplingProofs
  FloatModel FloatProofs.
Import ListNotations.
Open Scope R_scope.

Section FloatScan.
  Variables prec emin : Z.
  Context {Hp : Prec_gt_0 prec}.
  Notation fl := (fl prec emin).
  Notation is_fl := (is_fl prec emin).
  Notation eps := (eps prec).
  Notation good := (good prec emin).
  Definition ex (ws : list R) : nat -> R := fun k => nth k ws 0.

  Lemma tree_add ws i j k x y : good ws -> (i < j)%nat -> (j < k)%nat ->
    is_fl x /\ 0 <= x /\ Rabs (x - (cdf (ex ws) j - cdf (ex ws) i)) <=
      ((1 + eps) ^ (j - i - 1) - 1) * (cdf (ex ws) j - cdf (ex ws) i) ->
    is_fl y /\ 0 <= y /\ Rabs (y - (cdf (ex ws) k - cdf (ex ws) j)) <=
      ((1 + eps) ^ (k - j - 1) - 1) * (cdf (ex ws) k - cdf (ex ws) j) ->
    is_fl (fl (x + y)) /\ 0 <= fl (x + y) /\ Rabs (fl (x + y) - (cdf (ex ws) k - cdf (ex ws) i)) <=
      ((1 + eps) ^ (k - i - 1) - 1) * (cdf (ex ws) k - cdf (ex ws) i).
  Proof.
    intros G Hij Hjk (Fx & Px & Ex) (Fy & Py & Ey).
    split; [apply (fl_is prec emin)|]. split; [apply (fl_nonneg prec emin); lra|].
    pose proof (eps_pos prec) as E. pose proof (fl_add_err prec emin x y Fx Fy Px Py) as H.
    assert (A : 0 <= cdf (ex ws) j - cdf (ex ws) i).
    { assert (cdf (ex ws) i <= cdf (ex ws) j); [|lra]. apply cdf_mono; [|lia]. intros; now apply (good_nth prec emin). }
    assert (B : 0 <= cdf (ex ws) k - cdf (ex ws) j).
    { assert (cdf (ex ws) j <= cdf (ex ws) k); [|lra]. apply cdf_mono; [|lia]. intros; now apply (good_nth prec emin). }
    replace (cdf (ex ws) k - cdf (ex ws) i) with
      ((cdf (ex ws) j - cdf (ex ws) i) + (cdf (ex ws) k - cdf (ex ws) j)) by ring.
    set (a := cdf (ex ws) j - cdf (ex ws) i) in *. set (b := cdf (ex ws) k - cdf (ex ws) j) in *.
    replace (k - i - 1)%nat with (S (k - i - 2)) by lia. cbn [pow].
    assert (P1 : (1 + eps) ^ (j - i - 1) <= (1 + eps) ^ (k - i - 2)) by (apply Rle_pow; [lra|lia]).
    assert (P2 : (1 + eps) ^ (k - j - 1) <= (1 + eps) ^ (k - i - 2)) by (apply Rle_pow; [lra|lia]).
    set (p := (1 + eps) ^ (j - i - 1)) in *. set (q := (1 + eps) ^ (k - j - 1)) in *.
    set (m := (1 + eps) ^ (k - i - 2)) in *.
    assert (Q1 : p * a <= m * a) by (now apply Rmult_le_compat_r).
    assert (Q2 : q * b <= m * b) by (now apply Rmult_le_compat_r).
    pose proof (Rabs_le_inv _ _ Ex) as Ex'. pose proof (Rabs_le_inv _ _ Ey) as Ey'.
    replace (fl (x + y) - (a + b)) with ((fl (x + y) - (x + y)) + ((x - a) + (y - b))) by ring.
    apply Rle_trans with (1 := Rabs_triang _ _).
    pose proof (Rabs_triang (x - a) (y - b)).
    assert (eps * (x + y) <= eps * (m * a + m * b)) by (apply Rmult_le_compat_l; lra).
    nra.
  Qed.
  Lemma fl_cumsum_err ws t : good ws -> (t < length ws)%nat ->
    Rabs (nth t (fl_cumsum prec emin ws) 0 - cdf (ex ws) (S t)) <= ((1 + eps) ^ t - 1) * cdf (ex ws) (S t).
  Proof.
    intros G Ht. unfold fl_cumsum.
    assert (N : nth_error (assoc_scan (fun a b => fl (a + b)) ws) t =
                Some (nth t (assoc_scan (fun a b => fl (a + b)) ws) 0)).
    { apply nth_error_nth'. now rewrite assoc_scan_length. }
    pose proof (assoc_scan_interval (fun a b => fl (a + b))
      (fun i j x => is_fl x /\ 0 <= x /\ Rabs (x - (cdf (ex ws) j - cdf (ex ws) i)) <=
      ((1 + eps) ^ (j - i - 1) - 1) * (cdf (ex ws) j - cdf (ex ws) i)) ws) as H.
    destruct (fun a b => H a b _ _ N) as (_ & _ & R).
    - intros i j k x y H1 H2 H3 X Y. now apply tree_add with j.
    - intros i x Hx. assert (nth i ws 0 = x) as <- by (now apply nth_error_nth).
      destruct (good_nth prec emin ws i G) as [F P]. split; [easy|]. split; [easy|].
      replace (S i - i - 1)%nat with 0%nat by lia. rewrite cdf_S. unfold ex at 2 4.
      replace (nth i ws 0 - (cdf (ex ws) i + nth i ws 0 - cdf (ex ws) i)) with 0 by ring.
      rewrite Rabs_R0. simpl. lra.
    - replace (S t - 0 - 1)%nat with t in R by lia. rewrite cdf_0, Rminus_0_r in R. exact R.
  Qed.

  (** counting the entries below [u] *)
  Lemma count_le (cs : list R) (P : R -> bool) c :
    (forall k, (k < c)%nat -> P (nth k cs 0) = true) -> (c <= length cs)%nat ->
    (c <= length (List.filter P cs))%nat.
  Proof.
    revert c. induction cs as [|x cs IH]; intros c H L; [simpl in *; lia|].
    destruct c as [|c]; [lia|]. simpl. pose proof (H 0%nat ltac:(lia)) as H0. simpl in H0. rewrite H0. simpl.
    apply le_n_S, IH; [|simpl in L; lia]. intros k Hk. apply (H (S k)). lia.
  Qed.
  Lemma filter_length_le {A} (P : A -> bool) l : (length (List.filter P l) <= length l)%nat.
  Proof. induction l; simpl; [lia|]. destruct (P a); simpl; lia. Qed.
  Lemma count_ge (cs : list R) (P : R -> bool) c :
    (forall k, (c <= k < length cs)%nat -> P (nth k cs 0) = false) ->
    (length (List.filter P cs) <= c)%nat.
  Proof.
    revert c. induction cs as [|x cs IH]; intros c H; [simpl; lia|].
    destruct c as [|c].
    - simpl. pose proof (H 0%nat ltac:(simpl; lia)) as H0. simpl in H0. rewrite H0. apply IH.
      intros k Hk. apply (H (S k)). simpl. lia.
    - simpl. assert (L : (length (List.filter P cs) <= c)%nat).
      { apply IH. intros k Hk. apply (H (S k)). simpl. lia. }
      destruct (P x); simpl; lia.
  Qed.

  (** *** computing: integers scaled by a power of two *)
  Definition inj (K a : Z) : R := IZR a * bpow radix2 (- K).
  Definition rz (a : Z) : Z :=
    let sh := Z.max 0 (Z.log2 a + 1 - prec) in
    let q := (a / 2 ^ sh)%Z in
    let r := (a mod 2 ^ sh)%Z in
    ((match (2 * r ?= 2 ^ sh)%Z with
      | Lt => q | Gt => q + 1 | Eq => if Z.even q then q else q + 1 end) * 2 ^ sh)%Z.
  Lemma inj_plus K a b : inj K a + inj K b = inj K (a + b).
  Proof. unfold inj. rewrite plus_IZR. ring. Qed.
  Lemma inj_lt K a b : (a < b)%Z -> inj K a < inj K b.
  Proof. intros H. apply Rmult_lt_compat_r; [apply bpow_gt_0|now apply IZR_lt]. Qed.
  Lemma inj_le K a b : (a <= b)%Z -> inj K a <= inj K b.
  Proof. intros H. apply Rmult_le_compat_r; [apply bpow_ge_0|now apply IZR_le]. Qed.

  Lemma mag_inj K a : (0 < a)%Z -> (mag radix2 (inj K a) : Z) = (Z.log2 a + 1 - K)%Z.
  Proof.
    intros Ha. apply mag_unique_pos. destruct (Z.log2_spec a Ha) as [L1 L2]. unfold inj.
    replace (Z.log2 a + 1 - K - 1)%Z with (Z.log2 a + - K)%Z by ring.
    replace (Z.log2 a + 1 - K)%Z with (Z.succ (Z.log2 a) + - K)%Z by ring.
    pose proof (Z.log2_nonneg a).
    rewrite !bpow_plus, <- (IZR_Zpower radix2 (Z.log2 a)), <- (IZR_Zpower radix2 (Z.succ _)) by lia. pose proof (bpow_gt_0 radix2 (- K)).
    split; [apply Rmult_le_compat_r; [lra|now apply IZR_le]|apply Rmult_lt_compat_r; [lra|now apply IZR_lt]].
  Qed.

  Lemma fl_inj K a : (0 <= a)%Z -> (emin <= - K)%Z -> fl (inj K a) = inj K (rz a).
  Proof.
    intros Ha HK. destruct (Z.eq_dec a 0) as [->|Hn].
    { unfold inj, FloatModel.fl. replace (rz 0) with 0%Z.
      - rewrite Rmult_0_l. apply round_0. typeclasses eauto.
      - unfold rz. rewrite Zmod_0_l, Zdiv_0_l. set (m := (2 ^ _)%Z).
        assert (Hm : (0 < m)%Z) by (apply Z.pow_pos_nonneg; lia).
        destruct (Z.compare_spec (2 * 0) m); lia. }
    assert (Hpos : (0 < a)%Z) by lia.
    unfold FloatModel.fl, round, F2R; simpl Fnum; simpl Fexp.
    unfold scaled_mantissa, cexp. rewrite mag_inj by easy. unfold FLT_exp.
    pose proof (Z.log2_nonneg a) as L0.
    set (sh := Z.max 0 (Z.log2 a + 1 - prec)).
    (* the exponent *)
    destruct (Z_le_gt_dec (Z.log2 a + 1 - prec) 0) as [Hs|Hs].
    - (* representable *)
      set (e := Z.max (Z.log2 a + 1 - K - prec) emin).
      assert (He : (e <= - K)%Z) by (unfold e; lia).
      assert (E1 : inj K a * bpow radix2 (- e) = IZR (a * 2 ^ (- K - e))).
      { unfold inj. rewrite mult_IZR, (IZR_Zpower radix2) by lia. rewrite Rmult_assoc, <- bpow_plus. do 2 f_equal. }
      rewrite E1, Zrnd_IZR by typeclasses eauto.
      assert (E2 : rz a = a).
      { unfold rz. fold sh. replace sh with 0%Z by (unfold sh; lia). rewrite Z.pow_0_r, Z.div_1_r, Z.mod_1_r.
        simpl. ring. }
      rewrite E2, <- E1, Rmult_assoc, <- bpow_plus. replace (- e + e)%Z with 0%Z by ring. simpl. ring.
    - replace (Z.max (Z.log2 a + 1 - K - prec) emin) with (sh - K)%Z by (unfold sh; lia).
      assert (Hsh : (0 < sh)%Z) by (unfold sh; lia).
      set (x := inj K a * bpow radix2 (- (sh - K))).
      assert (Pw : (0 < 2 ^ sh)%Z) by (apply Z.pow_pos_nonneg; lia).
      pose proof (IZR_lt _ _ Pw) as PwR.
      assert (Ex : x = IZR (a / 2 ^ sh) + IZR (a mod 2 ^ sh) / IZR (2 ^ sh)).
      { unfold x, inj. rewrite Rmult_assoc, <- bpow_plus. replace (- K + - (sh - K))%Z with (- sh)%Z by ring.
        rewrite bpow_opp, <- (IZR_Zpower radix2) by lia. change (radix2 ^ sh)%Z with (2 ^ sh)%Z.
        rewrite (Z.div_mod a (2 ^ sh)) at 1 by lia. rewrite plus_IZR, mult_IZR. field. lra. }
      destruct (Z.mod_pos_bound a (2 ^ sh) Pw) as [M1 M2].
      apply IZR_le in M1. apply IZR_lt in M2.
      assert (F1 : 0 <= IZR (a mod 2 ^ sh) / IZR (2 ^ sh) < 1).
      { split; [apply Rmult_le_pos; [lra|left; now apply Rinv_0_lt_compat]|].
        apply Rmult_lt_reg_r with (IZR (2 ^ sh)); [lra|]. unfold Rdiv.
        rewrite Rmult_assoc, Rinv_l by lra. lra. }
      assert (Fl : Zfloor x = (a / 2 ^ sh)%Z).
      { apply Zfloor_imp. rewrite Ex, plus_IZR. lra. }
      assert (Z1 : ZnearestE x = match (2 * (a mod 2 ^ sh) ?= 2 ^ sh)%Z with
                 | Lt => (a / 2 ^ sh)%Z | Gt => (a / 2 ^ sh + 1)%Z
                 | Eq => if Z.even (a / 2 ^ sh) then (a / 2 ^ sh)%Z else (a / 2 ^ sh + 1)%Z end).
      { unfold Znearest. rewrite Fl.
        assert (Sub : x - IZR (a / 2 ^ sh) = IZR (a mod 2 ^ sh) / IZR (2 ^ sh)) by (rewrite Ex; ring).
        rewrite Sub.
        assert (Cl : forall y, y = x -> IZR (a mod 2 ^ sh) <> 0 -> Zceil y = (a / 2 ^ sh + 1)%Z).
        { intros y -> Hr. apply Zceil_imp. rewrite Ex. replace (a / 2 ^ sh + 1 - 1)%Z with (a / 2 ^ sh)%Z by ring.
          rewrite plus_IZR. assert (0 < IZR (a mod 2 ^ sh) / IZR (2 ^ sh)); [|lra].
          apply Rmult_lt_0_compat; [lra|]. now apply Rinv_0_lt_compat. }
        destruct (Z.compare_spec (2 * (a mod 2 ^ sh)) (2 ^ sh)) as [C|C|C].
        - rewrite Rcompare_Eq.
          2:{ apply Rmult_eq_reg_r with (2 * IZR (2 ^ sh)); [|lra]. field_simplify; [|lra].
              rewrite <- mult_IZR. now f_equal. }
          destruct (Z.even (a / 2 ^ sh)); [reflexivity|]. simpl. apply Cl; [reflexivity|].
          apply (f_equal IZR) in C. rewrite mult_IZR in C. lra.
        - apply IZR_lt in C. rewrite mult_IZR in C. rewrite Rcompare_Lt; [reflexivity|].
          apply Rmult_lt_reg_r with (2 * IZR (2 ^ sh)); [lra|]. field_simplify; lra.
        - apply IZR_lt in C. rewrite mult_IZR in C. rewrite Rcompare_Gt.
          + apply Cl; [reflexivity|]. lra.
          + apply Rmult_lt_reg_r with (2 * IZR (2 ^ sh)); [lra|]. field_simplify; lra. }
      change (Znearest (fun x0 => negb (Z.even x0)) x) with (ZnearestE x). rewrite Z1.
      unfold rz. fold sh. unfold inj. rewrite mult_IZR, (IZR_Zpower radix2) by lia.
      rewrite Rmult_assoc, <- bpow_plus. reflexivity.
  Qed.
  Lemma rz_nonneg a : (0 <= a)%Z -> (0 <= rz a)%Z.
  Proof.
    intros H. unfold rz. apply Z.mul_nonneg_nonneg; [|apply Z.pow_nonneg; lia].
    assert (0 <= a / 2 ^ Z.max 0 (Z.log2 a + 1 - prec))%Z.
    { apply Z.div_pos; [easy|]. apply Z.pow_pos_nonneg; lia. }
    destruct (_ ?= _)%Z; [destruct (Z.even _)|..]; lia.
  Qed.
  Lemma inj_fl K a : (0 <= a)%Z -> (emin <= - K)%Z -> rz a = a -> is_fl (inj K a).
  Proof. intros Ha HK E. rewrite <- E, <- fl_inj by easy. apply (fl_is prec emin). Qed.
End FloatScan.
