(** Integrals used for the moments of generated models: the square on [0,1], and cosines, which give
    uncorrelated variables with mean 0 and variance 1. *)
From Coq Require Import Reals Lra Lia.
From Coquelicot Require Import Coquelicot.
Open Scope R_scope.

Lemma is_RInt_square : is_RInt (fun x : R => x * x) 0 1 (1 / 3).
Proof.
  replace (1 / 3) with (minus (1 * 1 * 1 / 3) (0 * 0 * 0 / 3)) by (unfold minus, plus, opp; simpl; field).
  apply (is_RInt_derive (fun x => x * x * x / 3) (fun x => x * x)); intros x _.
  - auto_derive; auto. field.
  - apply (ex_derive_continuous (V := R_NormedModule)). auto_derive. auto.
Qed.
Lemma RInt_square : ex_RInt (fun x : R => x * x) 0 1 /\ RInt (fun x : R => x * x) 0 1 = 1 / 3.
Proof. split; [eexists; exact is_RInt_square|apply is_RInt_unique; exact is_RInt_square]. Qed.

(** ** cosines *)
Lemma sin_2kPI k : sin (2 * PI * INR k) = 0.
Proof.
  replace (2 * PI * INR k) with (0 + 2 * INR k * PI) by ring. rewrite sin_period. apply sin_0.
Qed.
Lemma cos_int (c : R) : c <> 0 -> is_RInt (fun u => cos (c * u)) 0 1 (sin c / c).
Proof.
  intros Hc. replace (sin c / c) with (minus (sin (c * 1) / c) (sin (c * 0) / c)).
  2:{ unfold minus, plus, opp; simpl. rewrite Rmult_1_r, Rmult_0_r, sin_0. field. exact Hc. }
  apply (is_RInt_derive (fun u => sin (c * u) / c) (fun u => cos (c * u))); intros x _.
  - auto_derive; auto. field. exact Hc.
  - apply (ex_derive_continuous (V := R_NormedModule)). auto_derive. auto.
Qed.
Definition wave (k : nat) (u : R) : R := sqrt 2 * cos (2 * PI * INR (S k) * u).
Lemma freq_pos k : 0 < 2 * PI * INR (S k).
Proof. pose proof PI_RGT_0. assert (0 < INR (S k)) by (apply lt_0_INR; lia). nra. Qed.
Lemma wave_mean k : is_RInt (wave k) 0 1 0.
Proof.
  replace 0 with (scal (sqrt 2) (sin (2 * PI * INR (S k)) / (2 * PI * INR (S k)))) at 2.
  2:{ rewrite sin_2kPI. unfold scal; simpl. unfold mult; simpl. field. split; [|apply PI_neq0].
      assert (0 < INR (S k)) by (apply lt_0_INR; lia). simpl in H. lra. }
  apply (is_RInt_scal (V := R_NormedModule) (fun u => cos (2 * PI * INR (S k) * u))).
  apply cos_int. pose proof (freq_pos k). lra.
Qed.
Lemma cos_int_diff k l : (k < l)%nat -> is_RInt (fun u => cos ((2 * PI * INR l - 2 * PI * INR k) * u)) 0 1 0.
Proof.
  intros H.
  assert (E : 2 * PI * INR l - 2 * PI * INR k = 2 * PI * INR (l - k)) by (rewrite minus_INR by lia; ring).
  assert (P : 0 < 2 * PI * INR (l - k)).
  { pose proof PI_RGT_0. assert (0 < INR (l - k)) by (apply lt_0_INR; lia). nra. }
  rewrite E. replace 0 with (sin (2 * PI * INR (l - k)) / (2 * PI * INR (l - k))) at 2.
  - apply cos_int. lra.
  - rewrite sin_2kPI. field. split; [|apply PI_neq0]. intros H0. rewrite H0 in P. lra.
Qed.
Lemma cos_int_sum k l : is_RInt (fun u => cos ((2 * PI * INR (S k) + 2 * PI * INR l) * u)) 0 1 0.
Proof.
  assert (E : 2 * PI * INR (S k) + 2 * PI * INR l = 2 * PI * INR (S k + l)) by (rewrite plus_INR; ring).
  assert (P : 0 < 2 * PI * INR (S k + l)) by apply (freq_pos (k + l)).
  rewrite E. replace 0 with (sin (2 * PI * INR (S k + l)) / (2 * PI * INR (S k + l))) at 2.
  - apply cos_int. lra.
  - rewrite sin_2kPI. field. split; [|apply PI_neq0]. intros H0. rewrite H0 in P. lra.
Qed.
Lemma wave_mul a b u : sqrt 2 * cos (a * u) * (sqrt 2 * cos (b * u)) = cos ((b - a) * u) + cos ((a + b) * u).
Proof.
  replace ((b - a) * u) with (b * u - a * u) by ring. replace ((a + b) * u) with (a * u + b * u) by ring.
  rewrite cos_minus, cos_plus. 
  transitivity (sqrt 2 * sqrt 2 * (cos (a * u) * cos (b * u))); [ring|]. rewrite sqrt_sqrt by lra. ring.
Qed.
Definition delta (k l : nat) : R := if Nat.eq_dec k l then 1 else 0.
Lemma wave_le k l : (k <= l)%nat -> is_RInt (fun u => wave k u * wave l u) 0 1 (delta k l).
Proof.
  intros H. unfold wave, delta.
  apply is_RInt_ext with (fun u => plus (cos ((2 * PI * INR (S l) - 2 * PI * INR (S k)) * u)) (cos ((2 * PI * INR (S k) + 2 * PI * INR (S l)) * u))).
  { intros u _. unfold plus; simpl plus. symmetry. apply wave_mul. }
  destruct (Nat.eq_dec k l) as [<-|n].
  - replace 1 with (plus 1 0) at 2 by (unfold plus; simpl; ring).
    apply (is_RInt_plus (V := R_NormedModule)); [|apply cos_int_sum].
    apply is_RInt_ext with (fun _ => 1).
    + intros u _. rewrite Rminus_eq_0, Rmult_0_l, cos_0. reflexivity.
    + replace 1 with (scal (1 - 0) 1) at 2 by (unfold scal; simpl; unfold mult; simpl; ring). apply (is_RInt_const (V := R_NormedModule)).
  - replace 0 with (plus 0 0) at 2 by (unfold plus; simpl; ring).
    apply (is_RInt_plus (V := R_NormedModule)); [apply cos_int_diff; lia|apply cos_int_sum].
Qed.
Lemma wave_prod k l : is_RInt (fun u => wave k u * wave l u) 0 1 (delta k l).
Proof.
  destruct (le_dec k l) as [H|H]; [now apply wave_le|].
  assert (E : delta l k = delta k l).
  { unfold delta. destruct (Nat.eq_dec l k), (Nat.eq_dec k l); auto; lia. }
  rewrite <- E. apply is_RInt_ext with (2 := wave_le l k ltac:(lia)). intros. apply Rmult_comm.
Qed.
