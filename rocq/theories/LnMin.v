(** A logarithm lemma: the only line through (1, 0) above n ln v has slope n. *)
From Coq Require Import Reals Lra.
Open Scope R_scope.
Lemma ln_ge v : 0 < v -> 1 - / v <= ln v.
Proof.
  intros Hv. pose proof (exp_ineq1_le (ln (/ v))) as H. rewrite exp_ln in H by now apply Rinv_0_lt_compat.
  rewrite ln_Rinv in H by assumption. lra.
Qed.
Lemma tangent_at_one n B : 0 < n -> (forall v, 0 < v -> n * ln v <= B * (v - 1)) -> B = n.
Proof.
  intros Hn H.
  assert (K : forall v, 0 < v -> n * (v - 1) <= B * v * (v - 1)).
  { intros v Hv. specialize (H v Hv). pose proof (ln_ge v Hv) as L.
    assert (n * (1 - / v) <= B * (v - 1)) by (eapply Rle_trans; [apply Rmult_le_compat_l; [lra|exact L]|exact H]).
    assert (E : n * (v - 1) = v * (n * (1 - / v))) by (field; lra).
    rewrite E. replace (B * v * (v - 1)) with (v * (B * (v - 1))) by ring. now apply Rmult_le_compat_l; [lra|]. }
  assert (HB : 0 < B). { specialize (K 2 ltac:(lra)). lra. }
  destruct (Rtotal_order B n) as [L|[E|G]]; [|exact E|]; exfalso.
  - assert (Hv : 1 < (n + B) / (2 * B)). { apply (Rmult_lt_reg_r (2 * B)); [lra|]. field_simplify; lra. }
    specialize (K ((n + B) / (2 * B)) ltac:(lra)).
    assert (n <= B * ((n + B) / (2 * B))) by (apply (Rmult_le_reg_r ((n + B) / (2 * B) - 1)); lra).
    replace (B * ((n + B) / (2 * B))) with ((n + B) / 2) in H0 by (field; lra). lra.
  - assert (Hv : 0 < (n + B) / (2 * B)) by (apply Rdiv_lt_0_compat; lra).
    assert (Hv' : (n + B) / (2 * B) < 1). { apply (Rmult_lt_reg_r (2 * B)); [lra|]. field_simplify; lra. }
    specialize (K _ Hv).
    assert (B * ((n + B) / (2 * B)) <= n) by (apply (Rmult_le_reg_r (1 - (n + B) / (2 * B))); lra).
    replace (B * ((n + B) / (2 * B))) with ((n + B) / 2) in H0 by (field; lra). lra.
Qed.
