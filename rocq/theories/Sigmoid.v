(** The log sigmoid function of docs/quickstart.md and its derivatives. *)
From Coq Require Import Reals Lra.
From Coquelicot Require Import Coquelicot.
Local Open Scope R_scope.
(** log sigmoid(t - eps) *)
Definition log_sigmoid (eps t : R) : R := - ln (1 + exp (- (t - eps))).
Definition log_sigmoid1 (eps t : R) : R := / (1 + exp (t - eps)).
Definition log_sigmoid2 (eps t : R) : R := exp (t - eps) / (1 + exp (t - eps)) ^ 2.
Lemma log_sigmoid_der eps t : derivable_pt_lim (log_sigmoid eps) t (log_sigmoid1 eps t).
Proof.
apply is_derive_Reals; unfold log_sigmoid, log_sigmoid1.
assert (h := exp_pos (- (t - eps))); assert (h' := exp_pos (t - eps)).
auto_derive; [match goal with |- context[exp ?x] => generalize (exp_pos x); intro; repeat split; lra end|].
replace (- (t + - eps)) with (- (t - eps)) by ring.
rewrite exp_Ropp in *; field; lra.
Qed.
Lemma log_sigmoid1_der eps t : derivable_pt_lim (log_sigmoid1 eps) t (- log_sigmoid2 eps t).
Proof.
apply is_derive_Reals; unfold log_sigmoid1, log_sigmoid2.
assert (h' := exp_pos (t - eps)).
auto_derive; [match goal with |- context[exp ?x] => generalize (exp_pos x); intro; repeat split; lra end|].
replace (t + - eps) with (t - eps) by ring; field; lra.
Qed.
Lemma log_sigmoid2_pos eps t : 0 < log_sigmoid2 eps t.
Proof.
unfold log_sigmoid2; assert (h' := exp_pos (t - eps)); apply Rdiv_lt_0_compat; [exact h'|apply pow_lt; lra].
Qed.
(** the quadratic potential *)
Definition half_sq (t : R) : R := - / 2 * (t * t).
Lemma half_sq_der t : derivable_pt_lim half_sq t (- t).
Proof. apply is_derive_Reals; unfold half_sq; auto_derive; [trivial|field]. Qed.
Lemma opp_der t : derivable_pt_lim Ropp t (- (1)).
Proof. apply is_derive_Reals; auto_derive; [trivial|ring]. Qed.
