(** C88, C89: the match probabilities and the error bars of docs/quickstart.md. *)
From Coq Require Import Reals Lra Lia.
From Verif Require Import QuickstartModel QuickstartProofs.
Local Open Scope R_scope.

(** ** C88 *)
(** a probability vector *)
Theorem C88_probabilities epsilon d : 0 < epsilon ->
  (forall r, 0 < match_prob epsilon r d < 1) /\
  match_prob epsilon 0 d + match_prob epsilon 1 d + match_prob epsilon 2 d = 1.
Proof.
intro h; split; [intro r; split; [apply match_prob_pos|apply match_prob_lt1]; exact h|].
unfold match_prob; ring.
Qed.
Print Assumptions C88_probabilities.
(** exchanging the two teams exchanges the two wins: no home advantage *)
Theorem C88_mirror epsilon d g1 g2 :
  match_prob epsilon (match_result g1 g2) d = match_prob epsilon (match_result g2 g1) (- d).
Proof.
assert (s : forall x, sigmoid (- x) = 1 - sigmoid x) by exact sigmoid_opp.
assert (e1 : sigmoid (- d - epsilon) = 1 - sigmoid (d + epsilon)).
{ rewrite <- s; f_equal; ring. }
assert (e2 : sigmoid (- d + epsilon) = 1 - sigmoid (d - epsilon)).
{ rewrite <- s; f_equal; ring. }
unfold match_result; destruct (Nat.ltb_spec g2 g1) as [h|h]; destruct (Nat.ltb_spec g1 g2) as [h'|h'];
  try (exfalso; apply (Nat.lt_irrefl g1); eapply Nat.lt_trans; eassumption);
  unfold match_prob; rewrite ?e1, ?e2; ring.
Qed.
Print Assumptions C88_mirror.
(** a stronger home team wins more often and loses less often; a draw is the likelier the closer the skills *)
Lemma draw_form epsilon d : match_prob epsilon 0 d =
  (exp epsilon - exp (- epsilon)) / (exp epsilon + exp (- epsilon) + exp d + exp (- d)).
Proof.
unfold match_prob, sigmoid.
replace (- (d - epsilon)) with (- d + epsilon) by ring; replace (- (d + epsilon)) with (- d + - epsilon) by ring.
rewrite !exp_plus, !exp_Ropp; assert (a := exp_pos d); assert (b := exp_pos epsilon).
assert (c : 0 < exp epsilon * exp epsilon) by (apply Rmult_lt_0_compat; lra).
assert (c' : 0 < exp d * exp d) by (apply Rmult_lt_0_compat; lra).
assert (c2 : 0 < exp d * exp epsilon) by (apply Rmult_lt_0_compat; lra).
field; repeat split; try lra.
assert (c3 : 0 < exp d * exp epsilon * exp epsilon) by (apply Rmult_lt_0_compat; lra).
assert (c4 : 0 < exp d * exp d * exp epsilon) by (apply Rmult_lt_0_compat; lra).
nra.
Qed.
Lemma cosh_incr x y : 0 <= x < y -> exp x + exp (- x) < exp y + exp (- y).
Proof.
intros [h1 h2]; rewrite !exp_Ropp; assert (a := exp_pos x).
assert (b : exp x < exp y) by (apply exp_increasing; exact h2).
assert (c : 1 <= exp x).
{ rewrite <- exp_0; destruct h1 as [h1|<-]; [left; apply exp_increasing; exact h1|right; reflexivity]. }
assert (e : exp y + / exp y - (exp x + / exp x) = (exp y - exp x) * (exp x * exp y - 1) / (exp x * exp y)) by (field; lra).
assert (0 < (exp y - exp x) * (exp x * exp y - 1) / (exp x * exp y)).
{ apply Rdiv_lt_0_compat; [apply Rmult_lt_0_compat; [lra|]|apply Rmult_lt_0_compat; lra].
  assert (1 * exp y <= exp x * exp y) by (apply Rmult_le_compat_r; lra); lra. }
lra.
Qed.
Theorem C88_order epsilon d d' : 0 < epsilon ->
  (d < d' -> match_prob epsilon 1 d < match_prob epsilon 1 d' /\ match_prob epsilon 2 d' < match_prob epsilon 2 d) /\
  (Rabs d < Rabs d' -> match_prob epsilon 0 d' < match_prob epsilon 0 d).
Proof.
intro h; split.
- intro l; unfold match_prob; split; [apply sigmoid_incr; lra|].
  assert (sigmoid (d + epsilon) < sigmoid (d' + epsilon)) by (apply sigmoid_incr; lra); lra.
- intro l; rewrite !draw_form.
  assert (a : forall x, exp x + exp (- x) = exp (Rabs x) + exp (- Rabs x)).
  { intro x; unfold Rabs; destruct (Rcase_abs x); rewrite ?Ropp_involutive; lra. }
  assert (b := cosh_incr (Rabs d) (Rabs d') (conj (Rabs_pos d) l)); rewrite <- !a in b.
  assert (e1 := exp_pos d); assert (e2 := exp_pos (- d)); assert (e3 := exp_pos epsilon); assert (e4 := exp_pos (- epsilon)).
  assert (exp (- epsilon) < exp epsilon) by (apply exp_increasing; lra).
  unfold Rdiv; apply Rmult_lt_compat_l; [lra|]; apply Rinv_lt_contravar; [apply Rmult_lt_0_compat|]; lra.
Qed.
Print Assumptions C88_order.
(** in terms of the score: the side with more goals won, so its being better makes the result likelier *)
Theorem C88_score epsilon g1 g2 d d' : 0 < epsilon ->
  ((g2 < g1)%nat -> d < d' -> match_prob epsilon (match_result g1 g2) d < match_prob epsilon (match_result g1 g2) d') /\
  ((g1 < g2)%nat -> d < d' -> match_prob epsilon (match_result g1 g2) d' < match_prob epsilon (match_result g1 g2) d) /\
  (g1 = g2 -> Rabs d < Rabs d' -> match_prob epsilon (match_result g1 g2) d' < match_prob epsilon (match_result g1 g2) d).
Proof.
intro h; destruct (C88_order epsilon d d' h) as [h1 h2]; unfold match_result.
destruct (Nat.ltb_spec g2 g1) as [l|l]; destruct (Nat.ltb_spec g1 g2) as [l'|l']; repeat split; intros a b; try lia;
  first [exact (proj1 (h1 b)) | exact (proj2 (h1 b)) | exact (h2 b)].
Qed.
Print Assumptions C88_score.
(** the threshold is needed: without it no draw is possible, and its log potential is log 0 *)
Theorem C88_no_threshold d : match_prob 0 0 d = 0.
Proof. unfold match_prob; rewrite Rplus_0_r, Rminus_0_r; ring. Qed.
Print Assumptions C88_no_threshold.
(** the documented threshold; two equal teams *)
Example C88_case : 0 < 3 / 10 /\ match_prob (3 / 10) (match_result 2 2) 0 =
  (exp (3 / 10) - exp (- (3 / 10))) / (exp (3 / 10) + exp (- (3 / 10)) + 2) /\ match_result 3 1 = 1%nat /\ match_result 0 1 = 2%nat.
Proof. repeat split; [lra|change (match_result 2 2) with O; rewrite draw_form, Ropp_0, exp_0; f_equal; ring]. Qed.

(** the step of the skills: the documented random walk has variance tau^2 per day, the nugget adds to it, and by so
    much more the more the interval is divided *)
Theorem C88_step tau nugget t0 t1 t2 : 0 < tau -> 0 < nugget -> t0 < t1 < t2 ->
  tau ^ 2 * (t1 - t0) < skill_step_sd tau nugget t1 t0 ^ 2 /\
  skill_step_sd tau nugget t2 t0 ^ 2 < skill_step_sd tau nugget t1 t0 ^ 2 + skill_step_sd tau nugget t2 t1 ^ 2 /\
  skill_step_sd tau 0 t2 t0 ^ 2 = skill_step_sd tau 0 t1 t0 ^ 2 + skill_step_sd tau 0 t2 t1 ^ 2.
Proof.
intros h n [h1 h2]; unfold skill_step_sd; assert (p : 0 < tau ^ 2) by (apply pow_lt; exact h).
assert (q : forall a b, a < b -> 0 < sqrt (tau ^ 2 * (b - a)) /\ sqrt (tau ^ 2 * (b - a)) * sqrt (tau ^ 2 * (b - a)) = tau ^ 2 * (b - a)).
{ intros a b l; assert (0 < tau ^ 2 * (b - a)) by (apply Rmult_lt_0_compat; lra).
  split; [apply sqrt_lt_R0; assumption|apply sqrt_sqrt; lra]. }
destruct (q _ _ h1) as [a1 b1], (q _ _ h2) as [a2 b2], (q t0 t2 ltac:(lra)) as [a3 b3].
set (u := sqrt (tau ^ 2 * (t1 - t0))) in *; set (v := sqrt (tau ^ 2 * (t2 - t1))) in *; set (w := sqrt (tau ^ 2 * (t2 - t0))) in *.
assert (e : w * w = u * u + v * v) by (rewrite b1, b2, b3; ring).
assert (l : w < u + v).
{ destruct (Rlt_le_dec w (u + v)) as [l|l]; [exact l|exfalso].
  assert ((u + v) * (u + v) <= w * w) by (apply Rmult_le_compat; lra).
  assert (0 < u * v) by (apply Rmult_lt_0_compat; lra); lra. }
repeat split.
- rewrite <- b1; assert (0 < u * nugget) by (apply Rmult_lt_0_compat; lra); assert (0 < nugget * nugget) by (apply Rmult_lt_0_compat; lra); nra.
- assert (nugget * w < nugget * (u + v)) by (apply Rmult_lt_compat_l; lra); assert (0 < nugget * nugget) by (apply Rmult_lt_0_compat; lra); nra.
- rewrite !Rplus_0_r; lra.
Qed.
Print Assumptions C88_step.
