(** Derivatives of the log probabilities of docs/quickstart.md. *)
From Coq Require Import Reals Lra.
From Coquelicot Require Import Coquelicot.
From Verif Require Import QuickstartModel.
Local Open Scope R_scope.

Lemma sigmoid_bounds x : 0 < sigmoid x < 1.
Proof.
unfold sigmoid; assert (h := exp_pos (- x)); split; [apply Rinv_0_lt_compat; lra|].
rewrite <- Rinv_1; apply Rinv_lt_contravar; lra.
Qed.
Lemma sigmoid_incr x y : x < y -> sigmoid x < sigmoid y.
Proof.
intro h; unfold sigmoid; assert (a := exp_pos (- x)); assert (b := exp_pos (- y)).
assert (c : exp (- y) < exp (- x)) by (apply exp_increasing; lra).
apply Rinv_lt_contravar; [apply Rmult_lt_0_compat; lra|lra].
Qed.
Lemma sigmoid_der x : is_derive sigmoid x (sigmoid x * (1 - sigmoid x)).
Proof.
unfold sigmoid; assert (h := exp_pos (- x)); auto_derive; [lra|].
field; lra.
Qed.
Lemma sigmoid_opp x : sigmoid (- x) = 1 - sigmoid x.
Proof.
unfold sigmoid; rewrite Ropp_involutive, exp_Ropp; assert (h := exp_pos x); field; lra.
Qed.

Lemma match_prob_pos e r d : 0 < e -> 0 < match_prob e r d.
Proof.
intro h; unfold match_prob; assert (a := sigmoid_bounds (d - e)); assert (b := sigmoid_bounds (d + e)).
assert (c : sigmoid (d - e) < sigmoid (d + e)) by (apply sigmoid_incr; lra).
destruct r as [|[|r]]; lra.
Qed.
Lemma match_prob_lt1 e r d : 0 < e -> match_prob e r d < 1.
Proof.
intro h; unfold match_prob; assert (a := sigmoid_bounds (d - e)); assert (b := sigmoid_bounds (d + e)).
assert (c : sigmoid (d - e) < sigmoid (d + e)) by (apply sigmoid_incr; lra).
destruct r as [|[|r]]; lra.
Qed.

(** gradient of the log probability *)
Definition match_score (e : R) (r : nat) (d : R) : R :=
  match r with
  | O => 1 - sigmoid (d - e) - sigmoid (d + e)
  | S O => 1 - sigmoid (d - e)
  | _ => - sigmoid (d + e)
  end.
Definition match_info (e : R) (r : nat) (d : R) : R :=
  let v x := sigmoid x * (1 - sigmoid x) in
  match r with
  | O => v (d - e) + v (d + e)
  | S O => v (d - e)
  | _ => v (d + e)
  end.
Lemma const_der (c d : R) : is_derive (fun _ : R => c) d 0.
Proof. exact (is_derive_const c d). Qed.
Lemma sig_shift_der e d : is_derive (fun t => sigmoid (t - e)) d (sigmoid (d - e) * (1 - sigmoid (d - e))).
Proof.
assert (h1 : is_derive (fun t => t - e) d 1) by (auto_derive; [trivial|ring]).
assert (h := is_derive_comp sigmoid (fun t => t - e) d _ _ (sigmoid_der (d - e)) h1).
unfold scal in h; simpl in h; unfold mult in h; simpl in h.
rewrite Rmult_1_l in h; exact h.
Qed.
Lemma sig_shift_der' e d : is_derive (fun t => sigmoid (t + e)) d (sigmoid (d + e) * (1 - sigmoid (d + e))).
Proof.
assert (h := sig_shift_der (- e) d). 
replace (d + e) with (d - - e) by ring.
eapply is_derive_ext; [|exact h]; intro t; simpl; f_equal; ring.
Qed.
Lemma match_prob_der e r d :
  is_derive (match_prob e r) d
    (match r with O => sigmoid (d + e) * (1 - sigmoid (d + e)) - sigmoid (d - e) * (1 - sigmoid (d - e))
     | S O => sigmoid (d - e) * (1 - sigmoid (d - e)) | _ => - (sigmoid (d + e) * (1 - sigmoid (d + e))) end).
Proof.
assert (h1 := sig_shift_der e d); assert (h2 := sig_shift_der' e d).
unfold match_prob; destruct r as [|[|r]].
- eapply (is_derive_ext (fun t => minus (sigmoid (t + e)) (sigmoid (t - e)))).
  + intro t; unfold minus, plus, opp; simpl; ring.
  + exact (is_derive_minus _ _ _ _ _ h2 h1).
- exact h1.
- eapply (is_derive_ext (fun t => minus 1 (sigmoid (t + e)))); [intro t; reflexivity|].
  replace (- (sigmoid (d + e) * (1 - sigmoid (d + e)))) with (minus 0 (sigmoid (d + e) * (1 - sigmoid (d + e))))
    by (unfold minus, plus, opp; simpl; ring).
  apply (is_derive_minus (fun _ => 1)); [exact (const_der 1 d)|exact h2].
Qed.
Lemma log_match_der e r d : 0 < e -> derivable_pt_lim (fun t => ln (match_prob e r t)) d (match_score e r d).
Proof.
intro h; apply is_derive_Reals; assert (p := match_prob_pos e r d h).
assert (a := is_derive_comp ln (match_prob e r) d _ _ (is_derive_ln _ p) (match_prob_der e r d)).
unfold scal in a; simpl in a; unfold mult in a; simpl in a.
replace (match_score e r d) with
  ((match r with O => sigmoid (d + e) * (1 - sigmoid (d + e)) - sigmoid (d - e) * (1 - sigmoid (d - e))
     | S O => sigmoid (d - e) * (1 - sigmoid (d - e)) | _ => - (sigmoid (d + e) * (1 - sigmoid (d + e))) end) * / match_prob e r d);
  [exact a|].
unfold match_prob, match_score in *; destruct r as [|[|r]]; field; lra.
Qed.
Lemma match_score_der e r d : derivable_pt_lim (match_score e r) d (- match_info e r d).
Proof.
apply is_derive_Reals; assert (h1 := sig_shift_der e d); assert (h2 := sig_shift_der' e d).
unfold match_score, match_info; destruct r as [|[|r]].
- eapply (is_derive_ext (fun t => minus (minus 1 (sigmoid (t - e))) (sigmoid (t + e)))); [intro t; reflexivity|].
  match goal with |- is_derive _ _ (- (?a + ?b)) => replace (- (a + b)) with (minus (minus 0 a) b)
    by (unfold minus, plus, opp; simpl; ring) end.
  apply (is_derive_minus (fun t => minus 1 (sigmoid (t - e)))); [|exact h2].
  apply (is_derive_minus (fun _ => 1)); [exact (const_der 1 d)|exact h1].
- match goal with |- is_derive _ _ (- ?a) => replace (- a) with (minus 0 a) by (unfold minus, plus, opp; simpl; ring) end.
  apply (is_derive_minus (fun _ => 1)); [exact (const_der 1 d)|exact h1].
- apply (is_derive_opp (fun t => sigmoid (t + e))); exact h2.
Qed.
Lemma match_info_pos e r d : 0 < match_info e r d.
Proof.
assert (v : forall x, 0 < sigmoid x * (1 - sigmoid x))
  by (intro x; assert (s := sigmoid_bounds x); apply Rmult_lt_0_compat; lra).
assert (a := v (d - e)); assert (b := v (d + e)); unfold match_info; destruct r as [|[|r]]; lra.
Qed.
