(** Property C76: the loss of the documented M-step. *)
From Coq Require Import Reals Lra Lia List.
From mathcomp Require Import all_ssreflect all_algebra.
From Verif Require Import RStruct MxBase KalmanModel GaussSpec MvnProofs QuadModel QuadSpec QuadProofs PropQuad
  UnbiasedSpec EmSpec EmProofs EmModel LnMin PropEmMono.
Set Implicit Arguments.
Unset Strict Implicit.
Unset Printing Implicit Defensive.
Local Open Scope ring_scope.
Import GRing.Theory Num.Theory Order.Theory.

(** log p(x_0, ..., x_T) for x_0 ~ N(0, sigma^2), x_{t+1} ~ N(rho x_t, sigma^2) (lines 9-13 of the page) *)
Definition log_prior_path (rho sigma : R) (T : nat) (x : nat -> 'cV[R]_1) : R :=
  gauss (x 0%N) 0 (sigma ^+ 2)%:M + \sum_(t < T) gauss (x t.+1) (rho *: x t) (sigma ^+ 2)%:M.
(** the quadrature estimate of the expected log likelihood of the observations; it does not involve the parameters *)
Definition observation_part (hermegauss : nat -> seq R * seq R) (order : nat) (logpmf : R -> R -> R) (T : nat)
    (ys : nat -> R) (s : smooth_dist) : R :=
  \sum_(t < T) let q := get_sigma_points (gauss_hermite_weights hermegauss 1 order) (sd_mean s t.+1) (sd_chol_cov s t.+1) in
    weighted_value (sp_wm q) (sp_points q) (fun x => logpmf (ys t.+1) (x ord0 ord0)).
(** what the smoother guarantees about its outputs (C18, C19) *)
Definition consistent (s : smooth_dist) (T : nat) : Prop := forall t, (t < T)%N ->
  cov (sd_chol_cov s t) = sd_gain s t *m cov (sd_chol_cov s t.+1) *m (sd_gain s t)^T + cov (sd_chol_cov_given_next s t).
Definition smoothing_law mean good (s : smooth_dist) (T : nat) : Prop :=
  pair_moments mean good (sd_mean s) (fun t => cov (sd_chol_cov s t))
    (fun t => cov (sd_chol_cov s t.+1) *m (sd_gain s t)^T) T.

Section Rule.
Variables (N n : nat) (s : SigmaPoints N n) (m : 'cV[R]_n) (S : 'M[R]_n).
Hypothesis h1 : \sum_i sp_wm s i ord0 = 1.
Hypothesis h2 : weighted_mean (sp_wm s) (sp_points s) = m.
Hypothesis h3 : weighted_cov (sp_wm s) (sp_points s) m = S.
Lemma rule_lin : expectation_ok (dot_wm s) (fun=> True).
Proof.
split=> [c|f g a b _ _]; split=> //; first by rewrite /dot_wm -mulr_suml h1 mul1r.
change (\sum_i sp_wm s i ord0 * (a * f i + b * g i) = a * dot_wm s f + b * dot_wm s g).
rewrite /dot_wm !mulr_sumr -big_split; apply: eq_bigr => i _ /=.
by rewrite mulrDr mulrCA [X in _ + X]mulrCA.
Qed.
Lemma rule_vec : vec_moments (dot_wm s) (fun=> True) (fun i => pt (sp_points s) i) m S.
Proof.
have e1 a : hm (dot_wm s) (fun=> True) (fun i => pt (sp_points s) i a ord0) (m a ord0).
  by split=> //; rewrite -h2 /weighted_mean summxE; apply: eq_bigr => i _; rewrite [RHS]mxE.
split=> // a b.
have e2 : hm (dot_wm s) (fun=> True) (fun i => (pt (sp_points s) i a ord0 - m a ord0) * (pt (sp_points s) i b ord0 - m b ord0)) (S a b).
  split=> //; rewrite -h3 /weighted_cov summxE; apply: eq_bigr => i _; rewrite [RHS]mxE; congr (_ * _).
  by rewrite [RHS]mxE big_ord1 !mxE.
have := hm_add rule_lin e2 (hm_add rule_lin (hm_scal rule_lin (m b ord0) (e1 a)) (hm_add rule_lin (hm_scal rule_lin (m a ord0) (e1 b))
  (hm_const rule_lin (- (m a ord0 * m b ord0))))).
apply: hm_ext => [i|].
  by move: (pt _ _ _ _) (pt _ _ _ _) (m a _) (m b _) => ? ? ? ?; toR; ring.
by move: (m a _) (m b _) (S a b) => ? ? ?; toR; ring.
Qed.
End Rule.

Definition s11 (A : 'M[R]_1) : R := A ord0 ord0.
Lemma s11M (A B : 'M[R]_1) : s11 (A *m B^T) = s11 A * s11 B.
Proof. by rewrite /s11 mxE big_ord1 mxE. Qed.
Lemma s11MM (A B : 'M[R]_1) : s11 (A *m B) = s11 A * s11 B.
Proof. by rewrite /s11 mxE big_ord1. Qed.
Lemma s11D (A B : 'M[R]_1) : s11 (A + B) = s11 A + s11 B.
Proof. by rewrite /s11 mxE. Qed.
Lemma gauss1 (x c : 'cV[R]_1) (sigma : R) : 0 < sigma ->
  gauss x c (sigma ^+ 2)%:M = norm_logpdf (s11 x) (s11 c) sigma.
Proof.
move=> s0; have s2 : 0 < sigma ^+ 2 by exact: exprn_gt0.
rewrite /gauss /norm_logpdf det_scalar1 [ln (_ * _ ^+ 2)]lnM; [|exact: two_pi_pos|exact/RltP].
have -> : mahalanobis (sigma ^+ 2)%:M (x - c) = (s11 x - s11 c) ^+ 2 / sigma ^+ 2.
  rewrite /mahalanobis invmx_scalar mul_mx_scalar -scalemxAl mxE mxE big_ord1 !mxE -expr2 mulrC.
  by rewrite /s11.
rewrite mul1r; move: (_ ^+ 2 / _ ^+ 2) (ln _) (ln _) => a b c'; toR; field.
Qed.
Lemma norm_logpdfE (x c sigma : R) : 0 < sigma ->
  norm_logpdf x c sigma = - (2%:R^-1 * ln (2%:R * PI * sigma ^+ 2)) - (2%:R * sigma ^+ 2)^-1 * (x - c) ^+ 2.
Proof.
move=> s0; rewrite /norm_logpdf mulrDl opprD mulrC; congr (_ - _).
by rewrite [(2%:R * _)^-1]invfM -mulrA mulrC [X in X * _ = _]mulrC.
Qed.
Lemma sum_affine (T : nat) (k l q0 : R) (q : 'I_T -> R) :
  (- (2%:R^-1 * l) - k * q0) + \sum_(t < T) (- (2%:R^-1 * l) - k * q t)
  = - (T.+1%:R / 2%:R * l) - k * (q0 + \sum_(t < T) q t).
Proof.
rewrite big_split /= sumr_const card_ord sumrN -mulr_sumr mulrDr opprD addrACA; congr (_ + _).
by rewrite -mulrS mulNrn -mulr_natl mulrA.
Qed.
(** the M-step objective for second moments summing to [S], [n] being the number of factors *)
Definition neg_q (n : nat) (S sigma : R) : R := n%:R / 2%:R * ln (2%:R * PI * sigma ^+ 2) + S / (2%:R * sigma ^+ 2).
Section Moments.
Variables (s : smooth_dist) (T : nat).
Let m t := s11 (sd_mean s t).
Let P t := s11 (cov (sd_chol_cov s t)).
Let G t := s11 (sd_gain s t).
(** E (x_{t+1} - rho x_t)^2 *)
Definition step_moment rho t := (m t.+1 - rho * m t) ^+ 2 + (P t.+1 - 2%:R * rho * (P t.+1 * G t) + rho ^+ 2 * P t).
Definition total_moment rho := (m 0%N ^+ 2 + P 0%N) + \sum_(t < T) step_moment rho t.

Section Law.
Variables (mean : ((nat -> 'cV[R]_1) -> R) -> R) (good : ((nat -> 'cV[R]_1) -> R) -> Prop).
Hypothesis Hm : expectation_ok mean good.
Hypothesis law : smoothing_law mean good s T.
Lemma step_mean rho t : (t < T)%N ->
  hm mean good (fun x => (s11 (x t.+1) - rho * s11 (x t)) ^+ 2) (step_moment rho t).
Proof.
move=> lt; have [_ h2 h3] := law.
have a1 : hm mean good (fun x => s11 (x t.+1) * s11 (x t.+1)) (m t.+1 * m t.+1 + P t.+1) := h2 t.+1 ord0 ord0 lt.
have a3 : hm mean good (fun x => s11 (x t) * s11 (x t)) (m t * m t + P t) := h2 t ord0 ord0 (ltnW lt).
have a2 : hm mean good (fun x => s11 (x t.+1) * s11 (x t)) (m t.+1 * m t + s11 (cov (sd_chol_cov s t.+1) *m (sd_gain s t)^T)) :=
  h3 t ord0 ord0 lt.
rewrite s11M -/(P t.+1) -/(G t) in a2.
have := hm_add Hm a1 (hm_add Hm (hm_scal Hm (- (2%:R * rho)) a2) (hm_scal Hm (rho ^+ 2) a3)).
apply: hm_ext => [x|].
  by move: (s11 _) (s11 _) => a b; rewrite !expr2; toR; ring.
by rewrite /step_moment; move: (m _) (m _) (P _) (P _) (G _) => a b c d e; rewrite !expr2; toR; ring.
Qed.
Lemma prior_mean rho sigma : 0 < sigma ->
  hm mean good (log_prior_path rho sigma T) (- neg_q T.+1 (total_moment rho) sigma).
Proof.
move=> s0; have [h1 h2 _] := law.
have a0 : hm mean good (fun x => s11 (x 0%N) * s11 (x 0%N)) (m 0%N * m 0%N + P 0%N) := h2 0%N ord0 ord0 (leq0n T).
have a1 := hm_sum Hm (fun t : 'I_T => step_mean rho (ltn_ord t)).
have a2 := hm_add Hm a0 a1.
have := hm_add Hm (hm_const Hm (- (T.+1%:R / 2%:R * ln (2%:R * PI * sigma ^+ 2)))) (hm_scal Hm (- (2%:R * sigma ^+ 2)^-1) a2).
apply: hm_ext => [x|].
  rewrite /log_prior_path gauss1 //.
  under [in RHS]eq_bigr => t _ do rewrite gauss1 // norm_logpdfE //.
  rewrite norm_logpdfE // sum_affine /s11 !mxE subr0 expr2 mulNr; congr (_ - _ * (_ + _)).
  by apply: eq_bigr => t _; rewrite !mxE.
by rewrite /neg_q /total_moment expr2 opprD mulNr [in RHS](mulrC (_ + \sum_(t < T) _)).
Qed.
End Law.

Section Loss.
Variables (hermegauss : nat -> seq R * seq R) (order : nat) (logpmf : R -> R -> R).
Hypothesis hok : hermegauss_ok hermegauss.
Hypothesis o2 : (2 <= order)%N.
Lemma ptE N n (X : 'M[R]_(N, n)) i a : pt X i a ord0 = X i a.
Proof. by rewrite !mxE. Qed.
Lemma gh_vec n (m' : 'cV[R]_n) (L : 'M[R]_n) :
  let sp := get_sigma_points (gauss_hermite_weights hermegauss n order) m' L in
  \sum_i sp_wm sp i ord0 = 1 /\
  vec_moments (dot_wm sp) (fun=> True) (fun i => pt (sp_points sp) i) m' (cov L).
Proof.
move=> sp; have [r1 _ r2 _ r3] := C43_gauss_hermite hok o2 m' L.
split=> //; apply: rule_vec => //.
rewrite /cov -r3; by rewrite /sp /gauss_hermite_weights; case: (hermegauss order).
Qed.
Lemma loss_initialE sigma : 0 < sigma ->
  loss_initial hermegauss order sigma (sd_mean s 0) (sd_chol_cov s 0)
  = - (2%:R^-1 * ln (2%:R * PI * sigma ^+ 2)) - (2%:R * sigma ^+ 2)^-1 * (m 0%N ^+ 2 + P 0%N).
Proof.
move=> s0; rewrite /loss_initial /quadrature_1d; have [w1 [_ v2]] := gh_vec (sd_mean s 0) (sd_chol_cov s 0).
set sp := get_sigma_points _ _ _ in w1 v2 *; have Hl := rule_lin w1.
have := hm_add Hl (hm_const Hl (- (2%:R^-1 * ln (2%:R * PI * sigma ^+ 2)))) (hm_scal Hl (- (2%:R * sigma ^+ 2)^-1) (v2 ord0 ord0)).
rewrite mulNr -expr2; case=> _ <-; congr dot_wm; apply: FunctionalExtensionality.functional_extensionality => i.
by rewrite norm_logpdfE // subr0 ptE -expr2 mulNr.
Qed.
Lemma joint_entries t : let J := cov (joint_chol_covs s t) in
  [/\ J i0 i0 = P t.+1, J i0 i1 = P t.+1 * G t &
      J i1 i1 = G t * P t.+1 * G t + s11 (cov (sd_chol_cov_given_next s t))].
Proof.
rewrite /joint_chol_covs /construct_joint_chol_cov /cov tr_block_mx mulmx_block !trmx0 !mulmx0 !mul0mx ?addr0 ?add0r.
rewrite block_mxEul block_mxEur block_mxEdr trmx_mul !mulmxA; split=> //.
  by rewrite -/(s11 _) s11M.
rewrite -/(s11 (_ + _)) s11D; congr (_ + _).
by rewrite s11M -[_ *m _ *m (_ ^T)]mulmxA s11MM.
Qed.
Lemma loss_dynamicsE rho sigma (mj : 'cV[R]_(1 + 1)) t : 0 < sigma -> (t < T)%N -> consistent s T ->
  loss_dynamics hermegauss order rho sigma mj (joint_chol_covs s t)
  = - (2%:R^-1 * ln (2%:R * PI * sigma ^+ 2)) - (2%:R * sigma ^+ 2)^-1 *
    ((mj i0 ord0 - rho * mj i1 ord0) ^+ 2 + (P t.+1 - 2%:R * rho * (P t.+1 * G t) + rho ^+ 2 * P t)).
Proof.
move=> s0 lt cs; rewrite /loss_dynamics /quadrature_2d; have [w1 [_ v2]] := gh_vec mj (joint_chol_covs s t).
have [j1 j2 j3] := joint_entries t.
have eP : P t = G t * P t.+1 * G t + s11 (cov (sd_chol_cov_given_next s t)).
  by rewrite /P (cs t lt) s11D s11M s11MM.
set sp := get_sigma_points _ _ _ in w1 v2 *; have Hl := rule_lin w1.
have := hm_add Hl (hm_const Hl (- (2%:R^-1 * ln (2%:R * PI * sigma ^+ 2))))
  (hm_scal Hl (- (2%:R * sigma ^+ 2)^-1) (hm_add Hl (v2 i0 i0) (hm_add Hl (hm_scal Hl (- (2%:R * rho)) (v2 i0 i1)) (hm_scal Hl (rho ^+ 2) (v2 i1 i1))))).
rewrite j1 j2 j3 -eP => -[_ e].
transitivity (- (2%:R^-1 * ln (2%:R * PI * sigma ^+ 2)) +
   - (2%:R * sigma ^+ 2)^-1 * (mj i0 ord0 * mj i0 ord0 + P t.+1 + (- (2%:R * rho) * (mj i0 ord0 * mj i1 ord0 + P t.+1 * G t) +
       rho ^+ 2 * (mj i1 ord0 * mj i1 ord0 + P t)))); last first.
  rewrite [- _^-1 * _]mulNr; congr (_ - _ * _).
  by move: (mj _ _) (mj _ _) (P _) (P _) (G _) => a b c d g; rewrite !expr2; toR; ring.
rewrite -e; congr dot_wm; apply: FunctionalExtensionality.functional_extensionality => i.
rewrite norm_logpdfE // !ptE [- _^-1 * _]mulNr; congr (_ - _ * _).
by move: (sp_points _ _ _) (sp_points _ _ _) => a b; rewrite !expr2; toR; ring.
Qed.
Lemma loss_withE means rho sigma ys : 0 < sigma -> consistent s T ->
  loss_with hermegauss order logpmf rho sigma means T ys s
  = neg_q T.+1 ((m 0%N ^+ 2 + P 0%N) + \sum_(t < T) ((means s t i0 ord0 - rho * means s t i1 ord0) ^+ 2
        + (P t.+1 - 2%:R * rho * (P t.+1 * G t) + rho ^+ 2 * P t))) sigma
    - observation_part hermegauss order logpmf T ys s.
Proof.
move=> s0 cs; rewrite /loss_with loss_initialE //.
under eq_bigr => t _ do rewrite loss_dynamicsE //.
rewrite sum_affine /neg_q !opprD !opprK [X in _ + X - _]mulrC; congr (_ + _ - _).
apply: eq_bigr => t _; rewrite /loss_observation /dot_wm /weighted_value; apply: eq_bigr => i _.
by rewrite ptE.
Qed.

End Loss.
End Moments.

Lemma neg_q_min (n : nat) (S sd : R) : (0 < n)%N -> 0 < sd ->
  (forall sigma, 0 < sigma -> neg_q n S sd <= neg_q n S sigma) -> S = n%:R * sd ^+ 2.
Proof.
move=> n0 d0 h; have d2 : 0 < sd ^+ 2 by exact: exprn_gt0.
suff e : S / sd ^+ 2 = n%:R by rewrite -e divfK // gt_eqF.
apply: tangent_at_one; first by apply/RltP; rewrite ltr0n.
move=> v /RltP v0.
have sv : 0 < (sqrt v : R) by apply/RltP; apply: sqrt_lt_R0; exact/RltP.
have sv2 : (sqrt v : R) ^+ 2 = v by rewrite expr2 RmultE sqrt_sqrt //; apply: Rlt_le; exact/RltP.
have := h (sd / sqrt v) (divr_gt0 d0 sv).
rewrite /neg_q expr_div_n sv2 [2%:R * PI * (_ / v)]mulrA [2%:R * (_ / v)]mulrA [ln (_ / v)]lnM; first last.
- by apply/RltP; rewrite invr_gt0.
- by apply/RltP; apply: mulr_gt0 => //; apply/RltP; exact: two_pi_pos.
rewrite lnV; last exact/RltP.
have -> : S / (2%:R * sd ^+ 2) = 2%:R^-1 * (S / sd ^+ 2) by rewrite [(2%:R * _)^-1]invfM mulrCA.
have -> : S / (2%:R * sd ^+ 2 / v) = 2%:R^-1 * (S / sd ^+ 2 * v).
  by rewrite [(_ / v)^-1]invf_div [v / _]mulrC [(2%:R * _)^-1]invfM !mulrA [S * _]mulrC.
move/RleP; move: (S / sd ^+ 2) (ln _) (ln v) (n%:R) => B l lv k; toR.
by rewrite /GRing.opp /= => H; lra.
Qed.
(** ** C76 *)
Section C76.
Variables (hermegauss : nat -> seq R * seq R) (order : nat) (logpmf : R -> R -> R).
Variables (s : smooth_dist) (T : nat) (ys : nat -> R).
Variables (mean : ((nat -> 'cV[R]_1) -> R) -> R) (good : ((nat -> 'cV[R]_1) -> R) -> Prop).
Let m t := s11 (sd_mean s t).
Let obs := observation_part hermegauss order logpmf T ys s.
Let documented rho sigma := loss_fn hermegauss order logpmf rho sigma T ys s.
Let repaired rho sigma := loss_with hermegauss order logpmf rho sigma joint_means_next_first T ys s.
(** the loss the page announces: minus the expected complete-data log likelihood under the smoothing law *)
Let announced rho sigma := - mean (log_prior_path rho sigma T) - obs.
Hypothesis hok : hermegauss_ok hermegauss.
Hypothesis o2 : (2 <= order)%N.
Hypothesis Hm : expectation_ok mean good.
Hypothesis law : smoothing_law mean good s T.
Hypothesis cs : consistent s T.

Lemma announcedE rho sigma : 0 < sigma -> announced rho sigma = neg_q T.+1 (total_moment s T rho) sigma - obs.
Proof. by move=> s0; rewrite /announced; have [_ ->] := prior_mean Hm law rho s0; rewrite opprK. Qed.
Theorem C76_repaired_loss_partial rho sigma : 0 < sigma ->
  good (log_prior_path rho sigma T) /\ repaired rho sigma = announced rho sigma.
Proof.
move=> s0; have [g _] := prior_mean Hm law rho s0; split=> //.
rewrite announcedE // /repaired loss_withE //; congr (neg_q _ (_ + _) _ - _); apply: eq_bigr => t _.
by rewrite /joint_means_next_first /i0 /i1 col_mxEu col_mxEd.
Qed.
Lemma swapped_sum rho :
  (m 0%N ^+ 2 + s11 (cov (sd_chol_cov s 0))) + \sum_(t < T) ((joint_means s t i0 ord0 - rho * joint_means s t i1 ord0) ^+ 2
     + (s11 (cov (sd_chol_cov s t.+1)) - 2%:R * rho * (s11 (cov (sd_chol_cov s t.+1)) * s11 (sd_gain s t))
        + rho ^+ 2 * s11 (cov (sd_chol_cov s t))))
  = total_moment s T rho + (1 - rho ^+ 2) * (m 0%N ^+ 2 - m T ^+ 2).
Proof.
rewrite /total_moment -[RHS]addrA; congr (_ + _).
elim: (T) => [|k IH]; first by rewrite !big_ord0 subrr mulr0 addr0.
rewrite !big_ord_recr /= IH /step_moment /joint_means /i0 /i1 col_mxEu col_mxEd -/(s11 _) -/(s11 _) -/(m k) -/(m k.+1).
move: (\sum_(i < k) _) (m _) (m _) (m _) (s11 _) (s11 _) (s11 _) => a b c d e f g; rewrite !expr2; toR; ring.
Qed.
Theorem C76_documented_loss rho sigma : 0 < sigma ->
  documented rho sigma = announced rho sigma + (1 - rho ^+ 2) * (m 0%N ^+ 2 - m T ^+ 2) / (2%:R * sigma ^+ 2).
Proof.
move=> s0; rewrite announcedE // /documented /loss_fn loss_withE // swapped_sum /neg_q mulrDl addrA.
by rewrite -!addrA; congr (_ + (_ + _)); rewrite addrC.
Qed.
(** the noise level chosen by the documented M-step for a given rho, against the right one *)
Theorem C76_documented_minimiser rho sd sr : 0 < sd -> 0 < sr ->
  (forall sigma, 0 < sigma -> documented rho sd <= documented rho sigma) ->
  (forall sigma, 0 < sigma -> announced rho sr <= announced rho sigma) ->
  sd ^+ 2 = sr ^+ 2 + (1 - rho ^+ 2) * (m 0%N ^+ 2 - m T ^+ 2) / T.+1%:R.
Proof.
move=> d0 r0 hd hr.
have e1 : total_moment s T rho + (1 - rho ^+ 2) * (m 0%N ^+ 2 - m T ^+ 2) = T.+1%:R * sd ^+ 2.
  apply: neg_q_min => // sigma s0; have := hd sigma s0; rewrite /documented /loss_fn !loss_withE // !swapped_sum.
  by rewrite ler_add2r.
have e2 : total_moment s T rho = T.+1%:R * sr ^+ 2.
  by apply: neg_q_min => // sigma s0; have := hr sigma s0; rewrite !announcedE // ler_add2r.
have nz : T.+1%:R != 0 :> R by rewrite pnatr_eq0.
by apply: (mulfI nz); rewrite -e1 e2 [RHS]mulrDr; congr (_ + _); rewrite [RHS]mulrC divfK.
Qed.
End C76.
Print Assumptions C76_repaired_loss_partial.
Print Assumptions C76_documented_loss.
Print Assumptions C76_documented_minimiser.

(** two times, smoothed means 1 and 0, unit variances, no correlation *)
Definition demo_smooth : smooth_dist :=
  MkSmooth (fun t => if t is 0%N then 1%:M else 0) (fun=> 1%:M) (fun=> 0) (fun=> 1%:M).
Lemma demo_consistent T : consistent demo_smooth T.
Proof. by move=> t _; rewrite /cov /= mul0mx mul0mx add0r. Qed.
Lemma demo_law T : exists mean good, expectation_ok mean good /\ smoothing_law mean good demo_smooth T.
Proof.
have p1 : psd (1%:M : 'M[R]_1) by split=> [|v]; rewrite ?trmx1 // /qf mulmx1 sqn_ge0.
have e1 : cov (1%:M : 'M[R]_1) = 1%:M by rewrite /cov trmx1 mulmx1.
apply: (@law_exists 0 (sd_mean demo_smooth) (fun=> cov 1%:M) (fun=> 0) (fun=> cov 1%:M)); rewrite ?e1 //.
by move=> t _; rewrite mul0mx mul0mx add0r.
Qed.
(** the documented loss is not the announced one *)
Theorem C76_refuted hermegauss order logpmf ys : hermegauss_ok hermegauss -> (2 <= order)%N ->
  exists s T rho sigma mean good, [/\ 0 <= rho <= 1, 0 < sigma, expectation_ok mean good,
    smoothing_law mean good s T /\ consistent s T &
    loss_fn hermegauss order logpmf rho sigma T ys s
    <> - mean (log_prior_path rho sigma T) - observation_part hermegauss order logpmf T ys s].
Proof.
move=> hok o2; have [mean [good [Hm law]]] := demo_law 1.
exists demo_smooth, 1%N, 0, 1, mean, good; split=> //; rewrite ?lexx ?ler01 ?ltr01 //.
  by split=> //; exact: demo_consistent.
rewrite (C76_documented_loss logpmf ys hok o2 Hm law (@demo_consistent 1) 0 (@ltr01 _)).
rewrite /s11 /= !mxE !expr2 ?mul0r ?mulr1 ?mulr0 ?subr0 ?mul1r -[X in _ <> X]addr0 => /addrI /eqP.
by rewrite ?mul1r ?mulr1 invr_eq0 pnatr_eq0.
Qed.
Print Assumptions C76_refuted.
