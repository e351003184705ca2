(** C94: what the tracking example says about outages: the uncertainty grows while a coordinate is not measured. *)
From Coq Require Import Reals Lra Lia List ZArith.
From mathcomp Require Import all_ssreflect all_algebra.
From Verif Require Import RStruct MxBase ZmodTac Ext MvnExt KalmanModel GaussExt GaussSpec KalmanSpec MvnProofs MvnProofs2
  KalmanProofs BayesProofs OpAlgebra FilterOp ScanStep KalmanRuns LinearizeProofs2 LinearFilterSpec LinearFilter TriaExist
  PropMvn Trajectory PropKalman PropOptimal IntertwineProofs ProductSpec ProductProofs PropProduct QuadSpec PropQuad
  TrackingModel TrackingSpec PropTracking.
From Verif Require ScanModel DriverSpec DriverProofs.
Set Implicit Arguments.
Unset Strict Implicit.
Unset Printing Implicit Defensive.
Local Open Scope ring_scope.
Import GRing.Theory Num.Theory Order.Theory.
Local Notation i1 := (lift ord0 ord0).

Section Axis.
Variables (dt q r : R).
Hypotheses (d0 : 0 < dt) (q0 : 0 < q) (r0 : r != 0).
Let step := axis_step dt q (r ^+ 2).
Definition aligned (b : belief 2) : Prop := psd (bcov b) /\ 0 <= bcov b ord0 i1.
Lemma diag_ge0 n (A : 'M[R]_n) i : psd A -> 0 <= A i i.
Proof.
move=> [_ /(_ (delta_mx i ord0))]; rewrite /qf trmx_delta -rowE -colE; by rewrite !mxE.
Qed.
Lemma pred_entries b y : psd (bcov b) ->
  [/\ pred_cov b (step y) ord0 ord0 = bcov b ord0 ord0 + (dt * bcov b ord0 i1) *+ 2 + dt ^+ 2 * bcov b i1 i1 + q * dt ^+ 3 / 3%:R,
      pred_cov b (step y) ord0 i1 = bcov b ord0 i1 + dt * bcov b i1 i1 + q * dt ^+ 2 / 2%:R &
      pred_cov b (step y) i1 i1 = bcov b i1 i1 + q * dt].
Proof.
move=> [sb _]; have e : bcov b i1 ord0 = bcov b ord0 i1 by rewrite -[in LHS]sb mxE.
split; rewrite /pred_cov !(mxE, big_ord_recl, big_ord0) /= ?subn0 ?subn1 /= ?divr1 ?RthirdE ?mulr2n ?exprS ?expr0 ?e; toR; field.
Qed.
Lemma step_unseen b (y : 'cV[option R]_1) : y ord0 ord0 = None -> bcov (kf_step b (step y)) = pred_cov b (step y).
Proof. by move=> e; rewrite kf_step_unseen // => i; rewrite [i]ord1. Qed.
Lemma step_seen b (y : 'cV[option R]_1) v i j : psd (bcov b) -> y ord0 ord0 = Some v ->
  let P := pred_cov b (step y) in
  bcov (kf_step b (step y)) i j = P i j - P i ord0 * P ord0 j / (P ord0 ord0 + r ^+ 2).
Proof.
move=> pb ey P.
have pP : psd P by apply: pred_psd => //; apply: (step_ok_noise (a := r)) => //; exact: axis_psd.
rewrite /= -/P /obsH /obsR cond_covE; clearbody P; set S := (X in pinv _ X).
have eS : S = (P ord0 ord0 + r ^+ 2)%:M.
  by apply/matrixP => k l; rewrite [k]ord1 [l]ord1 !(mxE, big_ord_recl, big_ord0) /= !mulr1n; move: (r ^+ 2) => z; toR; rewrite /INR; ring.
have s0 : P ord0 ord0 + r ^+ 2 != 0.
  by rewrite gt_eqF // ltr_spaddr ?diag_ge0 // lt_neqAle eq_sym sqrf_eq0 r0 sqr_ge0.
have mk : mask (ly (step y)) = 1%:M by rewrite maskE; apply/matrixP => k l; rewrite [k]ord1 [l]ord1 !mxE ey.
have uS : Sel (ly (step y)) *m S *m (Sel (ly (step y)))^T \in unitmx.
  have -> : Sel (ly (step y)) *m S *m (Sel (ly (step y)))^T = obs_block (ly (step y)) S by rewrite obs_blockE.
  by rewrite eS obs_block_scalar' unitmxE det_scalar unitrX // unitfE.
have := pinvL uS; rewrite mk mulmx1; move: (pinv _ _) => W eW.
have {eW} -> : W = (P ord0 ord0 + r ^+ 2)^-1%:M.
  apply/matrixP => k l; rewrite [k]ord1 [l]ord1 [RHS]mxE eqxx mulr1n.
  have := congr1 (fun M : 'M[R]_1 => M ord0 ord0) eW; rewrite eS mul_mx_scalar mxE [RHS]mxE /= => h.
  by apply: (mulfI s0); rewrite h divff.
move: (P ord0 ord0 + r ^+ 2)^-1 => w.
by rewrite !(mxE, big_ord_recl, big_ord0) /= ?mulr1n; toR; rewrite /INR; ring.
Qed.
Lemma aligned_pred b y : aligned b -> [/\ 0 <= pred_cov b (step y) ord0 i1, 0 < pred_cov b (step y) ord0 ord0,
  bcov b ord0 ord0 < pred_cov b (step y) ord0 ord0 & bcov b i1 i1 < pred_cov b (step y) i1 i1].
Proof.
move=> [pb ob]; have [-> -> ->] := pred_entries y pb.
have h0 := diag_ge0 ord0 pb; have h1 := diag_ge0 i1 pb.
have e3 : 0 < q * dt ^+ 3 / 3%:R by rewrite !mulr_gt0 ?invr_gt0 ?exprn_gt0 ?ltr0n.
have e2 : 0 < q * dt ^+ 2 / 2%:R by rewrite !mulr_gt0 ?invr_gt0 ?exprn_gt0 ?ltr0n.
have g1 : 0 <= (dt * bcov b ord0 i1) *+ 2 by rewrite mulrn_wge0 // mulr_ge0 // ltW.
have g2 : 0 <= dt ^+ 2 * bcov b i1 i1 by rewrite mulr_ge0 // exprn_ge0 // ltW.
have g3 : 0 <= dt * bcov b i1 i1 by rewrite mulr_ge0 // ltW.
have g4 : 0 < q * dt by rewrite mulr_gt0.
have lt : bcov b ord0 ord0 < bcov b ord0 ord0 + (dt * bcov b ord0 i1) *+ 2 + dt ^+ 2 * bcov b i1 i1 + q * dt ^+ 3 / 3%:R.
  by move: (_ *+ 2) g1 => z g1; rewrite -!addrA ltr_addl; exact: (ltr_paddl g1 (ltr_paddl g2 e3)).
split=> //; first by rewrite !addr_ge0 // ltW.
- exact: le_lt_trans h0 lt.
- by rewrite ltr_addl.
Qed.
Lemma aligned_step b y : aligned b -> aligned (kf_step b (step y)).
Proof.
move=> ab; have [pb ob] := ab; have [o p _ _] := aligned_pred y ab; split.
  by apply: kf_step_psd => //; apply: (step_ok_noise (a := r)) => //; exact: axis_psd.
case E: (y ord0 ord0) => [v|]; last by rewrite step_unseen.
rewrite (step_seen _ _ pb E); move: o p; set P := pred_cov b (step y) => o p.
have s0 : 0 < P ord0 ord0 + r ^+ 2 by rewrite ltr_paddr // sqr_ge0.
have -> : P ord0 i1 - P ord0 ord0 * P ord0 i1 / (P ord0 ord0 + r ^+ 2) = P ord0 i1 * (r ^+ 2 / (P ord0 ord0 + r ^+ 2)).
  by apply: (mulIf (lt0r_neq0 s0)); rewrite mulrBl -!mulrA mulVf ?lt0r_neq0 // !mulr1 mulrC -mulrBl addrC addKr mulrC.
by apply: mulr_ge0 => //; apply: divr_ge0; [exact: sqr_ge0|exact: ltW].
Qed.
(** a measured position is known better than the measurement alone *)
Lemma seen_better b (y : 'cV[option R]_1) v : aligned b -> y ord0 ord0 = Some v -> bcov (kf_step b (step y)) ord0 ord0 < r ^+ 2.
Proof.
move=> ab E; have [pb ob] := ab; have [_ p _ _] := aligned_pred y ab.
rewrite (step_seen _ _ pb E); move: p; set P := pred_cov b (step y) => p.
have r2 : 0 < r ^+ 2 by rewrite lt_neqAle eq_sym sqrf_eq0 r0 sqr_ge0.
have s0 : 0 < P ord0 ord0 + r ^+ 2 by rewrite addr_gt0.
have -> : P ord0 ord0 - P ord0 ord0 * P ord0 ord0 / (P ord0 ord0 + r ^+ 2) = P ord0 ord0 * (r ^+ 2 / (P ord0 ord0 + r ^+ 2)).
  by apply: (mulIf (lt0r_neq0 s0)); rewrite mulrBl -!mulrA mulVf ?lt0r_neq0 // !mulr1 -mulrBr addrC addKr.
by rewrite mulrA ltr_pdivr_mulr // mulrC ltr_pmul2l // ltr_addl.
Qed.
Lemma start_aligned (v a : R) : aligned (axis_start 0 v (a ^+ 2)).
Proof. by split; [rewrite /= -scalar_cov; exact: gram_psd|rewrite mxE /= mulr0n]. Qed.
Lemma beliefs_aligned b ys t c : aligned b -> List.nth_error (kf_beliefs b (List.map step ys)) t = Some c -> aligned c.
Proof.
elim: ys b t => [|y ys IH] b [|t] //= ab; try by move=> [<-].
- by case: t.
- by apply: IH; exact: aligned_step.
Qed.
End Axis.

(** while a coordinate is not measured, the reported variances of its position and of its velocity grow from every
    row to the next; after a measurement the position is known better than from the measurement alone *)
Theorem C94_outage tria cholesky (Key : Type) (split : Key -> nat -> list Key) (dt q1 q2 sd_P0 sd_R : R)
    (ys : list 'cV[option R]_2) (par : bool) (key : option Key) states t s s' y (i : 'I_4) (axis : 'I_2) :
  tria_ok tria -> cholesky_ok cholesky -> DriverSpec.split_ok split ->
  0 < dt -> 0 < q1 -> 0 < q2 -> sd_P0 != 0 -> sd_R != 0 ->
  ScanModel.filter split (car_filter dt q1 q2 sd_P0 sd_R cholesky ys tria Key) (car_inputs ys) par key = ScanModel.Ok states ->
  List.nth_error ys t = Some y -> List.nth_error states t = Some s -> List.nth_error states (S t) = Some s' ->
  axis = odd i :> nat ->
  match y axis ord0 with
  | None => cov (kf_chol_cov s) i i < cov (kf_chol_cov s') i i
  | Some _ => (i < 2)%N -> cov (kf_chol_cov s') i i < sd_R ^+ 2
  end.
Proof.
move=> ok cok sok dt0 p1 p2 n0 nR E Ey Es Es' ei.
have [st [E' [L _]]] := car_run ys ok cok sok dt0 p1 p2 n0 nR par key.
move: E'; rewrite E => -[] e; subst st.
pose r := sd_R; pose X := axis_beliefs dt q1 1 (sd_P0 ^+ 2) (sd_R ^+ 2) (coordinate ord0 ys).
pose Y := axis_beliefs dt q2 (-1) (sd_P0 ^+ 2) (sd_R ^+ 2) (coordinate i1 ys).
have exX k : (k <= List.length ys)%coq_nat -> exists c, List.nth_error X k = Some c.
  by move=> h; apply: nth_ex; rewrite kf_beliefs_length !List.map_length; lia.
have exY k : (k <= List.length ys)%coq_nat -> exists c, List.nth_error Y k = Some c.
  by move=> h; apply: nth_ex; rewrite kf_beliefs_length !List.map_length; lia.
have lt := nth_lt Ey.
have [c1 Ec1] := exX t (Nat.lt_le_incl _ _ lt); have [c2 Ec2] := exY t (Nat.lt_le_incl _ _ lt).
have a1 : aligned c1 by apply: (beliefs_aligned dt0 p1 nR) Ec1; exact: start_aligned.
have a2 : aligned c2 by apply: (beliefs_aligned dt0 p2 nR) Ec2; exact: start_aligned.
have Ed1 : List.nth_error X (S t) = Some (kf_step c1 (axis_step dt q1 (sd_R ^+ 2) (const_mx (y ord0 ord0)))).
  by apply: kf_beliefs_step Ec1; rewrite !List.nth_error_map Ey.
have Ed2 : List.nth_error Y (S t) = Some (kf_step c2 (axis_step dt q2 (sd_R ^+ 2) (const_mx (y i1 ord0)))).
  by apply: kf_beliefs_step Ec2; rewrite !List.nth_error_map Ey.
have [_ -> _] := C93_axes ok cok sok dt0 p1 p2 n0 nR E Es Ec1 Ec2.
have [_ -> _] := C93_axes ok cok sok dt0 p1 p2 n0 nR E Es' Ed1 Ed2.
have h0 : inord 0 = ord0 :> 'I_2 by apply: val_inj; rewrite /= inordK.
have h1 : inord 1 = i1 :> 'I_2 by apply: val_inj; rewrite /= inordK.
have up (b : belief 2) (q : R) (z : option R) (k : 'I_2) : 0 < q -> aligned b ->
    match z with
    | None => bcov b k k < bcov (kf_step b (axis_step dt q (sd_R ^+ 2) (const_mx z))) k k
    | Some _ => k = ord0 -> bcov (kf_step b (axis_step dt q (sd_R ^+ 2) (const_mx z))) k k < sd_R ^+ 2
    end.
  move=> q0 ab; case: z => [v|].
    have mv : (const_mx (Some v) : 'cV[option R]_1) ord0 ord0 = Some v by rewrite mxE.
    by move=> ->; exact: seen_better mv.
  have [_ _ lx lv] := aligned_pred sd_R dt0 q0 (const_mx None) ab.
  by rewrite step_unseen; [move: k; elim/ord2|rewrite mxE].
have ux k := up c1 q1 (y ord0 ord0) k p1 a1; have uy k := up c2 q2 (y i1 ord0) k p2 a2.
move: ux uy; set D1 := bcov (kf_step c1 _); set D2 := bcov (kf_step c2 _); clearbody D1 D2 => ux uy.
move: i ei; elim/ord4 => ei; rewrite !mxE /= ?h0 ?h1.
- have -> : axis = ord0 by exact: val_inj.
  by have := ux ord0; case: (y ord0 ord0) => // v /(_ erefl).
- have -> : axis = i1 by exact: val_inj.
  by have := uy ord0; case: (y i1 ord0) => // v /(_ erefl).
- have -> : axis = ord0 by exact: val_inj.
  by have := ux i1; case: (y ord0 ord0).
- have -> : axis = i1 by exact: val_inj.
  by have := uy i1; case: (y i1 ord0).
Qed.
Print Assumptions C94_outage.
(** measured, missing and half-missing rows; the remaining hypotheses are those of [C93_hypotheses_met] *)
Example C94_hypotheses_met (par : bool) :
  let ys := [:: const_mx (Some 1); const_mx None; \col_i (if i == 0 then Some 1 else None)] : list 'cV[option R]_2 in
  exists states, ScanModel.filter kal_split (car_filter 1 1 1 1 1 some_cholesky ys some_tria nat) (car_inputs ys) par None
    = ScanModel.Ok states /\ List.length states = 4%N.
Proof.
move=> ys.
have [st [E [L _]]] := car_run ys some_tria_ok some_cholesky_ok kal_split_ok ltr01 ltr01 ltr01 (oner_neq0 _) (oner_neq0 _) par None.
by exists st.
Qed.
