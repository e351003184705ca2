(** C61: parallel Kalman filtering with singular process noise. *)
From Coq Require Import Reals Lra Lia List.
From mathcomp Require Import all_ssreflect all_algebra.
From Verif Require Import RStruct MxBase ZmodTac Ext MvnExt KalmanModel GaussExt GaussSpec KalmanSpec MvnProofs MvnProofs2
  KalmanProofs BayesProofs OpAlgebra FilterOp ScanStep KalmanRuns GaussExtProofs TriaExist Trajectory PropKalman PropLinKalman.
From Verif Require ScanModel DriverSpec DriverProofs.
Set Implicit Arguments.
Unset Strict Implicit.
Unset Printing Implicit Defensive.
Local Open Scope ring_scope.
Import GRing.Theory Num.Theory Order.Theory.

(** the operator is associative in means and covariances on all elements, singular or not *)
Theorem C61_moments_associative tria (nx : nat) (e1 e2 e3 : FilterScanElement nx) : tria_ok tria ->
  let l := filtering_operator tria (filtering_operator tria e1 e2) e3 in
  let r := filtering_operator tria e1 (filtering_operator tria e2 e3) in
  [/\ fA l = fA r, fb l = fb r, cov (fU l) = cov (fU r), feta l = feta r & cov (fZ l) = cov (fZ r)].
Proof.
move=> ok l r.
pose z (e : FilterScanElement nx) := MkCE (fA e) (fb e) (cov (fU e)) (feta e) (cov (fZ e)) 0.
pose w (f : ce nx) := MkCE (cA f) (cb f) (cC f) (ceta f) (cJ f) 0.
have zE f g : z (filtering_operator tria f g) = w (ce_op (z f) (z g)).
  by have [[/= a1 a2 a3 a4 a5] _] := opE ok f g; rewrite /z a1 a2 a3 a4 a5.
have wl f g : w (ce_op (w f) g) = w (ce_op f g) by [].
have wr f g : w (ce_op f (w g)) = w (ce_op f g) by [].
have u f g : 1%:M + cC (z f) *m cJ (z g) \in unitmx by exact: unit_CJ.
have : z l = z r.
  rewrite /l /r !zE wl wr ce_assoc //; try exact: covT; try exact: u.
    by have := u (filtering_operator tria e1 e2) e3; rewrite zE.
  by have := u e1 (filtering_operator tria e2 e3); rewrite zE.
by rewrite /z => -[].
Qed.
Print Assumptions C61_moments_associative.

(** a run in either mode has the exact means and covariances, with singular initial, process and observation
    covariances, as long as the innovation covariances given an exactly known previous state are invertible *)
Lemma Forall2_of_nth A B (r : A -> B -> Prop) l m : List.length l = List.length m ->
  (forall t x y, List.nth_error l t = Some x -> List.nth_error m t = Some y -> r x y) -> List.Forall2 r l m.
Proof.
elim: l m => [|x l IH] [|y m] //= [e] h; constructor; first exact: (h 0%N).
by apply: IH => // t; exact: (h t.+1).
Qed.
Theorem C61_singular_moments tria nx ny Inp Key (split : Key -> nat -> list Key)
    (get_init_params : Inp -> 'cV[R]_nx * 'M[R]_nx) (get_dynamics_params : Inp -> 'M[R]_nx * 'cV[R]_nx * 'M[R]_nx)
    (get_observation_params : Inp -> 'M[R]_(ny, nx) * 'cV[R]_ny * 'M[R]_ny * 'cV[option R]_ny)
    (inputs : list Inp) (parallel : bool) key :
  tria_ok tria -> DriverSpec.split_ok split -> inputs <> nil ->
  (forall t x, List.nth_error inputs (S t) = Some x ->
     let: s := step_of get_dynamics_params get_observation_params x in
     obsH s *m lQ s *m (obsH s)^T + obsR s \in unitmx) ->
  exists states,
    ScanModel.filter split (kalman_build_filter tria (Key := Key) get_init_params get_dynamics_params get_observation_params)
      inputs parallel key = ScanModel.Ok states /\
    List.Forall2 (fun s b => kf_mean s = bmean b /\ cov (kf_chol_cov s) = bcov b) states
      (exact get_init_params get_dynamics_params get_observation_params inputs).
Proof.
move=> ok sok ne reg; set flt := kalman_build_filter _ _ _ _.
have len : List.length (exact get_init_params get_dynamics_params get_observation_params inputs) = List.length inputs.
  by case: inputs {ne reg} => //= x xs; rewrite kf_beliefs_length List.map_length.
have [ss [Es [Ls Hs]]] := @filter_seq_exact tria ok nx ny Inp Key get_init_params _ _ split sok inputs key ne reg.
have Fs : List.Forall2 (fun s b => kf_mean s = bmean b /\ cov (kf_chol_cov s) = bcov b) ss
    (exact get_init_params get_dynamics_params get_observation_params inputs).
  apply: Forall2_of_nth; first by rewrite Ls len.
  by move=> t s b E1 E2; have [h1 h2 _ _ _] := Hs _ _ _ E1 E2.
case: parallel; last by exists ss.
pose E (s s' : KalmanFilterState nx (Inp := Inp)) := let e := kf_elem s in let e' := kf_elem s' in
  [/\ fA e = fA e', fb e = fb e', cov (fU e) = cov (fU e'), feta e = feta e' & cov (fZ e) = cov (fZ e')].
have au : DriverSpec.assoc_upto (ScanModel.filter_combine flt) (fun _ => True) E.
  split=> //.
  - by rewrite /E => x y _ _ [-> -> -> -> ->].
  - by rewrite /E => x y z _ _ _ [-> -> -> -> ->].
  - move=> x x' y y' _ _ _ _ [a1 a2 a3 a4 a5] [b1 b2 b3 b4 b5]; rewrite /E /=.
    have [[q1 q2 q3 q4 q5] _] := opE ok (kf_elem x) (kf_elem y).
    have [[r1 r2 r3 r4 r5] _] := opE ok (kf_elem x') (kf_elem y').
    move: (filtering_operator _ _ _) (filtering_operator _ _ _) q1 q2 q3 q4 q5 r1 r2 r3 r4 r5 => f g /=.
    by move=> -> -> -> -> -> -> -> -> -> ->; rewrite a1 a2 a3 a4 a5 b1 b2 b3 b4 b5.
  - by move=> x y z _ _ _; exact: C61_moments_associative.
have [//|//|ps [ss' [Ep [Ess F]]]] := DriverProofs.filter_parallel _ sok flt _ _ inputs key ne au.
move: Ess; rewrite [ScanModel.filter _ _ _ _ _]Es => -[e]; rewrite -{}e {ss'} in F.
exists ps; split=> //.
elim: F (exact _ _ _ _) Fs => [|p s ps' ss' [_ h2 h3 _ _] F IH] bs H; first by inversion H; constructor.
move: H; case: bs => [|b bs] H; first by inversion H.
have [[i1 i2] H'] : (kf_mean s = bmean b /\ cov (kf_chol_cov s) = bcov b) /\
  List.Forall2 (fun s b => kf_mean s = bmean b /\ cov (kf_chol_cov s) = bcov b) ss' bs by inversion H.
by constructor; [split; rewrite /kf_mean /kf_chol_cov ?h2 ?h3|exact: IH].
Qed.
Print Assumptions C61_singular_moments.

(** ** the log normalizing constant is NaN in parallel mode *)
(** a scalar random walk observed with noise; the second transition is noiseless *)
Definition pause_init (t : nat) : 'cV[R]_1 * 'M[R]_1 := (0, 1%:M).
Definition pause_dyn (t : nat) : 'M[R]_1 * 'cV[R]_1 * 'M[R]_1 := (1%:M, 0, if t == 2%N then 0 else 1%:M).
Definition pause_obs (t : nat) : 'M[R]_1 * 'cV[R]_1 * 'M[R]_1 * 'cV[option R]_1 := (1%:M, 0, 1%:M, const_mx (Some 0)).
Definition pause_inputs : list nat := [:: 0; 1; 2; 3]%N.
Lemma pd1 n : pd (1%:M : 'M[R]_n).
Proof. by have := @gram_pd R_realFieldType n n 1%:M; rewrite trmx1 mulmx1; apply; exact: unitmx1. Qed.
Lemma pause_regular t : regular pause_dyn pause_obs t.
Proof.
rewrite /regular /step_of /= /innovation_cov /obsH /obsR /= obs_block1.
by apply: pd_unit; apply: pdDr; [apply: psd_conj; exact: gram_psd|exact: pd1].
Qed.
Lemma pause_step_pd b t : pd (bcov b) -> pd (bcov (kf_step b (step_of pause_dyn pause_obs t))).
Proof.
move=> pb; rewrite /kf_step /=; apply: cond_pd.
  rewrite /pred_cov /= trmx1 mulmx1 mul1mx; rewrite addrC; apply: pdDr => //; exact: gram_psd.
by rewrite /obsR /= obs_block1; exact: pd1.
Qed.
Lemma unit_ent (A : 'M[R]_1) : cov A \in unitmx -> ent A <> R0.
Proof. by rewrite gram_unit unitmxE det_mx11 unitfE => /eqP. Qed.
Lemma pause_trig (x : nat) : List.nth_error pause_inputs 0 = Some x -> is_trig_mx (pause_init x).2.
Proof. by move=> _; rewrite /=; exact: scalar_mx_is_trig. Qed.

(** the element of a noiseless transition has a zero factor *)
Lemma noiseless_element tria nx ny Inp Key (get_dynamics_params : Inp -> 'M[R]_nx * 'cV[R]_nx * 'M[R]_nx)
    (get_observation_params : Inp -> 'M[R]_(ny, nx) * 'cV[R]_ny * 'M[R]_ny * 'cV[option R]_ny) x (k : option Key) :
  tria_ok tria -> regular get_dynamics_params get_observation_params x -> lQ (step_of get_dynamics_params get_observation_params x) = 0 ->
  fU (kf_elem (kalman_filter_prepare tria get_dynamics_params get_observation_params x k)) = 0.
Proof.
move=> ok reg Q0; apply: gram_eq0; set e := kf_elem _.
pose e0 : FilterScanElement nx := MkFSE 0 0 0 0 0 0.
pose b0 : belief nx := Belief 0 0 0.
have c0 : cov (0 : 'M[R]_nx) = 0 by rewrite /cov mul0mx.
have tr : tracks e0 b0 by split.
have [[_ _ _ _ t5] _ _] := @step_tracks tria ok nx ny Inp Key _ _ _ _ x _ reg tr (erefl (filtering_operator tria e0 e)).
have [[_ _ q3 _ _] _] := opE ok e0 e.
move: q3 t5; move: (filtering_operator _ _ _) => f /=; rewrite c0 !(mulmx0, mul0mx) add0r /cov => -> ->.
by rewrite /kf_step /= /cond_cov /pred_cov /= Q0 mulmx0 mul0mx addr0 !mulmx0 subr0.
Qed.
Lemma ell_nan_right tria e1 e2 l1 : operator_ell_ext tria e1 e2 l1 NaN = NaN.
Proof.
case: e1 e2 => A1 b1 U1 h1 Z1 m1 [A2 b2 U2 h2 Z2 m2]; rewrite /operator_ell_ext.
by case: l1.
Qed.
Lemma four_runs Inp Key St (split : Key -> nat -> list Key) (obj : ScanModel.Filter Inp Key St) x0 x1 x2 x3 :
  let f := ScanModel.filter_combine obj in
  let e0 := ScanModel.init_prepare obj x0 None in let e1 := ScanModel.filter_prepare obj x1 None in
  let e2 := ScanModel.filter_prepare obj x2 None in let e3 := ScanModel.filter_prepare obj x3 None in
  ScanModel.filter split obj (x0 :: x1 :: x2 :: x3 :: nil) true None
    = ScanModel.Ok (e0 :: f e0 e1 :: f (f e0 e1) e2 :: f (f e0 e1) (f e2 e3) :: nil) /\
  ScanModel.filter split obj (x0 :: x1 :: x2 :: x3 :: nil) false None
    = ScanModel.Ok (e0 :: f e0 e1 :: f (f e0 e1) e2 :: f (f (f e0 e1) e2) e3 :: nil).
Proof. by []. Qed.
(** the sequential run returns the exact filter with its evidence, the parallel run NaN at the last step *)
Theorem C61_parallel_evidence_nan tria : tria_ok tria ->
  let flt := kalman_ext_filter tria (Key := unit) pause_init pause_dyn pause_obs in
  (exists states, ScanModel.filter tt_split flt pause_inputs false None = ScanModel.Ok states /\
     List.Forall2 (fun s b => [/\ kf_mean s.1 = bmean b, cov (kf_chol_cov s.1) = bcov b & s.2 = Fin (bell b)]) states
       (exact pause_init pause_dyn pause_obs pause_inputs)) /\
  (exists states s3, ScanModel.filter tt_split flt pause_inputs true None = ScanModel.Ok states /\
     List.nth_error states 3 = Some s3 /\ s3.2 = NaN).
Proof.
move=> ok flt; have [E1 E2] := four_runs tt_split flt 0%N 1%N 2%N 3%N; split; last first.
  do 2 eexists; split; first exact E1; split; first reflexivity.
  move: (ScanModel.filter_combine flt (ScanModel.init_prepare _ _ _) _) => e01.
  set e2 := ScanModel.filter_prepare flt 2%N None; set e3 := ScanModel.filter_prepare flt 3%N None.
  have z : (ScanModel.filter_combine flt e2 e3).2 = NaN.
    rewrite -[LHS]/(operator_ell_ext tria (kf_elem e2.1) (kf_elem e3.1) e2.2 e3.2).
    apply: operator_ell_singular => //; rewrite noiseless_element //; first by rewrite /ent mxE.
      exact: pause_regular.
    by rewrite /step_of /= /cov mul0mx.
  move: (ScanModel.filter_combine flt e2 e3) z => [s l] /= ->; exact: ell_nan_right.
pose rflt := kalman_build_filter tria (Key := unit) pause_init pause_dyn pause_obs.
have [|//|st [Es [Ls Hs]]] := @filter_seq_exact tria ok 1 1 nat unit pause_init pause_dyn pause_obs tt_split tt_split_ok pause_inputs None.
- by [].
- by move=> t x _; exact: pause_regular.
have [_ E3] := four_runs tt_split rflt 0%N 1%N 2%N 3%N.
set bs := exact _ _ _ _ in Hs *.
have Eb : bs = kf_beliefs (init_belief pause_init 0%N) (List.map (step_of pause_dyn pause_obs) [:: 1; 2; 3]%N) by [].
have [b0 [b1 [b2 [b3 [Eb' P]]]]] : exists b0 b1 b2 b3, bs = [:: b0; b1; b2; b3] /\ [/\ pd (bcov b0), pd (bcov b1) & pd (bcov b2)].
  rewrite Eb /=; do 4 eexists; split; first reflexivity.
  have p0 : pd (bcov (init_belief pause_init 0%N)) by rewrite /init_belief /= cov1; exact: pd1.
  by split=> //; do ?apply: pause_step_pd.
move: E3 E2; rewrite [ScanModel.filter _ _ _ _ _]Es.
set r0 := ScanModel.init_prepare rflt _ _; set r1 := ScanModel.filter_prepare rflt 1%N _.
set r2 := ScanModel.filter_prepare rflt 2%N _; set r3 := ScanModel.filter_prepare rflt 3%N _ => -[Est].
rewrite -/(with_ell r0) -/(with_ell r1) -/(with_ell r2) -/(with_ell r3).
have comb (s1 s2 : KalmanFilterState 1 (Inp := nat)) : cov (kf_chol_cov s1) \in unitmx ->
    ScanModel.filter_combine flt (with_ell s1) (with_ell s2) = with_ell (ScanModel.filter_combine rflt s1 s2).
  by move=> u; rewrite /= /kf_log_normalizing_constant operator_ell_fin //; exact: unit_ent.
move: Hs; rewrite Est {Es Ls Est}; rewrite Eb'.
set s1 := ScanModel.filter_combine rflt r0 r1; set s2 := ScanModel.filter_combine rflt s1 r2.
set s3 := ScanModel.filter_combine rflt s2 r3 => Hs E2.
have [h01 h02 _ _ h03] := Hs 0%N _ _ erefl erefl; have [h11 h12 _ _ h13] := Hs 1%N _ _ erefl erefl.
have [h21 h22 _ _ h23] := Hs 2%N _ _ erefl erefl; have [h31 h32 _ _ h33] := Hs 3%N _ _ erefl erefl.
have [p0 p1 p2] := P.
exists (List.map with_ell [:: r0; s1; s2; s3]); split.
  by rewrite E2 !comb // ?h02 ?h12 ?h22; try exact: pd_unit.
have inv t : (t <= 3)%N -> inv_before [:: b0; b1; b2; b3] t.
  move=> lt [|[|[|u]]] b ult /=; [move=> [<-]|move=> [<-]|move=> [<-]|]; try exact: pd_unit.
  by move: ult => /ssrnat.ltP ult; have := leq_trans ult lt.
by do !constructor => //=; rewrite /kf_log_normalizing_constant; congr Fin; [apply: h03|apply: h13|apply: h23|apply: h33];
  first [exact: pause_trig|exact: inv].
Qed.
Print Assumptions C61_parallel_evidence_nan.
(** the hypotheses of C61_singular_moments are met by this model, whose second transition noise is singular *)
Example C61_case (parallel : bool) :
  lQ (step_of pause_dyn pause_obs 2%N) \notin unitmx /\
  exists states, ScanModel.filter tt_split (kalman_build_filter some_tria (Key := unit) pause_init pause_dyn pause_obs)
      pause_inputs parallel None = ScanModel.Ok states /\
    List.Forall2 (fun s b => kf_mean s = bmean b /\ cov (kf_chol_cov s) = bcov b) states
      (exact pause_init pause_dyn pause_obs pause_inputs).
Proof.
split; first by rewrite /step_of /= /cov mul0mx unitmxE det_mx11 mxE unitfE eqxx.
apply: C61_singular_moments; [exact: some_tria_ok|exact: tt_split_ok|by []|by move=> t x _; exact: pause_regular].
Qed.
(** with a noiseless transition the two modes report different log normalizing constants *)
Theorem C61_refuted : exists tria get_init_params get_dynamics_params get_observation_params (inputs : list nat) seq par s p b,
  let flt := kalman_ext_filter tria (ny := 1) (Key := unit) get_init_params get_dynamics_params get_observation_params in
  [/\ tria_ok tria, forall t x, List.nth_error inputs (S t) = Some x -> regular get_dynamics_params get_observation_params x,
      ScanModel.filter tt_split flt inputs false None = ScanModel.Ok seq,
      ScanModel.filter tt_split flt inputs true None = ScanModel.Ok par &
  [/\ List.nth_error seq 3 = Some s, List.nth_error par 3 = Some p,
      List.nth_error (exact get_init_params get_dynamics_params get_observation_params inputs) 3 = Some b,
      s.2 = Fin (bell b) & p.2 = NaN]].
Proof.
have [[seq [Es Fs]] [par [p [Ep [En z]]]]] := C61_parallel_evidence_nan (@some_tria_ok).
have [s Es3] : exists s, List.nth_error seq 3 = Some s.
  by apply: nth_ex; rewrite (Forall2_length' Fs) /= ; lia.
have [b Eb3] : exists b, List.nth_error (exact pause_init pause_dyn pause_obs pause_inputs) 3 = Some b by eexists.
have [_ _ h] := Forall2_nth Fs Es3 Eb3.
exists some_tria, pause_init, pause_dyn, pause_obs, pause_inputs, seq, par, s, p, b; split=> //.
  exact: some_tria_ok.
by move=> t x _; exact: pause_regular.
Qed.
Print Assumptions C61_refuted.
