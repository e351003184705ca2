(** C88, C89, C90: the football example of docs/quickstart.md. *)
From Coq Require Import Reals Lra Lia List.
From mathcomp Require Import all_ssreflect all_algebra.
From Verif Require Import RStruct MxBase ZmodTac KalmanModel LinalgModel LinearizeModel LinKalmanModel GaussSpec KalmanSpec
  LinalgSpec LinearizeSpec LinSpec PotSpec MvnProofs MvnProofs2 CholUpdate KalmanProofs BayesProofs InvSqrtProofs
  LinearizeProofs LinearizeProofs2 LinearizeProofs3 TriaExist SvdExist PropMvn PropLinearize LinRuns LinObs
  PropPotential QuickstartModel QuickstartProofs PropLaplace.
From Verif Require ScanModel DriverSpec DriverProofs.
Set Implicit Arguments.
Unset Strict Implicit.
Unset Printing Implicit Defensive.
Local Open Scope ring_scope.
Import GRing.Theory Num.Theory Order.Theory.

(** ** C62 for all three results: after any match the filter takes the sum of the two skills for known, whatever the
    two teams had done before *)
Theorem C62_quickstart_all tria svd grad jacobian n (home away : 'I_n) (eps : R) (res : nat) (point : 'cV[R]_n) (rtol : R) :
  tria_ok tria -> grad_ok grad -> jacobian_ok jacobian -> (forall m (A : 'M[R]_m), A^T = A -> decomposes svd A) ->
  0 <= rtol -> rtol < 1 -> home != away -> 0 < eps ->
  let p := process_observation tria jacobian svd grad rtol true
             (Potential (match_log_potential home away eps res) (map_mx Some point)) in
  exists H d chol_R,
    real_obs_params (op_y p) (op_H p, op_d p, op_chol_R p) = Some (H, d, chol_R) /\
    forall (mp : 'cV[R]_n) (chol_P : 'M[R]_n) (ell : R) m' L' ell', chol_P \in unitmx ->
      update tria mp chol_P H d chol_R (op_y p) ell = (m', L', ell') ->
      (forall i, cov L' i away = - cov L' i home) /\
      m' home ord0 + m' away ord0 = point home ord0 + point away ord0.
Proof.
move=> ok gok jok sok r0 r1 ha /RltP e0.
pose a : 'cV[R]_n := delta_mx home ord0 - delta_mx away ord0.
have aE (x : 'cV[R]_n) : (a^T *m x) ord0 ord0 = x home ord0 - x away ord0.
  by rewrite /a linearB /= !trmx_delta mulmxBl -!rowE !mxE.
have fa : of_functional a (fun t => ln (match_prob eps res t)) (match_log_potential home away eps res).
  by move=> x; rewrite aE /match_log_potential !mxE.
have k0 : 0 < match_info eps res ((a^T *m point) ord0 ord0) by apply/RltP; exact: match_info_pos.
have [H [d [chol_R [E h]]]] := C62_linear_functional ok gok jok sok r0 r1 fa (fun t => log_match_der eps res t e0) k0
  (match_score_der eps res _).
exists H, d, chol_R; split=> // mp chol_P ell m' L' ell' uP Eu.
pose v : 'cV[R]_n := delta_mx home ord0 + delta_mx away ord0.
have [||cv mv] := h _ _ _ _ _ _ uP Eu v.
- apply/matrixP => i j; rewrite (ord1 i) (ord1 j) aE !mxE !eqxx (negbTE ha) eq_sym (negbTE ha) /=.
  by rewrite addr0 add0r subrr.
- move=> i; rewrite !mxE !andbT; case: (eqVneq i home) => [->|_]; first by rewrite (negbTE ha) subr0 => /eqP; rewrite oner_eq0.
  by case: (i == away) => /=; rewrite sub0r ?addr0 // => /eqP; rewrite oppr_eq0 oner_eq0.
have vE (x : 'cV[R]_n) : (v^T *m x) ord0 ord0 = x home ord0 + x away ord0.
  by rewrite /v linearD /= !trmx_delta mulmxDl -!rowE !mxE.
split; last by rewrite -!vE mv.
move=> i; have := congr1 (fun x : 'cV[R]_n => x i ord0) cv; rewrite /v mulmxDr -!colE !mxE => /eqP.
by rewrite addrC addr_eq0 => /eqP.
Qed.
Print Assumptions C62_quickstart_all.

(** ** the transition and initial densities *)

(** ** the transition and initial densities are those of a random walk from N(0, init_sd^2 I) *)
Lemma norm_logpdf1E (x m s : R) : s != 0 ->
  norm_logpdf1 x m s = - (2%:R^-1 * ln (2%:R * PI * (s * s))) - 2%:R^-1 * ((s * s)^-1 * ((x - m) * (x - m))).
Proof.
move=> s0; have s2 : s * s <> 0 by move/eqP; rewrite mulf_eq0 orbb (negbTE s0).
have -> : (s * s)^-1 = Rinv (s * s) by rewrite RinvE //; apply/eqP.
have -> : 2%:R^-1 = Rinv (2%:R : R) by rewrite RinvE ?pnatr_eq0.
rewrite RnatE /norm_logpdf1; toR; change (INR 2) with (IZR 2); field; by apply/eqP.
Qed.
Lemma norm_logpdf_sumE n (x m : 'cV[R]_n) (s : R) : s != 0 ->
  norm_logpdf_sum (map_mx Some x) (map_mx Some m) s
  = Some (- (n%:R * (2%:R^-1 * ln (2%:R * PI * (s * s)))) - 2%:R^-1 * mahalanobis ((s * s)%:M) (x - m)).
Proof.
move=> s0; rewrite /norm_logpdf_sum.
have -> : [forall i, isSome ((map_mx Some x : 'cV[option R]_n) i ord0) && isSome ((map_mx Some m : 'cV[option R]_n) i ord0)].
  by apply/forallP => i; rewrite !mxE.
congr Some; rewrite (eq_bigr (fun i => - (2%:R^-1 * ln (2%:R * PI * (s * s)))
  - 2%:R^-1 * ((s * s)^-1 * ((x i ord0 - m i ord0) * (x i ord0 - m i ord0))))); last first.
  by move=> i _; rewrite !mxE /= norm_logpdf1E.
rewrite sumrB; congr (_ - _).
  by rewrite sumr_const card_ord mulNrn [in RHS]mulr_natl.
rewrite -mulr_sumr /mahalanobis invmx_scalar mul_mx_scalar -scalemxAl mxE -mulr_sumr; congr (_ * (_ * _)).
by rewrite mxE; apply: eq_bigr => i _; rewrite !mxE.
Qed.
Lemma some0E n : const_mx (Some 0) = map_mx Some (0 : 'cV[R]_n) :> 'cV[option R]_n.
Proof. by apply/matrixP => i j; rewrite !mxE. Qed.

Section Season.
Variable tria : forall m k : nat, 'M[R]_(m, k) -> 'M[R]_m.
Variable svd : forall n, 'M[R]_n -> 'M[R]_n * 'rV[R]_n.
Variable grad : forall n, ('cV[option R]_n -> option R) -> 'cV[option R]_n -> 'cV[option R]_n.
Variable jacobian : forall n p, ('cV[option R]_n -> 'cV[option R]_p) -> 'cV[option R]_n -> 'M[option R]_(p, n).
Variables (rtol init_sd tau eps nugget : R) (n : nat).
Variable Key : Type.
Variable split : Key -> nat -> list Key.
Variables (dummy_mean : 'cV[R]_n) (dummy_mx : 'M[R]_n).
Notation Inp := (MatchData n).
Notation St := (@LinState n Inp).
Notation flt := (football_filter init_sd tau eps nugget Key tria jacobian svd grad dummy_mean dummy_mx rtol).
Hypothesis tria_spec : tria_ok tria.
Hypothesis grad_spec : grad_ok grad.
Hypothesis jac_spec : jacobian_ok jacobian.
Hypothesis split_spec : DriverSpec.split_ok split.
Hypothesis svd_spec : forall m (A : 'M[R]_m), A^T = A -> decomposes svd A.
Hypotheses (rtol0 : 0 <= rtol) (rtol1 : rtol < 1) (sd0 : 0 < init_sd) (eps0 : 0 < eps) (nug0 : 0 < nugget).

Lemma scalar_recoverable (c : R) : 0 < c -> recoverable svd rtol (c%:M : 'M[R]_n).
Proof.
move=> c0; have [p w _] := recoverable_scalar n c0 rtol0 rtol1; split=> //.
by apply: svd_spec; rewrite invmx_scalar tr_scalar_mx.
Qed.
Lemma walk_density (s : R) : s != 0 ->
  linear_gaussian (fun x_prev x : 'cV[option R]_n => norm_logpdf_sum x x_prev s) 1%:M 0 ((s * s)%:M).
Proof.
by move=> s0; eexists => x y; rewrite norm_logpdf_sumE // mul1mx addr0; congr (Some (_ - _)).
Qed.
Lemma init_density (s : R) : s != 0 ->
  linear_gaussian (fun _ x : 'cV[option R]_n => norm_logpdf_sum x (const_mx (Some 0)) s) (0 : 'M[R]_n) 0 ((s * s)%:M).
Proof.
by move=> s0; eexists => x y; rewrite some0E norm_logpdf_sumE // mul0mx addr0; congr (Some (_ - _)).
Qed.
Lemma sq_pos (s : R) : s != 0 -> 0 < s * s.
Proof. by move=> s0; rewrite -expr2 exprn_even_gt0. Qed.

Lemma football_init x k : exists s, [/\ ScanModel.init_prepare flt x k = Some s, lin_mean s = 0 &
  cov (lin_chol_cov s) = (init_sd * init_sd)%:M].
Proof.
have s0 : init_sd != 0 by rewrite gt_eqF.
have [L [E t LL]] := C46_log_density_exact (svd := svd) true (0 : 'cV[R]_n) (0 : 'cV[R]_n) tria_spec grad_spec jac_spec rtol0
  (init_density s0) (scalar_recoverable (sq_pos s0)).
rewrite some0E in E; rewrite /= /taylor_init_prepare /taylor_init /get_init_log_density some0E E !nan_free_some.
by eexists; split; [reflexivity| |].
Qed.
Lemma step_sd_pos (x : Inp) : 0 < skill_step_sd tau nugget (time x) (time_prev x).
Proof. by rewrite /skill_step_sd; apply: ltr_paddl => //; apply/RleP; exact: sqrt_pos. Qed.
Lemma football_step (s : St) (x : Inp) k : home_index x != away_index x ->
  exists s', ScanModel.filter_combine flt (Some s) (ScanModel.filter_prepare flt x k) = Some s' /\
    (forall i, cov (lin_chol_cov s') i (away_index x) = - cov (lin_chol_cov s') i (home_index x)) /\
    lin_mean s' (home_index x) ord0 + lin_mean s' (away_index x) ord0
      = lin_mean s (home_index x) ord0 + lin_mean s (away_index x) ord0.
Proof.
move=> ha; have n0 : (0 < n)%N by case: (home_index x) => i; exact: leq_ltn_trans.
have p0 := step_sd_pos x; set q := skill_step_sd tau nugget (time x) (time_prev x) in p0.
have q0 : q != 0 by rewrite gt_eqF.
have [K [EK t KK]] := C46_log_density_exact (svd := svd) true (0 : 'cV[R]_n) (0 : 'cV[R]_n) tria_spec grad_spec jac_spec rtol0
  (walk_density q0) (scalar_recoverable (sq_pos q0)).
have ED : taylor_dynamics tria jacobian svd grad rtol true (get_dynamics_log_density tau nugget) s x = Some (1%:M, 0, K).
  by rewrite /taylor_dynamics /get_dynamics_log_density some0E -/q EK (map_mx_some_neq _ n0) /= !nan_free_some.
rewrite /= /taylor_combine /lin_pass_prepare [lin_inputs _]/= ED.
case Ep: (predict tria (lin_mean s) (lin_chol_cov s) _ _ _) => [mp Lp].
have [p1 p2 p3] := predict_spec tria_spec Ep; rewrite mul1mx addr0 in p1.
have uP : Lp \in unitmx.
  rewrite -gram_unit -/(cov Lp) p3 mul1mx trmx1 mulmx1; apply: (@pd_unit R_realFieldType); apply: pdDr; first exact: gram_psd.
  by rewrite /cov KK; case: (scalar_recoverable (sq_pos q0)).
set s1 := lin_state_dummy_elem _ _ _ _ _ _ _.
have := C62_quickstart_all (svd := svd) (result x) mp tria_spec grad_spec jac_spec svd_spec rtol0 rtol1 ha eps0.
rewrite /get_observation_func (_ : lin_mean s1 = mp) //.
case: (process_observation _ _ _ _ _ _ _) => ny' H' d' X' y' [H [d [X [E h]]]].
rewrite [op_y _]/= in E h; rewrite [op_H _]/= [op_d _]/= [op_chol_R _]/= in E; rewrite E; cbv beta iota.
case Eu: (update tria mp Lp H d X y' 0) => [[mu Lu] lu].
have [c1 c2] := h _ _ _ _ _ _ uP Eu.
by eexists; split; first (by reflexivity); split; [exact: c1|rewrite -[lin_mean s]p1; exact: c2].
Qed.

(** ** C90: every season, every choice of the hyperparameters *)
Theorem C90_season (x0 : Inp) (xs : list Inp) key :
  (forall t x, List.nth_error xs t = Some x -> home_index x != away_index x /\ time_prev x <= time x) ->
  exists states, ScanModel.filter split flt (x0 :: xs) false key = ScanModel.Ok (List.map Some states) /\
    List.length states = S (List.length xs) /\
    (forall s, List.nth_error states 0 = Some s -> lin_mean s = 0 /\ cov (lin_chol_cov s) = (init_sd * init_sd)%:M) /\
    (forall t x s s', List.nth_error xs t = Some x -> List.nth_error states t = Some s ->
       List.nth_error states t.+1 = Some s' ->
       let h := home_index x in let a := away_index x in let C := cov (lin_chol_cov s') in
       [/\ lin_mean s' h ord0 + lin_mean s' a ord0 = lin_mean s h ord0 + lin_mean s a ord0,
           C a a = C h h, C h a = - C h h & forall i, C i a = - C i h]).
Proof.
move=> ok.
have [st [E [L [R0 RS]]]] := DriverProofs.filter_sequential _ split_spec flt (x0 :: xs) key ltac:(discriminate).
have main t o : List.nth_error st t = Some o -> exists s, o = Some s.
  elim: t o => [|t IH] o.
    have [s [e _ _]] := football_init x0 (DriverSpec.child_key split key (List.length (x0 :: xs)) 0).
    by rewrite (R0 x0 erefl) e => -[<-]; exists s.
  move=> Eo; have lt := KalmanRuns.nth_lt Eo; rewrite L /= in lt.
  have [x Ex] : exists x, List.nth_error xs t = Some x by apply: KalmanRuns.nth_ex; lia.
  have [s0 Es0] : exists s0, List.nth_error st t = Some s0.
    by apply: KalmanRuns.nth_ex; rewrite L /=; lia.
  have [s Es] := IH _ Es0; subst s0; have [ha _] := ok _ _ Ex.
  have [s' [e _]] := football_step s (DriverSpec.child_key split key (List.length (x0 :: xs)) t.+1) ha.
  by move: Eo; rewrite (RS t x _ Ex Es0) e => -[<-]; exists s'.
have [ss es] : exists ss, st = List.map Some ss.
  elim: st main {E L R0 RS} => [|o st IH] main; first by exists nil.
  have [s ->] := main 0%N o erefl; have [|ss ->] := IH; first by move=> t; exact: (main t.+1).
  by exists (s :: ss).
exists ss; split; first by rewrite E es.
split; first by rewrite -(List.map_length Some) -es L.
split=> [s E0|t x s s' Ex Es Es'].
  have [s1 [e1 h1 h2]] := football_init x0 (DriverSpec.child_key split key (List.length (x0 :: xs)) 0).
  by have := R0 x0 erefl; rewrite e1 es List.nth_error_map E0 => -[->].
have [ha _] := ok _ _ Ex.
have [s1 [e1 [c1 c2]]] := football_step s (DriverSpec.child_key split key (List.length (x0 :: xs)) t.+1) ha.
have := RS t x (Some s) Ex; rewrite e1 es !List.nth_error_map Es Es' => /(_ erefl) [e].
subst s1; split=> //.
have sym i j : cov (lin_chol_cov s') i j = cov (lin_chol_cov s') j i by rewrite /cov -[in LHS](trmxK (lin_chol_cov s')) -trmx_mul trmxK mxE.
by rewrite c1 sym c1 opprK.
Qed.
End Season.
Print Assumptions C90_season.
(** the hypotheses hold for the routines [some_*], the documented hyperparameters and a season of two matches *)
Example C90_hypotheses_met (x0 x1 x2 : MatchData 3) : 
  x1 = MkMatch 1 0 (inord 0) (inord 1) 1 -> x2 = MkMatch (2%:R : R) 1 (inord 1) (inord 2) 0 ->
  [/\ tria_ok some_tria, grad_ok some_grad, jacobian_ok some_jacobian &
      forall m (A : 'M[R]_m), A^T = A -> decomposes (@some_svd) A] /\
  (forall t x, List.nth_error (x1 :: x2 :: nil) t = Some x -> home_index x != away_index x /\ time_prev x <= time x).
Proof.
move=> -> ->; split.
  split; [exact: some_tria_ok|exact: some_grad_ok|exact: some_jacobian_ok|exact: some_svd_ok].
by move=> [|[|[|t]]] x //= -[<-] /=; rewrite -val_eqE /= !inordK //; split=> //; rewrite ?ler01 // ler1n.
Qed.

(** ** C89: the error bars *)
(** [sd] is the standard deviation of coordinate [i] under a covariance matrix *)
Definition is_std n (C : 'M[R]_n) (i : 'I_n) (sd : R) : Prop := 0 <= sd /\ sd * sd = C i i.
Lemma cov_diag_ge0 n (L : 'M[R]_n) i : 0 <= cov L i i.
Proof. by rewrite mxE; apply: sumr_ge0 => j _; rewrite mxE -expr2 sqr_ge0. Qed.
Theorem C89_historical n (L : 'M[R]_n) i : is_std (cov L) i (historical_error_bar L i).
Proof.
rewrite /historical_error_bar /historical_std -/(cov L); split; first by apply/RleP; exact: sqrt_pos.
by apply: sqrt_sqrt; apply/RleP; exact: cov_diag_ge0.
Qed.
Print Assumptions C89_historical.
(** the bars of the latest ratings are the variances *)
Theorem C89_exact n (L : 'M[R]_n) i :
  latest_error_bar L i = cov L i i /\
  (is_std (cov L) i (latest_error_bar L i) <-> cov L i i = 0 \/ cov L i i = 1).
Proof.
have c0 := cov_diag_ge0 L i.
have e : latest_error_bar L i = cov L i i.
  rewrite /latest_error_bar /latest_std -/(cov L); apply: sqrt_pow2; exact/RleP.
split=> //; rewrite e /is_std; split=> [[_ h]|[z|z]].
- have /eqP : cov L i i * (cov L i i - 1) = 0 by rewrite mulrBr mulr1 h subrr.
  by rewrite mulf_eq0 subr_eq0 => /orP [/eqP ->|/eqP ->]; [left|right].
- by rewrite z mulr0.
- by rewrite z ler01 mulr1.
Qed.
Print Assumptions C89_exact.
(** the documented prior, standard deviation sqrt(1/2) *)
Theorem C89_refuted : exists n (L : 'M[R]_n) i, cov L = (sqrt (2%:R^-1) * sqrt (2%:R^-1))%:M /\
  ~ is_std (cov L) i (latest_error_bar L i).
Proof.
have h0 : 0 <= 2%:R^-1 :> R by rewrite invr_ge0 ler0n.
have s : sqrt (2%:R^-1) * sqrt (2%:R^-1) = 2%:R^-1 by apply: sqrt_sqrt; exact/RleP.
have c : cov ((sqrt (2%:R^-1))%:M : 'M[R]_1) = (sqrt (2%:R^-1) * sqrt (2%:R^-1))%:M.
  by rewrite /cov tr_scalar_mx -scalar_mxM.
exists 1%N, ((sqrt (2%:R^-1))%:M), ord0; split=> // h; have [_ [/(_ h)]] := C89_exact ((sqrt (2%:R^-1))%:M : 'M[R]_1) ord0.
rewrite c s !mxE /= mulr1n => -[/eqP|/eqP] //.
  by rewrite invr_eq0 pnatr_eq0.
by rewrite invr_eq1 (eqr_nat _ 2 1).
Qed.
Print Assumptions C89_refuted.
