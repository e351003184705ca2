(** C48, C57, C58: what the Taylor filters make of an observation or of a potential. *)
From Coq Require Import Reals Lra.
From mathcomp Require Import all_ssreflect all_algebra.
From Verif Require Import RStruct MxBase ZmodTac KalmanModel LinalgModel LinearizeModel LinKalmanModel GaussSpec KalmanSpec
  LinalgSpec LinearizeSpec LinSpec MvnProofs MvnProofs2 CholUpdate KalmanProofs BayesProofs LinearizeProofs LinearizeProofs2
  LinearizeProofs3 PropMvn PropKalman PropLinearize InvSqrtProofs TriaExist LinRuns LinObs.
Set Implicit Arguments.
Unset Strict Implicit.
Unset Printing Implicit Defensive.
Local Open Scope ring_scope.
Import GRing.Theory Num.Theory Order.Theory.

(** ** C48: the pseudo-observation of a Gaussian potential is the Gaussian potential *)
Theorem C48_pseudo_observation tria svd grad jacobian n (f : 'cV[option R]_n -> option R) (m : 'cV[R]_n) (Rn : 'M[R]_n)
    (rtol : R) (ignore : bool) (point : 'cV[R]_n) :
  tria_ok tria -> grad_ok grad -> jacobian_ok jacobian -> 0 <= rtol ->
  gaussian_potential f m Rn -> recoverable svd rtol Rn ->
  let p := process_observation tria jacobian svd grad rtol ignore (Potential f (map_mx Some point)) in
  exists H d chol_R,
    real_obs_params (op_y p) (op_H p, op_d p, op_chol_R p) = Some (H, d, chol_R) /\
    forall (mp : 'cV[R]_n) (chol_P : 'M[R]_n) (ell : R) m' L' ell' x, chol_P \in unitmx ->
      update tria mp chol_P H d chol_R (op_y p) ell = (m', L', ell') ->
      gauss x mp (cov chol_P) + gauss x m Rn = (ell' - ell) + gauss x m' (cov L').
Proof.
move=> ok gok jok r0 fE rc.
have [L [E t LL]] := C48_taylor_exact ignore point ok gok jok r0 fE rc.
rewrite /process_observation E /= !nan_free_rows_some; exists (- 1%:M), m, L; split=> //.
have -> : \col_i (if isnan ((map_mx Some L) i i) && ignore then None else Some 0) = map_mx Some 0 :> 'cV[option R]_n.
  by apply/matrixP => i j; rewrite !mxE.
have uR : L \in unitmx by rewrite -gram_unit LL; case: rc => pR _ _; exact: (@pd_unit R_realFieldType).
move=> mp chol_P ell m' L' ell' x uP Eu.
rewrite -(C11_update_is_bayes x ok uP uR Eu).
have e : 0 - (- 1%:M *m x + m) = x - m by rewrite mulNmx mul1mx; zmod.
by rewrite /gauss /cov LL e.
Qed.
Print Assumptions C48_pseudo_observation.

(** ** C57, C58 *)
Lemma update_acts tria nx (p : ObservationParams nx) ny (H : 'M[R]_(ny, nx)) d Rn y : tria_ok tria ->
  acts_like p H d Rn y ->
  exists Hr dr chol_R, real_obs_params (op_y p) (op_H p, op_d p, op_chol_R p) = Some (Hr, dr, chol_R) /\
  forall (mp : 'cV[R]_nx) (chol_P : 'M[R]_nx) (ell : R) m' L' ell',
    update tria mp chol_P Hr dr chol_R (op_y p) ell = (m', L', ell') ->
    let P := cov chol_P in
    [/\ m' = cond_mean mp P (obs_rows y H) (obs_rows y d) (obs_block y Rn) (obs_values y), is_trig_mx L',
        cov L' = cond_cov P (obs_rows y H) (obs_block y Rn) &
        ell' = gauss (obs_values y) (obs_rows y H *m mp + obs_rows y d) (innovation_cov P (obs_rows y H) (obs_block y Rn)) + ell].
Proof.
move=> ok [Hr [dr [X [E u st]]]]; exists Hr, dr, X; split=> // mp L ell m' L' ell' Eu P.
have [h1 h2 h3 h4] := update_nan ok (noise_regular L Hr u) Eu.
have := st (Belief mp P ell) 1%:M 0 0; rewrite /kf_step /= /pred_mean /pred_cov /obsH /obsd /obsR /obsy /=.
rewrite trmx1 !mul1mx mulmx1 !addr0 => -[e1 e2 e3]; rewrite h1 h3 h4 -e1 -e2; split=> //.
by rewrite addrC; symmetry; rewrite addrC -e3.
Qed.
(** ... and the density identity *)
Lemma conditioning_is_bayes nx ny (mp x : 'cV[R]_nx) (chol_P : 'M[R]_nx) (H : 'M[R]_(ny, nx)) (d v : 'cV[R]_ny) (Rn : 'M[R]_ny) :
  chol_P \in unitmx -> pos_def Rn ->
  let P := cov chol_P in
  gauss x mp P + gauss v (H *m x + d) Rn
  = gauss v (H *m mp + d) (innovation_cov P H Rn) + gauss x (cond_mean mp P H d Rn v) (cond_cov P H Rn).
Proof.
move=> uP pR P; have [L [t LL]] := chol_exists (pd_psd pR).
have uR : L *m L^T \in unitmx by rewrite LL; exact: (@pd_unit R_realFieldType).
have uS : innovation_cov P H Rn \in unitmx.
  by rewrite -LL; apply: pd_unit; apply: pdDr; [apply: psd_conj; exact: gram_psd|rewrite LL; exact: pR].
have gS : innovation_cov P H Rn = row_mx (H *m chol_P) L *m (row_mx (H *m chol_P) L)^T.
  by rewrite -[RHS]/(cov _) cov_row cov_mul -LL.
have [||||_ ->//] := gauss_bayes mp x d v (covT chol_P) _ uS _ _ _.
- by rewrite -LL; exact: covT.
- exact: det_gram_pos.
- rewrite -LL; exact: (det_pos_gram (@some_tria_ok)).
- by rewrite gS; apply: (det_pos_gram (@some_tria_ok)); rewrite -gS.
Qed.

(** C57: missing entries of y, [ignore_nan_dims=True] *)
Theorem C57_missing_rows tria svd grad jacobian nx ny (f : 'cV[option R]_nx -> 'cV[option R]_ny -> option R)
    (H : 'M[R]_(ny, nx)) (d : 'cV[R]_ny) (Rn : 'M[R]_ny) (y : 'cV[option R]_ny) (rtol : R) (x : 'cV[R]_nx) mat shift L :
  tria_ok tria -> grad_ok grad -> jacobian_ok jacobian -> 0 <= rtol ->
  linear_gaussian_at f H d Rn y -> recoverable_at svd rtol y Rn ->
  linearize_log_density tria svd grad jacobian f (map_mx Some x) y rtol true = (mat, shift, L) ->
  [/\ forall i, y i ord0 <> None -> shift i ord0 = Some (d i ord0) /\ forall j, mat i j = Some (H i j),
      exists Lo : 'M[R]_(size (observed y)),
        [/\ is_trig_mx Lo, Lo *m Lo^T = obs_block y Rn & forall a b, L (sel a) (sel b) = Some (Lo a b)] &
      forall i, y i ord0 = None ->
        [/\ forall j, mat i j = None, shift i ord0 = None, L i i = None &
            forall j, j <> i -> L i j = Some 0 /\ L j i = Some 0]].
Proof.
move=> ok gok jok r0 [c fE] [pR sep dec] E.
have [h1 [h2 [h3 h4]]] := missing_exact ok gok jok pR r0 sep dec fE E; split=> //.
  move=> i yi; have [|a <-] := @sel_exists _ y i; first by case: (y i ord0) yi.
  by rewrite h2; split=> // j; rewrite h1.
move=> i /h4 [e1 e2 e3]; split=> //; first by have [-> _] := e3 i; rewrite eqxx.
by move=> j ne; have [-> ->] := e3 j; case: eqP => // e; case: ne.
Qed.
Print Assumptions C57_missing_rows.
(** ... so that the update is the exact Bayes update with the observed entries *)
Theorem C57_missing_update tria svd grad jacobian nx ny (f : 'cV[option R]_nx -> 'cV[option R]_ny -> option R)
    (H : 'M[R]_(ny, nx)) (d : 'cV[R]_ny) (Rn : 'M[R]_ny) (y : 'cV[option R]_ny) (rtol : R) (point : 'cV[R]_nx) :
  tria_ok tria -> grad_ok grad -> jacobian_ok jacobian -> 0 <= rtol ->
  linear_gaussian_at f H d Rn y -> recoverable_at svd rtol y Rn ->
  let p := process_observation tria jacobian svd grad rtol true (CondDensity f (map_mx Some point) y) in
  exists Hr dr chol_R,
    real_obs_params (op_y p) (op_H p, op_d p, op_chol_R p) = Some (Hr, dr, chol_R) /\
    forall (mp : 'cV[R]_nx) (chol_P : 'M[R]_nx) (ell : R) m' L' ell' x, chol_P \in unitmx ->
      update tria mp chol_P Hr dr chol_R (op_y p) ell = (m', L', ell') ->
      gauss x mp (cov chol_P) + gauss (obs_values y) (obs_rows y (H *m x + d)) (obs_block y Rn)
      = (ell' - ell) + gauss x m' (cov L').
Proof.
move=> ok gok jok r0 fE rc p; have [pR _ _] := rc.
have [Hr [dr [X [E st]]]] := update_acts ok (acts_missing ok gok jok r0 point fE rc).
exists Hr, dr, X; split=> // mp L ell m' L' ell' x uP Eu.
have [-> _ -> ->] := st _ _ _ _ _ _ Eu; rewrite addrK -conditioning_is_bayes //.
congr (_ + gauss _ _ _); by rewrite -!Sel_mul mulmxDr mulmxA.
Qed.
Print Assumptions C57_missing_update.

(** C58: a Gaussian potential on some coordinates only, [ignore_nan_dims=True] *)
Theorem C58_potential_update tria svd grad jacobian n (f : 'cV[option R]_n -> option R) (z : 'cV[option R]_n)
    (Rn : 'M[R]_n) (rtol : R) (point : 'cV[R]_n) :
  tria_ok tria -> grad_ok grad -> jacobian_ok jacobian -> 0 <= rtol ->
  gaussian_potential_at f z Rn -> recoverable_at svd rtol z Rn ->
  let p := process_observation tria jacobian svd grad rtol true (Potential f (map_mx Some point)) in
  exists Hr dr chol_R,
    real_obs_params (op_y p) (op_H p, op_d p, op_chol_R p) = Some (Hr, dr, chol_R) /\
    forall (mp : 'cV[R]_n) (chol_P : 'M[R]_n) (ell : R) m' L' ell' x, chol_P \in unitmx ->
      update tria mp chol_P Hr dr chol_R (op_y p) ell = (m', L', ell') ->
      gauss x mp (cov chol_P) + gauss (obs_rows z x) (obs_values z) (obs_block z Rn)
      = (ell' - ell) + gauss x m' (cov L').
Proof.
move=> ok gok jok r0 fE rc p; have [pR _ _] := rc.
have [Hr [dr [X [E st]]]] := update_acts ok (acts_potential_at ok gok jok r0 point fE rc).
exists Hr, dr, X; split=> // mp L ell m' L' ell' x uP Eu.
have [-> _ -> ->] := st _ _ _ _ _ _ Eu; rewrite addrK -conditioning_is_bayes //.
have e0 : obs_rows z (0 : 'cV[R]_n) = 0 by apply/matrixP => a j; rewrite !mxE.
by congr (_ + _); rewrite e0 addr0 -/(Sel z) Sel_mul /gauss -mahalanobisN opprB.
Qed.
Print Assumptions C58_potential_update.

(** the hypotheses hold for observations and potentials with noise covariance 2 I and any missing entries *)
Lemma obs_block_scalar n (y : 'cV[option R]_n) (c : R) : obs_block y c%:M = c%:M.
Proof. by apply/matrixP => a b; rewrite !mxE (inj_eq (@sel_inj _ _)). Qed.
Lemma recoverable_at_scalar n (y : 'cV[option R]_n) (rtol c : R) : 0 < c -> 0 <= rtol -> rtol < 1 ->
  recoverable_at (@diag_svd) rtol y (c%:M : 'M[R]_n).
Proof.
move=> c0 r0 r1; rewrite /recoverable_at obs_block_scalar.
have [p w _] := @recoverable_scalar (size (observed y)) rtol c c0 r0 r1; split=> //.
rewrite invmx_scalar /decomposes; have ci : 0 <= c^-1 by rewrite invr_ge0 ltW.
set k := size _; set M := zero_padded n _.
have ME i j : M i j = c^-1 *+ ((i == j) && (i < k)%N) by exact: zero_padded_scalar.
split; first by rewrite trmx1 mulmx1.
exists (\row_j M j j); split.
- apply/matrixP => i j; rewrite mul1mx trmx1 mulmx1 [RHS]mxE [X in X *+ _]mxE !ME eqxx /=.
  by case: eqP => [->|_]; rewrite ?mulr1n.
- by move=> j; rewrite [(diag_svd M).2]/= ![(\row_j M j j) _ _]mxE ME ger0_norm // mulrn_wge0.
- move=> i j ij; rewrite ![(\row_j M j j) _ _]mxE !ME !eqxx /=; case: ltnP => jk.
    by rewrite (leq_ltn_trans ij jk).
  by rewrite mulrn_wge0.
Qed.
Definition demo_missing nx ny (H : 'M[R]_(ny, nx)) (d : 'cV[R]_ny) (Rn : 'M[R]_ny)
    (x : 'cV[option R]_nx) (y : 'cV[option R]_ny) : option R :=
  Some (- (2%:R^-1 * mahalanobis (obs_block y Rn) (obs_rows y (map_mx (odflt 0) y - (H *m map_mx (odflt 0) x + d))))).
Lemma observed_moved n (y : 'cV[option R]_n) h : observed (moved y h) = observed y.
Proof. by apply: eq_filter => i; rewrite mxE; case: (y i ord0). Qed.
Lemma demo_missing_ok nx ny (H : 'M[R]_(ny, nx)) d Rn y : linear_gaussian_at (demo_missing H d Rn) H d Rn y.
Proof.
exists 0 => x h; rewrite /demo_missing odflt_some sub0r.
move: (map_mx (odflt 0) (moved y h) - _) => v; by rewrite /obs_block /obs_rows /sel observed_moved.
Qed.
Definition demo_potential n (z : 'cV[option R]_n) (Rn : 'M[R]_n) (x : 'cV[option R]_n) : option R :=
  Some (- (2%:R^-1 * mahalanobis (obs_block z Rn) (obs_rows z (map_mx (odflt 0) x) - obs_values z))).
Lemma demo_potential_ok n (z : 'cV[option R]_n) Rn : gaussian_potential_at (demo_potential z Rn) z Rn.
Proof. by exists 0 => x; rewrite /demo_potential odflt_some sub0r. Qed.
Lemma half_bounds : 0 <= (2%:R^-1 : R) /\ (2%:R^-1 : R) < 1.
Proof. by rewrite invr_ge0 ler0n invf_lt1 ?ltr0n // ltr1n. Qed.
Example C57_case nx ny (H : 'M[R]_(ny, nx)) (d : 'cV[R]_ny) (y : 'cV[option R]_ny) (point : 'cV[R]_nx) :
  let p := process_observation some_tria some_jacobian (@diag_svd) some_grad (2%:R^-1) true
             (CondDensity (demo_missing H d 2%:R%:M) (map_mx Some point) y) in
  exists Hr dr chol_R, real_obs_params (op_y p) (op_H p, op_d p, op_chol_R p) = Some (Hr, dr, chol_R).
Proof.
have [r0 r1] := half_bounds.
have [||Hr [dr [X [E _]]]] := @C57_missing_update some_tria (@diag_svd) some_grad some_jacobian nx ny (demo_missing H d 2%:R%:M)
  H d 2%:R%:M y (2%:R^-1) point (@some_tria_ok) some_grad_ok some_jacobian_ok r0.
- exact: demo_missing_ok.
- by apply: recoverable_at_scalar; rewrite ?ltr0n.
by exists Hr, dr, X.
Qed.
Example C58_case n (z : 'cV[option R]_n) (point : 'cV[R]_n) :
  let p := process_observation some_tria some_jacobian (@diag_svd) some_grad (2%:R^-1) true
             (Potential (demo_potential z 2%:R%:M) (map_mx Some point)) in
  exists Hr dr chol_R, real_obs_params (op_y p) (op_H p, op_d p, op_chol_R p) = Some (Hr, dr, chol_R).
Proof.
have [r0 r1] := half_bounds.
have [||Hr [dr [X [E _]]]] := @C58_potential_update some_tria (@diag_svd) some_grad some_jacobian n (demo_potential z 2%:R%:M)
  z 2%:R%:M (2%:R^-1) point (@some_tria_ok) some_grad_ok some_jacobian_ok r0.
- exact: demo_potential_ok.
- by apply: recoverable_at_scalar; rewrite ?ltr0n.
by exists Hr, dr, X.
Qed.
Example C48_hypotheses_met n (m : 'cV[R]_n) :
  gaussian_potential (fun x => Some (- (2%:R^-1 * mahalanobis 2%:R%:M (map_mx (odflt 0) x - m)))) m 2%:R%:M /\
  recoverable (@diag_svd) (2%:R^-1) (2%:R%:M : 'M[R]_n).
Proof.
have [r0 r1] := half_bounds; split; first by exists 0 => x; rewrite odflt_some sub0r.
by apply: recoverable_scalar; rewrite ?ltr0n.
Qed.
