(** C62, C63: potentials that are flat in some direction, and unnormalised potentials, in the Taylor filters. *)
From Coq Require Import Reals Lra FunctionalExtensionality.
From mathcomp Require Import all_ssreflect all_algebra.
From Verif Require Import RStruct MxBase ZmodTac KalmanModel LinalgModel LinearizeModel LinKalmanModel GaussSpec KalmanSpec
  LinalgSpec LinearizeSpec LinSpec PotSpec MvnProofs MvnProofs2 CholUpdate KalmanProofs BayesProofs InvSqrtProofs InvSqrtSing
  LinearizeProofs LinearizeProofs2 LinearizeProofs3 TriaExist SvdExist PropMvn PropKalman PropLinearize LinRuns LinObs
  PropLinObs PotProofs Sigmoid Trajectory.
Set Implicit Arguments.
Unset Strict Implicit.
Unset Printing Implicit Defensive.
Local Open Scope ring_scope.
Import GRing.Theory Num.Theory Order.Theory.

(** ** C62 *)
(** a direction [v] in which the potential is flat at the linearisation point, within the coordinates on which
    it depends, comes out of the update as known exactly *)
Theorem C62_flat_direction_certain tria svd grad jacobian n (f : 'cV[option R]_n -> option R) (point g : 'cV[R]_n)
    (J : 'M[R]_n) (rtol : R) :
  tria_ok tria -> grad_ok grad -> jacobian_ok jacobian -> 0 <= rtol ->
  second_order f point g (- J) -> pos_semidef J -> clear_rank rtol J ->
  decomposes svd (zero_padded n (obs_block (touched J) J)) ->
  let p := process_observation tria jacobian svd grad rtol true (Potential f (map_mx Some point)) in
  exists H d chol_R,
    real_obs_params (op_y p) (op_H p, op_d p, op_chol_R p) = Some (H, d, chol_R) /\
    forall (mp : 'cV[R]_n) (chol_P : 'M[R]_n) (ell : R) m' L' ell', chol_P \in unitmx ->
      update tria mp chol_P H d chol_R (op_y p) ell = (m', L', ell') ->
      forall v : 'cV[R]_n, J *m v = 0 -> (forall i, row i J = 0 -> v i ord0 = 0) ->
      cov L' *m v = 0 /\ v^T *m m' = v^T *m point.
Proof.
move=> ok gok jok r0 fd psdJ rank dec.
have [L [Lo [E [p1 p2 p3] h1 h2]]] := taylor_sing ok gok jok r0 fd psdJ rank dec.
pose z := touched J; set X := Lo *m Lo^T in E p1 p2 p3; rewrite -/z in E p1 p2 p3.
change (forall i j, z i ord0 = None \/ z j ord0 = None -> L i j = (if i == j then None else Some 0)) in h2.
change (forall a b : 'I_(size (observed z)), L (sel a) (sel b) = Some (Lo a b)) in h1.
rewrite /process_observation E /=; set y := \col_i _.
have mk i : isnan (L i i) = ~~ isSome (z i ord0).
  case Ez: (z i ord0) => [v|] /=; last by rewrite h2 ?eqxx //; left.
  by have [|a <-] := @sel_exists _ z i; rewrite ?Ez // h1.
have yz : y = z.
  by apply/colP => i; rewrite mxE andbT mk touchedE negbK [RHS]mxE.
rewrite yz !nan_free_rows_some nan_free_rowsE; last first.
  move=> i j zi; have [|a <-] := @sel_exists _ z i; first by case: (z i ord0) zi.
  case Ej: (z j ord0) => [w|]; first by have [|b <-] := @sel_exists _ z j; rewrite ?Ej // h1.
  by rewrite h2; [case: eqP => // e; have := sel_isSome a; rewrite e Ej|right].
do 3 eexists; split; first by reflexivity.
move=> mp chol_P ell m' L' ell' uP Eu v Jv sv.
have CX : obs_block z (cov (map_mx value L)) = X by rewrite (cov_masked h1 h2).
have [P PE] : exists P, P = cov chol_P by eexists.
pose S := Sel z.
have Ho : obs_rows z (- 1%:M) = - S by apply/matrixP => a j; rewrite !mxE.
have v0 : obs_values z = 0.
  by apply/matrixP => a j; rewrite !mxE; case: eqP.
have pP : pd (S *m P *m S^T).
  have [sP qP] : pd P by rewrite PE; apply: gram_pd; rewrite gram_unit.
  split; first by rewrite !trmx_mul trmxK sP mulmxA.
  move=> w w0; have -> : qf (S *m P *m S^T) w = qf P (S^T *m w) by rewrite /qf trmx_mul trmxK !mulmxA.
  apply: qP; by apply: contra w0 => /eqP e; apply/eqP; rewrite -[w]mul1mx -(SelSelT z) -mulmxA e mulmx0.
set Si := S *m P *m S^T + X.
have uS : Si \in unitmx by apply: pd_unit; apply: pdD => //; exact: gram_psd.
have iE : innovation_cov P (obs_rows z (- 1%:M)) (obs_block z (cov (map_mx value L))) = Si.
  by rewrite /innovation_cov CX Ho trN mulmxN !mulNmx opprK.
have [|-> tL -> _] := update_nan ok _ Eu; first by rewrite -PE iE.
rewrite -PE.
have gE : kalman_gain P (obs_rows z (- 1%:M)) (obs_block z (cov (map_mx value L))) = - (P *m S^T *m invmx Si).
  by rewrite /kalman_gain iE Ho trN mulmxN mulNmx.
have [vo voE] : exists vo, vo = S *m v by eexists.
have vE : v = S^T *m vo.
  apply/colP => i; case Ei: (z i ord0) => [w|].
    by have [|a <-] := @sel_exists _ z i; rewrite ?Ei // SelT_mul voE Sel_mul mxE.
  rewrite SelT_missing // sv //; apply/eqP; have := touchedE J i; rewrite -/z Ei /=.
  by move/esym/negbFE.
have Jo0 : obs_block z J *m vo = 0.
  by rewrite (Jo_conj psdJ) -/z -/S -!mulmxA -vE Jv mulmx0.
have X0 : X *m vo = 0 by rewrite -p2 -(mulmxA X) -p3 -!mulmxA Jo0 !mulmx0.
have SP : S *m P *m v = Si *m vo by rewrite {1}vE mulmxDl X0 addr0 !mulmxA.
split.
  rewrite /cond_cov gE Ho mulNmx mulmxN opprK mulmxBl -!mulmxA (mulmxA S P v) SP (mulmxA (invmx Si)) mulVmx //.
  by rewrite mul1mx -vE subrr.
have symP : P^T = P by rewrite PE; exact: covT.
have symS : Si^T = Si by rewrite linearD /= !trmx_mul !trmxK symP !mulmxA.
have vK : v^T *m (P *m S^T *m invmx Si) = vo^T.
  apply: trmx_inj; rewrite trmxK !trmx_mul !trmxK symP trmx_inv symS -!mulmxA (mulmxA S P v) SP mulmxA mulVmx //.
  by rewrite mul1mx.
rewrite /cond_mean gE v0 Ho mulmxDr mulNmx mulmxN mulmxA vK sub0r mulmxN opprK -/(obs_rows z _) -Sel_mul -/S mulNmx.
have vS : v^T = vo^T *m S by rewrite vE trmx_mul trmxK.
have vX : vo^T *m X = 0 by apply: trmx_inj; rewrite trmx_mul trmxK trmx0 [X^T]trmx_mul trmxK.
have -> : S *m (point + S^T *m X *m S *m g) = S *m point + X *m S *m g.
  by rewrite mulmxDr -!(mulmxA S^T) (mulmxA S S^T) SelSelT mul1mx.
clearbody X; rewrite !mulmxDr mulmxN !(mulmxA vo^T) vX !mul0mx addr0 -vS; zmod.
Qed.
Print Assumptions C62_flat_direction_certain.

(** the exact posterior: positive variance in every direction *)
Lemma quad_split n (A : 'M[R]_n) (e a : 'cV[R]_n) : A^T = A ->
  ((e + a)^T *m A *m (e + a)) ord0 ord0
  = (e^T *m A *m e) ord0 ord0 + 2%:R * (e^T *m (A *m a)) ord0 ord0 + (a^T *m A *m a) ord0 ord0.
Proof.
move=> sA; have sc (x : 'M[R]_1) : x^T = x by apply/matrixP => i j; rewrite !mxE !ord1.
have -> : (e + a)^T *m A *m (e + a) = e^T *m A *m e + e^T *m (A *m a) + e^T *m (A *m a) + a^T *m A *m a.
  have -> : (e + a)^T = e^T + a^T by rewrite linearD.
  rewrite !mulmxDl !mulmxDr mulmxA -!addrA; congr (_ + (_ + _)); congr (_ + _).
  by rewrite -[LHS]sc !trmx_mul trmxK sA mulmxA.
have mE (P Q S T : 'M[R]_1) : (P + Q + S + T) ord0 ord0 = P ord0 ord0 + Q ord0 ord0 + S ord0 ord0 + T ord0 ord0.
  by rewrite !mxE.
by rewrite mE -[2%:R]/(1 + 1) mulrDl !mul1r addrA.
Qed.
Theorem C62_exact_posterior n (f : 'cV[option R]_n -> option R) (m mp : 'cV[R]_n) (J chol_P : 'M[R]_n) (c : R) :
  pos_semidef J -> chol_P \in unitmx ->
  (forall x, f (map_mx Some x) = Some (c - 2%:R^-1 * ((x - m)^T *m J *m (x - m)) ord0 ord0)) ->
  let P := cov chol_P in let P' := invmx (invmx P + J) in
  exists m' logZ, posterior mp P f m' P' logZ /\ forall v : 'cV[R]_n, v != 0 -> 0 < (v^T *m P' *m v) ord0 ord0.
Proof.
move=> psdJ uP fE P P'; have pP : pd P by apply: gram_pd; rewrite gram_unit.
have pL : pd (invmx P + J) by apply: pdD => //; exact: pd_inv.
have pP' : pos_def P' by exact: pd_inv.
have uL := pd_unit pL; have [sA _] := pd_inv pP; have [sJ _] := psdJ.
pose mz := P' *m (invmx P *m mp + J *m m).
pose k1 : R := ((mz - mp)^T *m invmx P *m (mz - mp)) ord0 ord0.
pose k2 : R := ((mz - m)^T *m J *m (mz - m)) ord0 ord0.
have cross : invmx P *m (mz - mp) + J *m (mz - m) = 0.
  have e : (invmx P + J) *m mz = invmx P *m mp + J *m m by rewrite /mz mulmxA mulmxV // mul1mx.
  by rewrite !mulmxBr addrACA -opprD -e mulmxDl subrr.
exists mz, (c - 2%:R^-1 * k1 - 2%:R^-1 * k2 - 2%:R^-1 * ln (\det P) + 2%:R^-1 * ln (\det P')).
split; last by case: pP'.
split=> // x v; rewrite fE => -[<-]; rewrite /gauss /mahalanobis /P' invmxK -/P'.
have [e eE] : exists e, e = x - mz by eexists.
have -> : x - mp = e + (mz - mp) by rewrite eE; zmod.
have -> : x - m = e + (mz - m) by rewrite eE; zmod.
rewrite -eE (quad_split e (mz - mp) sA) (quad_split e (mz - m) sJ) -/k1 -/k2.
have eL : (e^T *m (invmx P + J) *m e) ord0 ord0 = (e^T *m invmx P *m e) ord0 ord0 + (e^T *m J *m e) ord0 ord0.
  by rewrite mulmxDr mulmxDl mxE.
have e0 : (e^T *m (invmx P *m (mz - mp))) ord0 ord0 + (e^T *m (J *m (mz - m))) ord0 ord0 = 0.
  have mD (A B : 'M[R]_1) : A ord0 ord0 + B ord0 ord0 = (A + B) ord0 ord0 by rewrite mxE.
  by rewrite mD -(mulmxDr e^T) cross mulmx0 mxE.
rewrite eL; move: e0.
move: ((e^T *m (invmx P *m (mz - mp))) ord0 ord0) ((e^T *m (J *m (mz - m))) ord0 ord0) => t1 t2.
move: ((e^T *m invmx P *m e) ord0 ord0) ((e^T *m J *m e) ord0 ord0) k1 k2 => a b l1 l2.
move: (n%:R / 2%:R * ln (2%:R * PI)) (ln (\det P)) (ln (\det P')) => w d1 d2.
rewrite !RinvE ?pnatr_eq0 // !RnatE /=; toR => h; have -> : t1 = Ropp t2 by lra.
field.
Qed.
Print Assumptions C62_exact_posterior.

(** potentials of a linear functional of the state, as in docs/quickstart.md (difference of two skills) *)
Lemma chain n (f : 'cV[option R]_n -> option R) x (a : 'cV[R]_n) (phi : R -> R) (t d : R) :
  (forall h, f (moved x h) = Some (phi (t + (a^T *m h) ord0 ord0))) -> derivable_pt_lim phi t d -> has_grad f x (d *: a).
Proof.
move=> fE dp; exists (phi t); split.
  by rewrite -[x]moved0 fE mulmx0 mxE addr0.
move=> eps e0; pose C := \sum_i `|a i ord0| + 1.
have C0 : 0 < C by rewrite ltr_paddl // sumr_ge0 // => i _.
have eC : Rlt 0 (eps / C) by apply/RltP; rewrite divr_gt0.
have [[delta d0] hd] := dp _ eC; move: d0 hd => /= /RltP d0 hd.
exists (delta / 2%:R / C); split; first by rewrite !divr_gt0 ?ltr0n.
move=> h hh; eexists; split; first exact: fE.
set s := (a^T *m h) ord0 ord0.
have sb : `|s| <= C * maxnorm h.
  rewrite /s mxE; apply: le_trans (ler_norm_sum _ _ _) _.
  apply: le_trans (_ : \sum_i `|a i ord0| * maxnorm h <= _).
    by apply: ler_sum => i _; rewrite mxE normrM ler_wpmul2l // le_maxnorm.
  by rewrite -mulr_suml ler_wpmul2r ?maxnorm_ge0 // ler_addl ler01.
have -> : \sum_i (d *: a) i ord0 * h i ord0 = d * s.
  by rewrite /s mxE mulr_sumr; apply: eq_bigr => i _; rewrite !mxE mulrA.
have [s0|s0] := eqVneq s 0.
  by rewrite s0 addr0 subrr mulr0 subr0 normr0 mulr_ge0 ?maxnorm_ge0 // ltW.
have sd : Rlt (Rabs s) delta.
  apply/RltP; apply: le_lt_trans sb _; apply: le_lt_trans (_ : delta / 2%:R < _).
    by rewrite -ler_pdivl_mull // mulrC.
  by rewrite ltr_pdivr_mulr ?ltr0n // -[X in X < _]mulr1 ltr_pmul2l // ltr1n.
have q1 := hd s (elimN eqP s0) sd; set q := (Rminus _ d) in q1.
have -> : phi (t + s) - phi t - d * s = q * s.
  have sn : s <> 0%R by apply/eqP.
  by rewrite /q; toR; field.
rewrite normrM; apply: le_trans (_ : eps / C * (C * maxnorm h) <= _).
  by apply: ler_pmul => //; apply/ltW/RltP.
by rewrite mulrA divfK // gt_eqF.
Qed.
Definition of_functional n (a : 'cV[R]_n) (phi : R -> R) (f : 'cV[option R]_n -> option R) : Prop :=
  forall x, f (map_mx Some x) = Some (phi ((a^T *m x) ord0 ord0)).
Lemma functional_second_order n (a : 'cV[R]_n) (phi phi1 : R -> R) f (x : 'cV[R]_n) (k : R) :
  of_functional a phi f -> (forall t, derivable_pt_lim phi t (phi1 t)) ->
  derivable_pt_lim phi1 ((a^T *m x) ord0 ord0) (- k) ->
  second_order f x (phi1 ((a^T *m x) ord0 ord0) *: a) (- (k *: (a *m a^T))).
Proof.
move=> fE d1 d2; exists (fun z => phi1 ((a^T *m z) ord0 ord0) *: a); split=> // [z|i].
  apply: (@chain _ _ _ _ phi ((a^T *m z) ord0 ord0)) => // h.
  by rewrite moved_some fE mulmxDr mxE.
have -> : (row i (- (k *: (a *m a^T))))^T = (- k * a i ord0) *: a.
  by apply/colP => j; rewrite !mxE big_ord1 !mxE mulNr mulNr mulrA.
apply: (@chain _ _ _ _ (fun t => phi1 t * a i ord0) ((a^T *m x) ord0 ord0)).
  by move=> h; rewrite moved_some value_some mulmxDr !mxE.
have -> : (fun t => phi1 t * a i ord0) = mult_real_fct (a i ord0) phi1.
  by apply: functional_extensionality => t; rewrite /mult_real_fct -RmultE mulrC.
by rewrite mulrC; exact: derivable_pt_lim_scal.
Qed.

Lemma outer_psd n (a : 'cV[R]_n) (k : R) : 0 <= k -> pos_semidef (k *: (a *m a^T)).
Proof.
move=> k0; have [s q] := gram_psd a; split; first by rewrite linearZ /= s.
by move=> v; rewrite -scalemxAr -scalemxAl mxE mulr_ge0 //; exact: q.
Qed.
Lemma outer_rank n (a : 'cV[R]_n) (k rtol : R) : 0 < k -> 0 <= rtol -> rtol < 1 -> clear_rank rtol (k *: (a *m a^T)).
Proof.
move=> k0 r0 r1.
have eig w : eigenvalue_of (k *: (a *m a^T)) w -> w != 0 -> w = k * (a^T *m a) ord0 ord0.
  move=> [v [v0 e]] w0; rewrite -scalemxAl -mulmxA [a^T *m v]mx11_scalar mul_mx_scalar scalerA in e.
  set t := (a^T *m v) ord0 ord0 in e.
  have t0 : t != 0.
    apply/eqP => z; move: e; rewrite z mulr0 scale0r => /esym/eqP; rewrite scaler_eq0 (negbTE w0) (negbTE v0) //.
  have := congr1 (fun m => (a^T *m m) ord0 ord0) e; rewrite -!scalemxAr ![(_ *: _ : 'M_1) ord0 ord0]mxE -/t.
  by move=> h; apply: (mulIf t0); rewrite -h mulrAC.
move=> w w' /eig h /eig h' w0 w0'; have e := h w0; have e' := h' w0'; rewrite e' e; rewrite e in w0.
have q0 : 0 < k * (a^T *m a) ord0 ord0.
  rewrite lt_def w0 mulr_ge0 ?(ltW k0) // mxE sumr_ge0 // => i _; by rewrite mxE -expr2 sqr_ge0.
by rewrite -[X in _ < X]mul1r ltr_pmul2r.
Qed.
(** a log-concave potential of [a^T x]: whatever direction [v] orthogonal to [a] is taken among the coordinates
    that occur in [a], the update claims to know [v^T x] exactly *)
Theorem C62_linear_functional tria svd grad jacobian n (a : 'cV[R]_n) (phi phi1 : R -> R) (f : 'cV[option R]_n -> option R)
    (point : 'cV[R]_n) (k rtol : R) :
  tria_ok tria -> grad_ok grad -> jacobian_ok jacobian -> (forall m (A : 'M[R]_m), A^T = A -> decomposes svd A) ->
  0 <= rtol -> rtol < 1 ->
  of_functional a phi f -> (forall t, derivable_pt_lim phi t (phi1 t)) -> 0 < k ->
  derivable_pt_lim phi1 ((a^T *m point) ord0 ord0) (- k) ->
  let p := process_observation tria jacobian svd grad rtol true (Potential f (map_mx Some point)) in
  exists H d chol_R,
    real_obs_params (op_y p) (op_H p, op_d p, op_chol_R p) = Some (H, d, chol_R) /\
    forall (mp : 'cV[R]_n) (chol_P : 'M[R]_n) (ell : R) m' L' ell', chol_P \in unitmx ->
      update tria mp chol_P H d chol_R (op_y p) ell = (m', L', ell') ->
      forall v : 'cV[R]_n, a^T *m v = 0 -> (forall i, a i ord0 = 0 -> v i ord0 = 0) ->
      cov L' *m v = 0 /\ v^T *m m' = v^T *m point.
Proof.
move=> ok gok jok sok r0 r1 fE d1 k0 d2; have k1 := ltW k0.
have so := functional_second_order fE d1 d2; set J := k *: (a *m a^T) in so.
have dec : decomposes svd (zero_padded n (obs_block (touched J) J)).
  apply/sok/zero_padded_sym/matrixP => i j; have [s _] := outer_psd a k1.
  have sym q r : J q r = J r q by rewrite /J -[in LHS]s [LHS]mxE.
  by rewrite [LHS]mxE [LHS]mxE [RHS]mxE sym.
have [H [d [chol_R [E h]]]] := C62_flat_direction_certain ok gok jok r0 so (outer_psd a k1) (outer_rank k0 r0 r1) dec.
exists H, d, chol_R; split=> // mp chol_P ell m' L' ell' uP Eu v av sv; apply: (h _ _ _ _ _ _ uP Eu).
  by rewrite /J -scalemxAl -mulmxA av mulmx0 scaler0.
move=> i ri; apply: sv; apply/eqP; rewrite -sqrf_eq0 expr2.
have : J i i = 0 by move/rowP/(_ i): ri; rewrite !mxE.
rewrite !mxE big_ord1 mxE => h0; apply/eqP; apply: (mulfI (x := k)); first by rewrite gt_eqF.
by rewrite mulr0.
Qed.
Print Assumptions C62_linear_functional.

(** ** the refutation: x1 - x2 is observed to be 0 with unit noise, prior N(0, I) *)
Definition diff_a : 'cV[R]_2 := \col_i (if i == ord0 then 1 else - 1).
Definition sum_v : 'cV[R]_2 := \col_i 1.
Definition diff_f (z : 'cV[option R]_2) : option R := Some (half_sq ((diff_a^T *m map_mx (odflt 0) z) ord0 ord0)).
Lemma diff_of_functional : of_functional diff_a half_sq diff_f.
Proof. by move=> x; rewrite /diff_f value_some. Qed.
Lemma half_sqE (t : R) : half_sq t = - (2%:R^-1 * (t * t)).
Proof. by rewrite /half_sq RinvE ?pnatr_eq0 // RnatE /=; toR; field. Qed.
Theorem C62_refuted : exists (f : 'cV[option R]_2 -> option R) (mp : 'cV[R]_2) (chol_P : 'M[R]_2) m' P' logZ (v : 'cV[R]_2),
  [/\ chol_P \in unitmx, posterior mp (cov chol_P) f m' P' logZ, 0 < (v^T *m P' *m v) ord0 ord0 &
   forall point : 'cV[R]_2,
   let p := process_observation some_tria some_jacobian (@some_svd) some_grad 0 true (Potential f (map_mx Some point)) in
   exists H d chol_R, real_obs_params (op_y p) (op_H p, op_d p, op_chol_R p) = Some (H, d, chol_R) /\
   forall ell m2 L2 ell2, update some_tria mp chol_P H d chol_R (op_y p) ell = (m2, L2, ell2) -> cov L2 *m v = 0].
Proof.
have fE x : diff_f (map_mx Some x) = Some (0 - 2%:R^-1 * ((x - 0)^T *m (1 *: (diff_a *m diff_a^T)) *m (x - 0)) ord0 ord0).
  rewrite diff_of_functional subr0 scale1r add0r half_sqE; congr (Some (- (_ * _))).
  have -> : x^T *m (diff_a *m diff_a^T) *m x = (diff_a^T *m x)^T *m (diff_a^T *m x) by rewrite trmx_mul trmxK !mulmxA.
  by rewrite [RHS]mxE big_ord1 [X in _ = X * _]mxE.
have u1 : (1%:M : 'M[R]_2) \in unitmx by exact: unitmx1.
have [m' [logZ [po pv]]] := C62_exact_posterior 0 (outer_psd diff_a ler01) u1 fE.
have vn : sum_v != 0 by apply/eqP => /colP/(_ ord0); rewrite !mxE => /eqP; rewrite oner_eq0.
exists diff_f, 0, 1%:M, m', (invmx (invmx (cov 1%:M) + 1 *: (diff_a *m diff_a^T))), logZ, sum_v; split=> //.
  exact: pv.
move=> point.
have [H [d [chol_R [E h]]]] := @C62_linear_functional some_tria (@some_svd) some_grad some_jacobian 2 diff_a _ _ diff_f point 1 0
  (@some_tria_ok) some_grad_ok some_jacobian_ok (@some_svd_ok) (lexx _) ltr01 diff_of_functional half_sq_der ltr01 (opp_der _).
exists H, d, chol_R; split=> // ell m2 L2 ell2 Eu.
have [|i|-> //] := h _ _ _ _ _ _ u1 Eu sum_v.
  by apply/matrixP => i j; rewrite !mxE !big_ord_recl big_ord0 !mxE /= !mulr1 addr0 subrr.
by rewrite !mxE; case: ifP => _ /eqP; rewrite ?oppr_eq0 oner_eq0.
Qed.
Print Assumptions C62_refuted.

(** docs/quickstart.md:210-227, a home win: log sigmoid(x_home - x_away - epsilon). After the update the sum of the two
    skills has variance zero. *)
Theorem C62_quickstart tria svd grad jacobian n (home away : 'I_n) (eps : R) (f : 'cV[option R]_n -> option R)
    (point : 'cV[R]_n) (rtol : R) :
  tria_ok tria -> grad_ok grad -> jacobian_ok jacobian -> (forall m (A : 'M[R]_m), A^T = A -> decomposes svd A) ->
  0 <= rtol -> rtol < 1 -> home != away ->
  (forall x : 'cV[R]_n, f (map_mx Some x) = Some (log_sigmoid eps (x home ord0 - x away ord0))) ->
  let p := process_observation tria jacobian svd grad rtol true (Potential f (map_mx Some point)) in
  exists H d chol_R,
    real_obs_params (op_y p) (op_H p, op_d p, op_chol_R p) = Some (H, d, chol_R) /\
    forall (mp : 'cV[R]_n) (chol_P : 'M[R]_n) (ell : R) m' L' ell', chol_P \in unitmx ->
      update tria mp chol_P H d chol_R (op_y p) ell = (m', L', ell') ->
      let C := cov L' in
      C home home + C home away + C away home + C away away = 0 /\
      m' home ord0 + m' away ord0 = point home ord0 + point away ord0.
Proof.
move=> ok gok jok sok r0 r1 ha fE.
pose a : 'cV[R]_n := delta_mx home ord0 - delta_mx away ord0.
have aE (x : 'cV[R]_n) : (a^T *m x) ord0 ord0 = x home ord0 - x away ord0.
  by rewrite /a linearB /= !trmx_delta mulmxBl -!rowE !mxE.
have fa : of_functional a (log_sigmoid eps) f by move=> x; rewrite fE aE.
have k0 : 0 < log_sigmoid2 eps ((a^T *m point) ord0 ord0) by apply/RltP; exact: log_sigmoid2_pos.
have [H [d [chol_R [E h]]]] := C62_linear_functional ok gok jok sok r0 r1 fa (log_sigmoid_der eps) k0 (log_sigmoid1_der eps _).
exists H, d, chol_R; split=> // mp chol_P ell m' L' ell' uP Eu C.
pose v : 'cV[R]_n := delta_mx home ord0 + delta_mx away ord0.
have [||cv mv] := h _ _ _ _ _ _ uP Eu v.
- apply/matrixP => i j; rewrite (ord1 i) (ord1 j) aE !mxE !eqxx (negbTE ha) eq_sym (negbTE ha) /=.
  by rewrite addr0 add0r subrr.
- move=> i; rewrite !mxE !andbT; case: (eqVneq i home) => [->|_]; first by rewrite (negbTE ha) subr0 => /eqP; rewrite oner_eq0.
  by case: (i == away) => /=; rewrite sub0r ?addr0 // => /eqP; rewrite oppr_eq0 oner_eq0.
have vE (x : 'cV[R]_n) : (v^T *m x) ord0 ord0 = x home ord0 + x away ord0.
  by rewrite /v linearD /= !trmx_delta mulmxDl -!rowE !mxE.
split; last by rewrite -!vE mv.
have cE i : C i home + C i away = 0.
  by have := congr1 (fun x : 'cV[R]_n => x i ord0) cv; rewrite /v mulmxDr -!colE !mxE.
by rewrite -addrA !cE addr0.
Qed.
Print Assumptions C62_quickstart.

(** ** C63: the evidence reported for a potential *)
(** adding a constant to a log potential changes nothing *)
Theorem C63_constant_ignored tria svd grad jacobian n (f : 'cV[option R]_n -> option R) (point g : 'cV[R]_n)
    (K : 'M[R]_n) (c rtol : R) (ignore : bool) :
  grad_ok grad -> jacobian_ok jacobian -> second_order f point g K ->
  process_observation tria jacobian svd grad rtol ignore (Potential (fun z => omap (+%R c) (f z)) (map_mx Some point))
  = process_observation tria jacobian svd grad rtol ignore (Potential f (map_mx Some point)).
Proof.
move=> gok jok so.
have so' : second_order (fun z => omap (+%R c) (f z)) point g K.
  have [G [e h1 h2]] := so; exists G; split=> // z; have [v [ev hv]] := h1 z.
  exists (c + v); split; first by rewrite ev.
  move=> eps /hv [delta [d0 hd]]; exists delta; split=> // h /hd [w [ew hw]]; exists (c + w); split; first by rewrite ew.
  by rewrite (_ : c + w - (c + v) = w - v) //; zmod.
have KE : K = - (- K) by rewrite opprK.
rewrite /process_observation /linearize_taylor; rewrite KE in so so'.
by rewrite (second_grad gok so) (second_grad gok so') (second_hess gok jok so) (second_hess gok jok so').
Qed.
Print Assumptions C63_constant_ignored.
(** how far the reported evidence is from the evidence of the potential that was given *)
Lemma block_pd n (y : 'cV[option R]_n) (Rn : 'M[R]_n) : pos_def Rn -> pos_def (obs_block y Rn).
Proof.
move=> pR; have [L [_ LL]] := chol_exists (pd_psd pR).
have := block_unit y pR; rewrite -LL obs_block_gram; exact: gram_pd.
Qed.
Theorem C63_evidence_offset tria svd grad jacobian n (f : 'cV[option R]_n -> option R) (m : 'cV[R]_n) (Rn : 'M[R]_n)
    (rtol : R) (ignore : bool) (point : 'cV[R]_n) (peak : R) :
  tria_ok tria -> grad_ok grad -> jacobian_ok jacobian -> 0 <= rtol ->
  gaussian_potential f m Rn -> recoverable svd rtol Rn -> f (map_mx Some m) = Some peak ->
  let p := process_observation tria jacobian svd grad rtol ignore (Potential f (map_mx Some point)) in
  exists H d chol_R,
    real_obs_params (op_y p) (op_H p, op_d p, op_chol_R p) = Some (H, d, chol_R) /\
    forall (mp : 'cV[R]_n) (chol_P : 'M[R]_n) (ell : R) m' L' ell', chol_P \in unitmx ->
      update tria mp chol_P H d chol_R (op_y p) ell = (m', L', ell') ->
      posterior mp (cov chol_P) f m' (cov L') ((ell' - ell) + (peak - gauss m m Rn)).
Proof.
move=> ok gok jok r0 fE rc fm p; have [pR _ _] := rc; have [c fc] := fE.
have [H [d [X [E h]]]] := C48_pseudo_observation ignore point ok gok jok r0 fE rc.
have [H2 [d2 [X2 [E2 h2]]]] := update_acts ok (acts_potential ok gok jok r0 ignore point fE rc).
exists H, d, X; split=> // mp chol_P ell m' L' ell' uP Eu; split.
  move: E2; rewrite E => -[eH ed eX]; rewrite -eH -ed -eX in h2; have [_ _ -> _] := h2 _ _ _ _ _ _ Eu.
  apply: cond_pd; first by apply: gram_pd; rewrite gram_unit.
  exact: block_pd.
move=> x v fx.
rewrite addrAC -(h _ _ _ _ _ _ x uP Eu) -addrA; congr (_ + _).
move: fm fx; rewrite !fc => -[<-] [<-]; rewrite /gauss subrr.
have -> : mahalanobis Rn 0 = 0 by rewrite /mahalanobis mulmx0 mxE.
rewrite !mulr0 mulNr; move: (2%:R^-1 * mahalanobis _ _) (n%:R / _ * _) (2%:R^-1 * ln _) => q1 q2 q3; zmod.
Qed.
Print Assumptions C63_evidence_offset.
(** f(x) = - x^2 / 2 on one coordinate, prior N(0, 1): the reported evidence differs by log(2 pi) / 2 *)
Definition bowl (z : 'cV[option R]_1) : option R := Some (0 - 2%:R^-1 * mahalanobis 1%:M (map_mx (odflt 0) z - 0)).
Lemma bowl_ok : gaussian_potential bowl 0 1%:M.
Proof. by exists 0 => x; rewrite /bowl value_some. Qed.
Lemma scalar_conditioned n (rtol : R) : rtol < 1 -> well_conditioned rtol (1%:M : 'M[R]_n).
Proof.
move=> r1; have eig w : eigenvalue_of (1%:M : 'M[R]_n) w -> w = 1.
  move=> [v [v0]]; rewrite mul1mx => /eqP; rewrite -subr_eq0 -{1}[v]scale1r -scalerBl scaler_eq0 (negbTE v0) orbF subr_eq0.
  by move/eqP.
by move=> w w' /eig -> /eig ->; rewrite mulr1.
Qed.
Theorem C63_refuted : exists (f : 'cV[option R]_1 -> option R) (mp : 'cV[R]_1) (chol_P : 'M[R]_1),
  chol_P \in unitmx /\ forall point,
  let p := process_observation some_tria some_jacobian (@some_svd) some_grad 0 true (Potential f (map_mx Some point)) in
  exists H d chol_R, real_obs_params (op_y p) (op_H p, op_d p, op_chol_R p) = Some (H, d, chol_R) /\
  forall ell m' L' ell', update some_tria mp chol_P H d chol_R (op_y p) ell = (m', L', ell') ->
  exists logZ, posterior mp (cov chol_P) f m' (cov L') logZ /\ ell' - ell = logZ - 2%:R^-1 * ln (2%:R * PI) /\ ell' - ell <> logZ.
Proof.
exists bowl, 0, 1%:M; split; first exact: unitmx1.
move=> point; have rc : recoverable (@some_svd) 0 (1%:M : 'M[R]_1).
  apply: recoverable_some; first exact: pd1.
  by rewrite invmx1; apply: scalar_conditioned; exact: ltr01.
have b0 : bowl (map_mx Some 0) = Some 0.
  by rewrite /bowl value_some subrr /mahalanobis mulmx0 mxE mulr0 subr0.
have [H [d [X [E h]]]] := C63_evidence_offset true point (@some_tria_ok) some_grad_ok some_jacobian_ok (lexx _) bowl_ok rc b0.
exists H, d, X; split=> // ell m' L' ell' Eu; have po := h _ _ _ _ _ _ (unitmx1 _ _) Eu.
eexists; split; first exact: po.
have g0 : gauss (0 : 'cV[R]_1) 0 1%:M = - (2%:R^-1 * ln (2%:R * PI)).
  rewrite /gauss subrr /mahalanobis mulmx0 mxE mulr0 det1 ln_1 mulr0 subr0 sub0r mul1r //.
have l0 : 0 < 2%:R^-1 * ln (2%:R * PI).
  apply: mulr_gt0; first by rewrite invr_gt0 ltr0n.
  apply/RltP; rewrite -[X in Rlt X _]ln_1; apply: ln_increasing; first lra.
  by rewrite RnatE /= RmultE; have := PI2_1; lra.
rewrite g0 sub0r opprK; move: l0; set q := 2%:R^-1 * _ => l0.
by split; [zmod|move=> h0; move: l0; rewrite {1}(_ : q = 0) ?ltxx //; move/eqP: h0; rewrite -subr_eq0 opprD addrA subrr sub0r oppr_eq0 => /eqP].
Qed.
Print Assumptions C63_refuted.
