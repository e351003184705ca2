(** What the Taylor filters make of an observation: a linear-Gaussian observation, possibly with
    missing entries, and a Gaussian potential, possibly on some coordinates only. *)
From Coq Require Import Reals Lra.
From mathcomp Require Import all_ssreflect all_algebra.
From Verif Require Import RStruct MxBase ZmodTac KalmanModel LinalgModel LinearizeModel LinKalmanModel GaussSpec KalmanSpec
  LinalgSpec LinearizeSpec LinSpec LinearizeProofs LinearizeProofs2 LinearizeProofs3 PropMvn PropLinearize InvSqrtProofs.
Set Implicit Arguments.
Unset Strict Implicit.
Unset Printing Implicit Defensive.
Local Open Scope ring_scope.
Import GRing.Theory Num.Theory Order.Theory.

Lemma nan_free_some m n (A : 'M[R]_(m, n)) : nan_free (map_mx Some A) = Some A.
Proof.
rewrite /nan_free; case: forallP => [_|[]]; first by congr Some; apply/matrixP => i j; rewrite !mxE.
by move=> i; apply/forallP => j; rewrite mxE.
Qed.
Lemma nan_free_rows_some m n y (A : 'M[R]_(m, n)) : nan_free_rows y (map_mx Some A) = Some A.
Proof.
rewrite /nan_free_rows; case: forallP => [_|[]]; first by congr Some; apply/matrixP => i j; rewrite !mxE.
by move=> i; apply/forallP => j; rewrite mxE orbT.
Qed.
Lemma nan_free_rowsE m n (y : 'cV[option R]_m) (A : 'M[option R]_(m, n)) :
  (forall i j, y i ord0 <> None -> A i j <> None) -> nan_free_rows y A = Some (map_mx value A).
Proof.
move=> h; rewrite /nan_free_rows; case: forallP => // -[] i; apply/forallP => j.
by rewrite /isnan; case E: (y i ord0) => //=; have := h i j; rewrite E; case: (A i j) => // /(_ _)[].
Qed.

(** the update depends on the list of observed coordinates and on the values there *)
Definition step_on nx ny (b : belief nx) (F : 'M[R]_nx) (c : 'cV[R]_nx) (Q : 'M[R]_nx) (s : seq 'I_ny)
    (H : 'M[R]_(size s, nx)) (d : 'cV[R]_(size s)) (Rn : 'M[R]_(size s)) (v : 'cV[R]_(size s)) : belief nx :=
  let m := F *m bmean b + c in let P := F *m bcov b *m F^T + Q in
  Belief (cond_mean m P H d Rn v) (cond_cov P H Rn) (bell b + gauss v (H *m m + d) (innovation_cov P H Rn)).
Lemma kf_stepE nx ny b F c Q (H : 'M[R]_(ny, nx)) d Rn y :
  kf_step b (LgStep F c Q H d Rn y)
  = @step_on nx ny b F c Q (observed y) (obs_rows y H) (obs_rows y d) (obs_block y Rn) (obs_values y).
Proof. by []. Qed.
Lemma trN m n (A : 'M[R]_(m, n)) : (- A)^T = - A^T.
Proof. by apply/matrixP => i j; rewrite !mxE. Qed.
Lemma mahalanobisN n (v : 'cV[R]_n) P : mahalanobis P (- v) = mahalanobis P v.
Proof. by rewrite /mahalanobis trN !mulNmx mulmxN opprK. Qed.
Lemma gaussN n (x m : 'cV[R]_n) P : gauss (- x) (- m) P = gauss x m P.
Proof. by rewrite /gauss -opprD mahalanobisN. Qed.
(** x - m instead of m - x *)
Lemma step_flip nx ny b F c Q (s : seq 'I_ny) (H : 'M[R]_(size s, nx)) (m : 'cV[R]_(size s)) Rn :
  step_on b F c Q (- H) m Rn 0 = step_on b F c Q H 0 Rn m.
Proof.
rewrite /step_on; move: (F *m bmean b + c) (F *m _ *m _ + Q) => a P.
have iE : innovation_cov P (- H) Rn = innovation_cov P H Rn.
  by rewrite /innovation_cov trN mulmxN !mulNmx opprK.
have kE : kalman_gain P (- H) Rn = - kalman_gain P H Rn.
  by rewrite /kalman_gain iE trN mulmxN mulNmx.
congr Belief.
- by rewrite /cond_mean kE addr0 sub0r mulNmx -mulmxN; congr (_ + _ *m _); rewrite mulNmx; zmod.
- by rewrite /cond_cov kE mulNmx mulmxN opprK.
- rewrite iE; congr (_ + _); rewrite -gaussN oppr0 /gauss sub0r opprK addr0; congr (_ - _ - _).
  by congr (_ * _); congr mahalanobis; rewrite mulNmx addrC.
Qed.
Lemma rowsub_obs n p (y : 'cV[option R]_n) (A B : 'M[R]_(n, p)) :
  (forall (a : 'I_(size (observed y))) j, A (sel a) j = B (sel a) j) -> obs_rows y A = obs_rows y B.
Proof. by move=> h; apply/matrixP => a j; rewrite !mxE h. Qed.
Lemma potential_step nx (z y : 'cV[option R]_nx) (d : 'cV[R]_nx) (C Rn : 'M[R]_nx) :
  (forall i, y i ord0 = if isSome (z i ord0) then Some 0 else None) ->
  (forall a : 'I_(size (observed z)), d (sel a) ord0 = odflt 0 (z (sel a) ord0)) ->
  obs_block z C = obs_block z Rn -> obs_block z Rn \in unitmx ->
  obs_block y C \in unitmx /\
  forall b F c Q, kf_step b (LgStep F c Q (- 1%:M) d C y) = kf_step b (LgStep F c Q 1%:M 0 Rn z).
Proof.
move=> yE dE CE uR.
have ob : observed y = observed z by apply: eq_filter => i; rewrite yE; case: (z i ord0).
have v0 : obs_values y = 0 by apply/matrixP => a j; rewrite !mxE yE; case: ifP.
have e1 : obs_rows z d = obs_values z by apply/matrixP => a j; rewrite !mxE (ord1 j) dE.
have e2 : obs_rows z (- 1%:M) = - obs_rows z (1%:M : 'M[R]_nx) by apply/matrixP => a j; rewrite !mxE.
have e3 : obs_rows z (0 : 'cV[R]_nx) = 0 by apply/matrixP => a j; rewrite !mxE.
split; first by move: uR; rewrite -CE /obs_block /sel ob.
move=> b F c Q; rewrite !kf_stepE v0 -CE e3.
have -> : @step_on nx nx b F c Q (observed y) (obs_rows y (- 1%:M)) (obs_rows y d) (obs_block y C) 0
    = @step_on nx nx b F c Q (observed z) (obs_rows z (- 1%:M)) (obs_rows z d) (obs_block z C) 0.
  by rewrite /obs_rows /obs_block /sel ob.
by rewrite e1 e2 step_flip.
Qed.
Lemma cov_masked n (y : 'cV[option R]_n) (L : 'M[option R]_n) (Lo : 'M[R]_(size (observed y))) :
  (forall a b, L (sel a) (sel b) = Some (Lo a b)) ->
  (forall i j, y i ord0 = None \/ y j ord0 = None -> L i j = (if i == j then None else Some 0)) ->
  obs_block y (cov (map_mx value L)) = Lo *m Lo^T.
Proof.
move=> h1 h2.
have E : map_mx value L = (Sel y)^T *m Lo *m Sel y.
  apply/matrixP => i j; rewrite mxE.
  case Ei: (y i ord0) => [v|]; last first.
    rewrite (@conjSel_missing _ y); last by left.
    by rewrite h2; [case: eqP|left].
  case Ej: (y j ord0) => [w|]; last first.
    rewrite (@conjSel_missing _ y); last by right.
    by rewrite h2; [case: eqP|right].
  have [|a <-] := @sel_exists _ y i; rewrite ?Ei //.
  by have [|b <-] := @sel_exists _ y j; rewrite ?Ej // h1 conjSel_obs.
rewrite E /cov; have -> : (Sel y)^T *m Lo *m Sel y *m ((Sel y)^T *m Lo *m Sel y)^T = (Sel y)^T *m (Lo *m Lo^T) *m Sel y.
  by rewrite !trmx_mul trmxK -!mulmxA (mulmxA (Sel y) (Sel y)^T) SelSelT mul1mx.
by apply/matrixP => a b; rewrite [LHS]mxE conjSel_obs.
Qed.

Section Oracles.
Variable tria : forall m k : nat, 'M[R]_(m, k) -> 'M[R]_m.
Variable svd : forall n, 'M[R]_n -> 'M[R]_n * 'rV[R]_n.
Variable grad : forall n, ('cV[option R]_n -> option R) -> 'cV[option R]_n -> 'cV[option R]_n.
Variable jacobian : forall n p, ('cV[option R]_n -> 'cV[option R]_p) -> 'cV[option R]_n -> 'M[option R]_(p, n).
Hypothesis tria_spec : tria_ok tria.
Hypothesis grad_spec : grad_ok grad.
Hypothesis jac_spec : jacobian_ok jacobian.
Variables (rtol : R) (nx : nat).
Hypothesis rtol0 : 0 <= rtol.

(** the parameters used for an observation act like the given linear-Gaussian observation *)
Definition acts_like (p : ObservationParams nx) ny (H : 'M[R]_(ny, nx)) (d : 'cV[R]_ny) (Rn : 'M[R]_ny) y : Prop :=
  exists Hr dr X, [/\ real_obs_params (op_y p) (op_H p, op_d p, op_chol_R p) = Some (Hr, dr, X),
    obs_block (op_y p) (cov X) \in unitmx &
    forall b F c Q, kf_step b (LgStep F c Q Hr dr (cov X) (op_y p)) = kf_step b (LgStep F c Q H d Rn y)].
Lemma block_unit n (y : 'cV[option R]_n) (Rn : 'M[R]_n) : pos_def Rn -> obs_block y Rn \in unitmx.
Proof.
move=> [sR pR]; apply: (@pd_unit R_realFieldType).
have E : obs_block y Rn = Sel y *m Rn *m (Sel y)^T.
  apply/matrixP => a b; rewrite -mulmxA Sel_mul mxE [RHS]mxE.
  have -> : Rn *m (Sel y)^T = (Sel y *m Rn)^T by rewrite trmx_mul sR.
  by rewrite mxE Sel_mul !mxE -[in LHS]sR mxE.
rewrite E; split; first by rewrite !trmx_mul trmxK sR mulmxA.
move=> v vn; have -> : qf (Sel y *m Rn *m (Sel y)^T) v = ((((Sel y)^T *m v)^T *m Rn) *m ((Sel y)^T *m v)) ord0 ord0.
  by rewrite /qf trmx_mul trmxK !mulmxA.
apply: pR; apply: contra vn => /eqP e; apply/eqP.
by rewrite -[v]mul1mx -(SelSelT y) -mulmxA e mulmx0.
Qed.
Notation process := (process_observation tria jacobian svd grad rtol).
Lemma acts_full ignore ny f (H : 'M[R]_(ny, nx)) d Rn (x : 'cV[R]_nx) (y : 'cV[R]_ny) :
  linear_gaussian f H d Rn -> recoverable svd rtol Rn ->
  acts_like (process ignore (CondDensity f (map_mx Some x) (map_mx Some y))) H d Rn (map_mx Some y).
Proof.
move=> fE rc; have [L [E t LL]] := C46_log_density_exact ignore x y tria_spec grad_spec jac_spec rtol0 fE rc.
rewrite /process_observation E /acts_like /= !nan_free_rows_some.
exists H, d, L; rewrite /cov LL; split=> //; apply: block_unit; by case: rc.
Qed.
Lemma acts_missing ny f (H : 'M[R]_(ny, nx)) d Rn (x : 'cV[R]_nx) (y : 'cV[option R]_ny) :
  linear_gaussian_at f H d Rn y -> recoverable_at svd rtol y Rn ->
  acts_like (process true (CondDensity f (map_mx Some x) y)) H d Rn y.
Proof.
move=> [c fE] [pR sep dec]; rewrite /process_observation.
case E: (linearize_log_density _ _ _ _ _ _ _ _ _) => [[mat shift] L].
have [h1 [h2 [[Lo [t LL h3]] h4]]] := missing_exact tria_spec grad_spec jac_spec pR rtol0 sep dec fE E.
have h5 i j : y i ord0 = None \/ y j ord0 = None -> L i j = (if i == j then None else Some 0).
  by case=> [/h4 [_ _ /(_ j) []]|/h4 [_ _ /(_ i) []]] //; rewrite eq_sym.
have ex i : y i ord0 <> None -> exists a : 'I_(size (observed y)), sel a = i.
  by move=> h; apply: sel_exists; case: (y i ord0) h.
rewrite /acts_like /= !nan_free_rowsE; first last.
- by move=> i j /ex [a <-]; rewrite h1.
- by move=> i j /ex [a <-]; rewrite (ord1 j) h2.
- move=> i j /ex [a <-]; case Ej: (y j ord0) => [w|].
    by have [|b <-] := ex j; rewrite ?Ej // h3.
  rewrite h5; last by right.
  by case: eqP => // e; have := sel_isSome a; rewrite e Ej.
have cE : obs_block y (cov (map_mx value L)) = obs_block y Rn by rewrite (cov_masked h3 h5).
do 3 eexists; split; first by reflexivity.
  by rewrite cE; exact: pd_unit.
move=> b F c' Q; rewrite !kf_stepE cE; congr step_on; apply: rowsub_obs => a j; rewrite mxE ?(ord1 j) ?h1 ?h2 //.
Qed.
Lemma acts_potential ignore f (m : 'cV[R]_nx) Rn (x : 'cV[R]_nx) :
  gaussian_potential f m Rn -> recoverable svd rtol Rn ->
  acts_like (process ignore (Potential f (map_mx Some x))) 1%:M 0 Rn (map_mx Some m).
Proof.
move=> fE rc; have [L [E t LL]] := C48_taylor_exact ignore x tria_spec grad_spec jac_spec rtol0 fE rc.
rewrite /process_observation E /acts_like /= !nan_free_rows_some.
set y := \col_i _.
have [|||| u st] := @potential_step nx (map_mx Some m) y m (cov L) Rn.
- by move=> i; rewrite !mxE.
- by move=> a; rewrite mxE.
- by rewrite /cov LL.
- by apply: block_unit; case: rc.
by exists (- 1%:M), m, L; split.
Qed.
Lemma acts_potential_at f (z : 'cV[option R]_nx) Rn (x : 'cV[R]_nx) :
  gaussian_potential_at f z Rn -> recoverable_at svd rtol z Rn ->
  acts_like (process true (Potential f (map_mx Some x))) 1%:M 0 Rn z.
Proof.
move=> [c fE] [pR sep dec].
have fE' x0 : f (map_mx Some x0) = Some (c - 2%:R^-1 * mahalanobis (obs_block z Rn) (obs_rows z (x0 - map_mx (odflt 0) z))).
  by rewrite fE; congr (Some (_ - _ * mahalanobis _ _)); apply/matrixP => a j; rewrite !mxE (ord1 j).
have [L [E [[Lo [t LL h1]] h2]]] := taylor_subset tria_spec grad_spec jac_spec pR rtol0 sep dec fE' x.
rewrite /process_observation E /acts_like /=.
set y := \col_i _; set m' := \col_i _.
have mk i : isnan (L i i) = ~~ isSome (z i ord0).
  case Ez: (z i ord0) => [v|] /=; last by rewrite h2 ?eqxx //; left.
  by have [|a <-] := @sel_exists _ z i; rewrite ?Ez // h1.
have [|||| u st] := @potential_step nx z y m' (cov (map_mx value L)) Rn.
- by move=> i; rewrite mxE andbT mk; case: (isSome _).
- by move=> a; rewrite !mxE sel_isSome.
- by rewrite (cov_masked h1 h2).
- exact: pd_unit.
rewrite !nan_free_rows_some nan_free_rowsE; first by exists (- 1%:M), m', (map_mx value L); split.
move=> i j; rewrite mxE andbT mk; case Ez: (z i ord0) => [v|] //= _.
have [|a <-] := @sel_exists _ z i; rewrite ?Ez //.
case Ej: (z j ord0) => [w|]; first by have [|b <-] := @sel_exists _ z j; rewrite ?Ej // h1.
rewrite h2; last by right.
by case: eqP => // e; have := sel_isSome a; rewrite e Ej.
Qed.
End Oracles.
