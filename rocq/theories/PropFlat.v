(** C62: for which quadratic potentials the update is exact. *)
From Coq Require Import Reals Lra.
From mathcomp Require Import all_ssreflect all_algebra.
From Verif Require Import RStruct MxBase ZmodTac KalmanModel LinalgModel LinearizeModel LinKalmanModel GaussSpec KalmanSpec
  LinalgSpec LinearizeSpec LinSpec PotSpec MvnProofs MvnProofs2 CholUpdate KalmanProofs BayesProofs InvSqrtProofs InvSqrtSing
  LinearizeProofs LinearizeProofs2 LinearizeProofs3 TriaExist SvdExist PropMvn PropKalman PropLinearize LinRuns LinObs
  PropLinObs PotProofs Sigmoid Trajectory PropPotential.
Set Implicit Arguments.
Unset Strict Implicit.
Unset Printing Implicit Defensive.
Local Open Scope ring_scope.
Import GRing.Theory Num.Theory Order.Theory.

(** no direction among the coordinates on which the quadratic form depends is flat *)
Definition no_flat_direction n (J : 'M[R]_n) : Prop :=
  forall v : 'cV[R]_n, J *m v = 0 -> (forall i, row i J = 0 -> v i ord0 = 0) -> v = 0.

Lemma quad_second_order n (f : 'cV[option R]_n -> option R) (m x : 'cV[R]_n) (J : 'M[R]_n) (c : R) : J^T = J ->
  (forall x, f (map_mx Some x) = Some (c - 2%:R^-1 * ((x - m)^T *m J *m (x - m)) ord0 ord0)) ->
  second_order f x (- (J *m (x - m))) (- J).
Proof.
move=> sJ fE; exists (fun z => - (J *m (z - m))); split=> // [z|i].
  apply: (@grad_quad _ _ _ (c - 2%:R^-1 * ((z - m)^T *m J *m (z - m)) ord0 ord0) _ (- 2%:R^-1 *: J)) => h.
  rewrite moved_some fE; congr Some; rewrite -addrA (addrC h) addrA (quad_split _ _ sJ) -scalemxAr -scalemxAl.
  have -> : (- (J *m (z - m)))^T *m h = - ((z - m)^T *m (J *m h)).
    by rewrite linearN /= trmx_mul sJ mulNmx mulmxA.
  have mE (A : 'M[R]_1) k : (k *: A) ord0 ord0 = k * A ord0 ord0 by rewrite mxE.
  have mN (A : 'M[R]_1) : (- A) ord0 ord0 = - A ord0 ord0 by rewrite mxE.
  rewrite mE mN; move: (((z - m)^T *m J *m (z - m)) ord0 ord0) (((z - m)^T *m (J *m h)) ord0 ord0) ((h^T *m J *m h) ord0 ord0) => a b q.
  by rewrite !RinvE ?pnatr_eq0 // !RnatE /=; toR; field.
apply: (@grad_affine _ _ _ ((- (J *m (x - m))) i ord0)) => h.
rewrite moved_some value_some; congr Some; rewrite trmxK addrAC mulmxDr opprD mxE; congr (_ + _).
by rewrite -row_mul mulNmx [RHS]mxE.
Qed.

Section Exact.
Variables (n : nat) (J : 'M[R]_n) (m : 'cV[R]_n).
Hypothesis psdJ : pos_semidef J.
(** the centre at the coordinates on which the form depends *)
Let z : 'cV[option R]_n := \col_i (if row i J == 0 then None else Some (m i ord0)).
Let Jo := obs_block z J.
Lemma centre_None i : z i ord0 = None <-> row i J = 0.
Proof. by rewrite mxE; case: eqP. Qed.
Lemma centre_zero i j : z i ord0 = None \/ z j ord0 = None -> J i j = 0.
Proof.
have r0 a b : z a ord0 = None -> J a b = 0 by move/centre_None/rowP/(_ b); rewrite !mxE.
by case=> [/r0 //|h]; have [s _] := psdJ; rewrite -s mxE r0.
Qed.
Lemma centre_conj : (Sel z)^T *m Jo *m Sel z = J.
Proof.
apply/matrixP => i j; case Ei: (z i ord0) => [v|]; last first.
  by rewrite conjSel_missing ?(@centre_zero i j) //; left.
case Ej: (z j ord0) => [w|]; last by rewrite conjSel_missing ?(@centre_zero i j) //; right.
have [|a <-] := @sel_exists _ z i; rewrite ?Ei //.
by have [|b <-] := @sel_exists _ z j; rewrite ?Ej // conjSel_obs mxE.
Qed.
Lemma centre_block : Jo = Sel z *m J *m (Sel z)^T.
Proof. by rewrite -centre_conj !mulmxA SelSelT mul1mx -mulmxA SelSelT mulmx1. Qed.
Lemma centre_pd : no_flat_direction J -> pos_def Jo.
Proof.
move=> nf; have psdo : psd Jo by rewrite centre_block; exact: psd_conj.
apply: psd_unit_pd => //; rewrite -row_free_unit -kermx_eq0; apply/eqP/row_matrixP => a; rewrite row0.
set r := row a _; have r0 : r *m Jo = 0 by apply/eqP; rewrite -sub_kermx row_sub.
have Jr : Jo *m r^T = 0 by apply: trmx_inj; rewrite trmx_mul trmxK; have [-> _] := psdo; rewrite r0 trmx0.
have v0 : (Sel z)^T *m r^T = 0.
  apply: nf; first by rewrite -centre_conj -!mulmxA (mulmxA (Sel z)) SelSelT mul1mx Jr mulmx0.
  by move=> i /centre_None zi; rewrite SelT_missing.
by apply: trmx_inj; rewrite trmx0 -[r^T]mul1mx -(SelSelT z) -mulmxA v0 mulmx0.
Qed.
Lemma centre_potential (f : 'cV[option R]_n -> option R) c : no_flat_direction J ->
  (forall x, f (map_mx Some x) = Some (c - 2%:R^-1 * ((x - m)^T *m J *m (x - m)) ord0 ord0)) ->
  exists Rn : 'M[R]_n, obs_block z Rn = invmx Jo /\ gaussian_potential_at f z Rn.
Proof.
move=> nf fE; have bE : obs_block z ((Sel z)^T *m invmx Jo *m Sel z) = invmx Jo.
  by apply/matrixP => a b; rewrite mxE conjSel_obs.
exists ((Sel z)^T *m invmx Jo *m Sel z); split=> //; exists c => x.
rewrite fE bE; congr (Some (_ - _ * _)); rewrite /mahalanobis invmxK.
have -> : obs_values z = obs_rows z m.
  apply/matrixP => a j; rewrite !mxE (ord1 j); have := sel_isSome a; rewrite [z _ _]mxE.
  by case: eqP.
rewrite -!Sel_mul -mulmxBr trmx_mul -!mulmxA (mulmxA Jo) (mulmxA (Sel z)^T) (mulmxA (Sel z)^T Jo) centre_conj.
by rewrite mulmxA.
Qed.
End Exact.

Theorem C62_exact tria svd grad jacobian n (f : 'cV[option R]_n -> option R) (m point : 'cV[R]_n) (J : 'M[R]_n) (c rtol : R) :
  tria_ok tria -> grad_ok grad -> jacobian_ok jacobian -> (forall k (A : 'M[R]_k), A^T = A -> decomposes svd A) ->
  0 <= rtol -> pos_semidef J -> clear_rank rtol J ->
  (forall x, f (map_mx Some x) = Some (c - 2%:R^-1 * ((x - m)^T *m J *m (x - m)) ord0 ord0)) ->
  let p := process_observation tria jacobian svd grad rtol true (Potential f (map_mx Some point)) in
  exists H d chol_R,
    real_obs_params (op_y p) (op_H p, op_d p, op_chol_R p) = Some (H, d, chol_R) /\
    forall (mp : 'cV[R]_n) (chol_P : 'M[R]_n) (ell : R) m' L' ell', chol_P \in unitmx ->
      update tria mp chol_P H d chol_R (op_y p) ell = (m', L', ell') ->
      ((exists logZ, posterior mp (cov chol_P) f m' (cov L') logZ) <-> no_flat_direction J).
Proof.
move=> ok gok jok sok r0 psdJ rank fE p; have [sJ _] := psdJ.
have so := quad_second_order point sJ fE.
have sb (y : 'cV[option R]_n) : (obs_block y J)^T = obs_block y J.
  by apply/matrixP => i j; rewrite !mxE -[in LHS]sJ mxE.
have dec : decomposes svd (zero_padded n (obs_block (touched J) J)) by apply/sok/zero_padded_sym; exact: sb.
have [H [d [chol_R [E h]]]] := C62_flat_direction_certain ok gok jok r0 so psdJ rank dec.
exists H, d, chol_R; split=> // mp chol_P ell m' L' ell' uP Eu; split=> [[logZ [[_ pd'] _]] v Jv sv|nf].
  apply/eqP; case: (eqVneq v 0) => // /pd'; have [cv _] := h _ _ _ _ _ _ uP Eu v Jv sv.
  by rewrite -mulmxA cv mulmx0 mxE ltxx.
have [Rn [bE gp]] := centre_potential psdJ nf fE.
have po := centre_pd m psdJ nf; set z := \col_i _ in bE gp po; set Jo := obs_block z J in bE po.
have rc : recoverable_at svd rtol z Rn.
  rewrite /recoverable_at bE invmxK; split; [exact: pos_def_inv| |by apply/sok/zero_padded_sym; exact: sb].
  have uJ := pd_unit po.
  have nz w : eigenvalue_of Jo w -> w != 0.
    move=> [v [v0 e]]; apply: contra v0 => /eqP w0; move: e; rewrite w0 scale0r => /(congr1 (mulmx (invmx Jo))).
    by rewrite mulmxA mulVmx // mul1mx mulmx0 => ->.
  have eig t : eigenvalue_of Jo t -> eigenvalue_of J t.
    move=> [v [v0 e]]; exists ((Sel z)^T *m v); split.
      by apply: contra v0 => /eqP k; apply/eqP; rewrite -[v]mul1mx -(SelSelT z) -mulmxA k mulmx0.
    by rewrite -(centre_conj m psdJ) -/z -/Jo -!mulmxA (mulmxA (Sel z)) SelSelT mul1mx e -scalemxAr.
  by move=> w w' e e'; apply: rank; [exact: eig|exact: eig|exact: nz|exact: nz].
have [H2 [d2 [X2 [E2 st]]]] := update_acts ok (acts_potential_at ok gok jok r0 point gp rc).
move: E2; rewrite E => -[eH ed eX]; subst H2 d2 X2.
have [e1 _ e2 _] := st _ _ _ _ _ _ Eu.
have pP : pd (cov chol_P) by apply: gram_pd; rewrite gram_unit.
have pR : pd (obs_block z Rn) by case: rc.
have [c' gE] := gp.
exists (gauss (obs_values z) (obs_rows z 1%:M *m mp + obs_rows z 0) (innovation_cov (cov chol_P) (obs_rows z 1%:M) (obs_block z Rn))
  + (c' - gauss (0 : 'cV[R]_(size (observed z))) 0 (obs_block z Rn))).
split; first by rewrite e2; exact: cond_pd.
move=> x v; rewrite gE => -[<-]; rewrite e1 e2.
have := gauss_split (obs_rows z 1%:M) mp x (obs_rows z (0 : 'cV[R]_n)) (obs_values z) pP pR.
set A := gauss x mp _; set B := gauss (obs_values z) _ (obs_block z Rn); set C := gauss (obs_values z) _ (innovation_cov _ _ _).
set D := gauss x (cond_mean _ _ _ _ _ _) _ => gs.
have BE : B = - 2%:R^-1 * mahalanobis (obs_block z Rn) (obs_rows z x - obs_values z) + gauss (0 : 'cV[R]_(size (observed z))) 0 (obs_block z Rn).
  have m0 : mahalanobis (obs_block z Rn) 0 = 0 by rewrite /mahalanobis mulmx0 mxE.
  rewrite /B /gauss subrr m0 mulr0 sub0r -!addrA; congr (_ * _ + _).
  have e0 : obs_rows z (0 : 'cV[R]_n) = 0 by apply/matrixP => a j; rewrite !mxE.
  by rewrite e0 addr0 -/(Sel z) Sel_mul -mahalanobisN opprB.
move: gs; rewrite BE; move: (gauss 0 0 (obs_block z Rn)) (mahalanobis _ _) A C D => g0 ma A C D gs.
have -> : D = A + (- 2%:R^-1 * ma + g0) - C by rewrite gs addrAC subrr add0r.
rewrite mulNr; zmod.
Qed.
Print Assumptions C62_exact.
(** both cases occur: the identity has no flat direction, (x1 - x2)^2 has one *)
Example C62_exact_cases :
  [/\ pos_semidef (1 *: (diff_a *m diff_a^T)), clear_rank 0 (1 *: (diff_a *m diff_a^T)) & ~ no_flat_direction (1 *: (diff_a *m diff_a^T))] /\
  [/\ pos_semidef (1%:M : 'M[R]_2), clear_rank 0 (1%:M : 'M[R]_2) & no_flat_direction (1%:M : 'M[R]_2)].
Proof.
split; split.
- exact: outer_psd ler01.
- exact: outer_rank ltr01 (lexx _) ltr01.
- move=> nf; have /colP/(_ ord0) : sum_v = 0; last by rewrite !mxE => /eqP; rewrite oner_eq0.
  apply: nf => [|i].
    rewrite -scalemxAl -mulmxA (_ : diff_a^T *m sum_v = 0) ?mulmx0 ?scaler0 //.
    by apply/matrixP => i j; rewrite !mxE !big_ord_recl big_ord0 !mxE /= !mulr1 addr0 subrr.
  move/rowP/(_ i); rewrite !mxE big_ord1 !mxE mul1r.
  by case: ifP => _ /eqP; rewrite ?mulrNN mulr1 oner_eq0.
- by split=> [|v]; [rewrite trmx1|rewrite mulmx1 mxE; apply: sumr_ge0 => i _; rewrite mxE -expr2 sqr_ge0].
- move=> w w' [v [v0 e]] _ _ _; rewrite mul0r; move: e; rewrite mul1mx => e.
  have -> : w = 1; last exact: ltr01.
  have [i vi] : exists i, v i ord0 != 0.
    by case: (boolP [exists i, v i ord0 != 0]) => [/existsP //|]; rewrite negb_exists => /forallP z; case/negP: v0; apply/eqP/colP => i; have := z i; rewrite negbK mxE => /eqP.
  by apply: (mulIf vi); rewrite mul1r; move/colP/(_ i): e; rewrite mxE => <-.
- by move=> v; rewrite mul1mx.
Qed.
