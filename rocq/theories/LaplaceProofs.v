(** The linearisation of a log density depends on its first and second derivatives at the point only, so that it is
    that of a linear-Gaussian density with the same derivatives. *)
From Coq Require Import Reals Lra.
From mathcomp Require Import all_ssreflect all_algebra.
From Verif Require Import RStruct MxBase ZmodTac KalmanModel LinalgModel LinearizeModel LinKalmanModel GaussSpec KalmanSpec
  LinalgSpec LinearizeSpec LinSpec EkfSpec LaplaceSpec MvnProofs MvnProofs2 KalmanProofs LinearizeProofs LinearizeProofs2
  LinearizeProofs3 PropMvn PropKalman PropLinearize InvSqrtProofs LinRuns LinObs PropLinObs.
Set Implicit Arguments.
Unset Strict Implicit.
Unset Printing Implicit Defensive.
Local Open Scope ring_scope.
Import GRing.Theory Num.Theory Order.Theory.

Lemma maxnorm_le n (h : 'cV[R]_n) (b : R) : 0 <= b -> (forall i, `|h i ord0| <= b) -> maxnorm h <= b.
Proof. by move=> b0 H; rewrite /maxnorm; elim/big_rec: _ => // i x _ xb; rewrite le_maxl H. Qed.
Lemma maxnorm0 n : maxnorm (0 : 'cV[R]_n) = 0.
Proof. by apply: le_anti; rewrite maxnorm_ge0 maxnorm_le // => i; rewrite mxE normr0. Qed.
Lemma maxnormD n (a b : 'cV[R]_n) : maxnorm (a + b) <= maxnorm a + maxnorm b.
Proof.
apply: maxnorm_le => [|i]; first by rewrite addr_ge0 ?maxnorm_ge0.
by rewrite mxE; apply: le_trans (ler_norm_add _ _) _; rewrite ler_add ?le_maxnorm.
Qed.
Lemma maxnorm_obs n (y : 'cV[option R]_n) (h : 'cV[R]_n) : maxnorm (Sel y *m h) <= maxnorm h.
Proof. by apply: maxnorm_le => [|a]; rewrite ?maxnorm_ge0 // Sel_mul mxE le_maxnorm. Qed.
Lemma near_refl n (r : R) (p : 'cV[R]_n) : 0 < r -> near r p p.
Proof. by rewrite /near subrr maxnorm0. Qed.

(** a linear map applied to a function, along a linear map of norm at most 1 *)
Lemma entry_derivative n k m (G : 'cV[R]_k -> 'cV[R]_m) v0 D q (A : 'M[R]_(q, m)) (S : 'M[R]_(k, n)) i :
  derivative_at G v0 D -> (forall h, maxnorm (S *m h) <= maxnorm h) ->
  forall eps : R, 0 < eps -> exists delta : R, 0 < delta /\ forall h, maxnorm h <= delta ->
    `|(A *m G (v0 + S *m h)) i ord0 - (A *m G v0) i ord0 - \sum_j (row i (A *m D *m S))^T j ord0 * h j ord0| <= eps * maxnorm h.
Proof.
move=> dG Sb eps e0; set C := \sum_a `|A i a|.
have C0 : 0 <= C by apply: sumr_ge0.
have C1 : 0 < C + 1 by rewrite ltr_paddl.
have [d [d0 hd]] := dG (eps / (C + 1)) (divr_gt0 e0 C1).
exists d; split=> // h hh; have {}hd := hd _ (le_trans (Sb h) hh).
have -> : (A *m G (v0 + S *m h)) i ord0 - (A *m G v0) i ord0 - \sum_j (row i (A *m D *m S))^T j ord0 * h j ord0
    = (A *m (G (v0 + S *m h) - G v0 - D *m (S *m h))) i ord0.
  have -> : \sum_j (row i (A *m D *m S))^T j ord0 * h j ord0 = (A *m D *m S *m h) i ord0.
    by rewrite [RHS]mxE; apply: eq_bigr => j _; rewrite !mxE.
  by rewrite !mulmxBr !mulmxA [RHS]mxE [(_ - _ : 'cV[R]__) i ord0]mxE [(- (_ : 'cV[R]__)) i ord0]mxE [(- (A *m D *m S *m h)) i ord0]mxE.
apply: le_trans (_ : C * (eps / (C + 1) * maxnorm h) <= _).
  rewrite mxE mulr_suml; apply: le_trans (ler_norm_sum _ _ _) _; apply: ler_sum => a _.
  rewrite normrM; apply: ler_wpmul2l => //; apply: le_trans (le_maxnorm _ a) _; apply: le_trans hd _.
  by apply: ler_wpmul2l; [rewrite divr_ge0 ?ltW|exact: Sb].
rewrite mulrA; apply: ler_wpmul2r; first exact: maxnorm_ge0.
rewrite mulrCA -[X in _ <= X]mulr1; apply: ler_wpmul2l; first exact: ltW.
by rewrite ler_pdivr_mulr // mul1r ler_addl ler01.
Qed.

Section Oracles.
Variable grad : forall n, ('cV[option R]_n -> option R) -> 'cV[option R]_n -> 'cV[option R]_n.
Variable jacobian : forall n p, ('cV[option R]_n -> 'cV[option R]_p) -> 'cV[option R]_n -> 'M[option R]_(p, n).
Hypothesis grad_spec : grad_ok grad.
Hypothesis jac_spec : jacobian_ok jacobian.

Section Local.
Variables (nx ny k : nat) (f : 'cV[option R]_nx -> 'cV[option R]_ny -> option R) (y : 'cV[option R]_ny).
Variables (S : 'M[R]_(k, ny)) (l : 'cV[R]_nx -> 'cV[R]_k -> R) (x0 : 'cV[R]_nx) (v0 : 'cV[R]_k) (r : R).
Variable G : 'cV[R]_nx -> 'cV[R]_k -> 'cV[R]_k.
Hypothesis r0 : 0 < r.
Hypothesis Sb : forall h, maxnorm (S *m h) <= maxnorm h.
Hypothesis fE : forall x h, near r x x0 -> maxnorm h < r -> f (map_mx Some x) (moved y h) = Some (l x (v0 + S *m h)).
Hypothesis lG : forall x v, near r x x0 -> near r v v0 -> gradient_at (l x) v (G x v).

Lemma local_grad x h : near r x x0 -> maxnorm h < r ->
  grad (f (map_mx Some x)) (moved y h) = map_mx Some (S^T *m G x (v0 + S *m h)).
Proof.
move=> nx0 hr; apply: grad_spec; exists (l x (v0 + S *m h)); split; first exact: fE.
move=> eps e0.
have nv : near r (v0 + S *m h) v0 by rewrite /near addrAC subrr add0r; apply: le_lt_trans (Sb h) hr.
have [d [d0 hd]] := lG nx0 nv e0.
have q0 : 0 < (r - maxnorm h) / 2%:R by rewrite divr_gt0 ?ltr0n // subr_gt0.
exists (Num.min d ((r - maxnorm h) / 2%:R)); split; first by rewrite lt_minr d0.
move=> h'; rewrite le_minr => /andP [hd' hq]; exists (l x (v0 + S *m (h + h'))); split.
  rewrite moved_add fE //; apply: le_lt_trans (maxnormD h h') _.
  rewrite -ltr_subr_addl; apply: le_lt_trans hq _.
  by rewrite ltr_pdivr_mulr ?ltr0n // mulr_natr mulr2n ltr_addl subr_gt0.
rewrite (mulmxDr S) addrA; have := hd (S *m h') (le_trans (Sb h') hd').
have -> : ((G x (v0 + S *m h))^T *m (S *m h')) ord0 ord0 = \sum_i (S^T *m G x (v0 + S *m h)) i ord0 * h' i ord0.
  rewrite mulmxA -[X in _ *m X *m _]trmxK -trmx_mul mxE; apply: eq_bigr => i _; congr (_ * _).
  by rewrite [LHS]mxE.
by move=> le; apply: le_trans le _; apply: ler_wpmul2l; [exact: ltW|exact: Sb].
Qed.
Lemma local_hess L : derivative_at (G x0) v0 (- L) ->
  hessian grad jacobian (f (map_mx Some x0)) y = map_mx Some (- (S^T *m L *m S)).
Proof.
move=> dG; apply: jac_spec => i; exists ((S^T *m G x0 v0) i ord0).
have n0 := near_refl x0 r0; split.
  have := local_grad n0 (h := 0); rewrite maxnorm0 moved0 mulmx0 addr0 => -> //.
  by rewrite mxE.
move=> eps e0; have [d [d0 hd]] := entry_derivative S^T i dG Sb e0.
have q0 : 0 < r / 2%:R by rewrite divr_gt0 ?ltr0n.
exists (Num.min d (r / 2%:R)); split; first by rewrite lt_minr d0.
move=> h; rewrite le_minr => /andP [hd' hq]; exists ((S^T *m G x0 (v0 + S *m h)) i ord0); split.
  rewrite local_grad //; first by rewrite mxE.
  by apply: le_lt_trans hq _; rewrite ltr_pdivr_mulr ?ltr0n // mulr_natr mulr2n ltr_addl.
by have := hd h hd'; rewrite mulmxN mulNmx.
Qed.
Lemma local_jac M : derivative_at (fun x => G x v0) x0 M ->
  jacobian (fun x => grad (f x) y) (map_mx Some x0) = map_mx Some (S^T *m M).
Proof.
move=> dG; apply: jac_spec => i; exists ((S^T *m G x0 v0) i ord0).
have n0 := near_refl x0 r0.
have gE x : near r x x0 -> grad (f (map_mx Some x)) y i ord0 = Some ((S^T *m G x v0) i ord0).
  by move=> nx1; have := local_grad nx1 (h := 0); rewrite maxnorm0 moved0 mulmx0 addr0 => -> //; rewrite mxE.
split; first exact: gE.
move=> eps e0; have S1 (h : 'cV[R]_nx) : maxnorm (1%:M *m h) <= maxnorm h by rewrite mul1mx.
have [d [d0 hd]] := entry_derivative S^T i dG S1 e0.
have q0 : 0 < r / 2%:R by rewrite divr_gt0 ?ltr0n.
exists (Num.min d (r / 2%:R)); split; first by rewrite lt_minr d0.
move=> h; rewrite le_minr => /andP [hd' hq]; exists ((S^T *m G (x0 + h) v0) i ord0); split.
  rewrite moved_some gE // /near addrAC subrr add0r.
  by apply: le_lt_trans hq _; rewrite ltr_pdivr_mulr ?ltr0n // mulr_natr mulr2n ltr_addl.
by have := hd h hd'; rewrite mul1mx mulmx1.
Qed.
Lemma local_grad0 : grad (f (map_mx Some x0)) y = map_mx Some (S^T *m G x0 v0).
Proof. by have := local_grad (near_refl x0 r0) (h := 0); rewrite maxnorm0 moved0 mulmx0 addr0 => ->. Qed.
End Local.

(** ** a linear-Gaussian density with the same derivatives *)
Section Match.
Variables (nx ny k : nat) (f f' : 'cV[option R]_nx -> 'cV[option R]_ny -> option R) (y : 'cV[option R]_ny).
Variables (S : 'M[R]_(k, ny)) (l : 'cV[R]_nx -> 'cV[R]_k -> R) (x0 : 'cV[R]_nx) (g : 'cV[R]_k).
Variables (L : 'M[R]_k) (M : 'M[R]_(k, nx)) (H : 'M[R]_(ny, nx)) (d : 'cV[R]_ny) (c : R) (r : R).
Let v0 := S *m map_mx value y.
Hypothesis r0 : 0 < r.
Hypothesis Sb : forall h, maxnorm (S *m h) <= maxnorm h.
Hypothesis uL : L \in unitmx.
Hypothesis symL : L^T = L.
Hypothesis fE : forall x h, near r x x0 -> maxnorm h < r -> f (map_mx Some x) (moved y h) = Some (l x (v0 + S *m h)).
Hypothesis ex : expansion l x0 v0 g L M.
Hypothesis SE : forall h, S *m map_mx value (moved y h) = S *m (map_mx value y + h).
Hypothesis fE' : forall x h, let e := S *m (map_mx value (moved y h) - (H *m x + d)) in
  f' (map_mx Some x) (moved y h) = Some (c - 2%:R^-1 * (e^T *m L *m e) ord0 ord0).
Hypothesis HE : S *m H = invmx L *m M.
Hypothesis dE : S *m d = newton x0 v0 g L M 0.
Lemma match_derivatives :
  [/\ grad (f (map_mx Some x0)) y = grad (f' (map_mx Some x0)) y,
      hessian grad jacobian (f (map_mx Some x0)) y = hessian grad jacobian (f' (map_mx Some x0)) y &
      jacobian (fun x => grad (f x) y) (map_mx Some x0) = jacobian (fun x => grad (f' x) y) (map_mx Some x0)].
Proof.
have [r1 [G [r1p lG Gg dv dx]]] := ex.
have q0 : 0 < Num.min r r1 by rewrite lt_minr r0.
have qE x h : near (Num.min r r1) x x0 -> maxnorm h < Num.min r r1 -> f (map_mx Some x) (moved y h) = Some (l x (v0 + S *m h)).
  by rewrite /near !lt_minr => /andP [a _] /andP [b _]; exact: fE.
have qG x v : near (Num.min r r1) x x0 -> near (Num.min r r1) v v0 -> gradient_at (l x) v (G x v).
  by rewrite /near !lt_minr => /andP [_ a] /andP [_ b]; exact: lG.
rewrite (local_grad0 q0 Sb qE qG) (local_hess q0 Sb qE qG dv) (local_jac q0 Sb qE qG dx) Gg.
rewrite (cond_grad grad_spec symL fE' SE) (cond_hess grad_spec jac_spec symL fE' SE) (cond_jac grad_spec jac_spec symL fE' SE).
split=> //; congr (map_mx Some _); last by rewrite -!mulmxA HE (mulmxA L) mulmxV // mul1mx.
rewrite -(mulmxA (S^T *m L) S) (_ : S *m _ = - (invmx L *m g)).
  by rewrite mulmxN opprK -!mulmxA (mulmxA L) mulmxV // mul1mx.
rewrite mulmxBr mulmxDr mulmxA HE dE /newton -/v0 sub0r mulmxN mulmxBr -mulmxA; by zmod.
Qed.
End Match.
End Oracles.
Lemma same_linearization tria svd grad jacobian nx ny (f f' : 'cV[option R]_nx -> 'cV[option R]_ny -> option R) x y rtol ignore :
  grad _ (f x) y = grad _ (f' x) y -> hessian grad jacobian (f x) y = hessian grad jacobian (f' x) y ->
  jacobian _ _ (fun x => grad _ (f x) y) x = jacobian _ _ (fun x => grad _ (f' x) y) x ->
  linearize_log_density tria svd grad jacobian f x y rtol ignore = linearize_log_density tria svd grad jacobian f' x y rtol ignore.
Proof.
by move=> e1 e2 e3; rewrite /linearize_log_density /linearize_log_density_given_chol_cov e1 e2 e3.
Qed.
Lemma same_taylor tria svd grad jacobian n (f f' : 'cV[option R]_n -> option R) x rtol ignore :
  grad _ f x = grad _ f' x -> hessian grad jacobian f x = hessian grad jacobian f' x ->
  linearize_taylor tria svd grad jacobian f x rtol ignore = linearize_taylor tria svd grad jacobian f' x rtol ignore.
Proof. by move=> e1 e2; rewrite /linearize_taylor e1 e2. Qed.

(** ** the Taylor linearisations *)
(** the precision is recovered exactly: symmetric positive definite and well conditioned *)
Definition good_precision (svd : forall n, 'M[R]_n -> 'M[R]_n * 'rV[R]_n) (rtol : R) n (L : 'M[R]_n) : Prop :=
  [/\ pos_def L, well_conditioned rtol L & decomposes svd L].
Definition good_precision_at (svd : forall n, 'M[R]_n -> 'M[R]_n * 'rV[R]_n) (rtol : R) n k (L : 'M[R]_k) : Prop :=
  [/\ pos_def L, well_conditioned rtol L & decomposes svd (zero_padded n L)].
(** values of a log density near a point *)
Definition density_near nx ny (f : log_cond nx ny) (l : 'cV[R]_nx -> 'cV[R]_ny -> R) (p : 'cV[R]_nx) (y0 : 'cV[R]_ny) : Prop :=
  exists r, 0 < r /\ forall x v, near r x p -> near r v y0 -> f (map_mx Some x) (map_mx Some v) = Some (l x v).
(** ... of the observed entries of [y] *)
Definition density_near_at nx ny (f : log_cond nx ny) (y : 'cV[option R]_ny)
    (l : 'cV[R]_nx -> 'cV[R]_(size (observed y)) -> R) (p : 'cV[R]_nx) : Prop :=
  exists r, 0 < r /\ forall x h, near r x p -> maxnorm h < r ->
    f (map_mx Some x) (moved y h) = Some (l x (obs_rows y (map_mx (odflt 0) (moved y h)))).
Definition potential_near n (f : log_pot n) (l : 'cV[R]_n -> R) (p : 'cV[R]_n) : Prop :=
  exists r, 0 < r /\ forall x, near r x p -> f (map_mx Some x) = Some (l x).

Lemma expansion_const nx k (l : 'cV[R]_k -> R) v0 g L : expansion0 l v0 g L ->
  expansion (fun _ : 'cV[R]_nx => l) 0 v0 g L 0.
Proof.
move=> [r [G [r0 lG Gg dG]]]; exists r, (fun _ => G); split=> //.
  by move=> x v _ nv; exact: lG.
move=> eps e0; exists 1; split=> [|h _]; first exact: ltr01.
rewrite subrr mul0mx subrr maxnorm0; apply: mulr_ge0; first exact: ltW.
exact: maxnorm_ge0.
Qed.
Lemma newton_affine nx k (x0 : 'cV[R]_nx) (v0 g : 'cV[R]_k) L M x :
  newton x0 v0 g L M x = invmx L *m M *m x + newton x0 v0 g L M 0.
Proof. by rewrite /newton sub0r mulmxBr mulmxN !mulmxBr !mulmxDr !mulmxN -!mulmxA; zmod. Qed.

Section Taylor.
Variable tria : forall m k : nat, 'M[R]_(m, k) -> 'M[R]_m.
Variable svd : forall n, 'M[R]_n -> 'M[R]_n * 'rV[R]_n.
Variable grad : forall n, ('cV[option R]_n -> option R) -> 'cV[option R]_n -> 'cV[option R]_n.
Variable jacobian : forall n p, ('cV[option R]_n -> 'cV[option R]_p) -> 'cV[option R]_n -> 'M[option R]_(p, n).
Hypothesis tria_spec : tria_ok tria.
Hypothesis grad_spec : grad_ok grad.
Hypothesis jac_spec : jacobian_ok jacobian.
Variables (rtol : R) (ignore : bool) (nx : nat).
Hypothesis rtol0 : 0 <= rtol.

Lemma good_recoverable n (L : 'M[R]_n) : good_precision svd rtol L -> recoverable svd rtol (invmx L).
Proof. by case=> pL wc dc; split; rewrite ?invmxK //; exact: pd_inv. Qed.
Lemma one_bound n (h : 'cV[R]_n) : maxnorm (1%:M *m h) <= maxnorm h.
Proof. by rewrite mul1mx. Qed.

Lemma full_match nx' ny (f : log_cond nx' ny) l p y0 g L M : density_near f l p y0 -> expansion l p y0 g L M -> pos_def L ->
  let f' := demo_density (invmx L *m M) (newton p y0 g L M 0) (invmx L) in
  [/\ grad (f (map_mx Some p)) (map_mx Some y0) = grad (f' (map_mx Some p)) (map_mx Some y0),
      hessian grad jacobian (f (map_mx Some p)) (map_mx Some y0) = hessian grad jacobian (f' (map_mx Some p)) (map_mx Some y0) &
      jacobian (fun x => grad (f x) (map_mx Some y0)) (map_mx Some p) = jacobian (fun x => grad (f' x) (map_mx Some y0)) (map_mx Some p)].
Proof.
move=> [r [r0 fE]] ex pL f'; have uL := @pd_unit R_realFieldType _ _ pL; have [sL _] := pL.
have vE : 1%:M *m map_mx value (map_mx Some y0) = y0 by rewrite mul1mx value_some.
apply: (@match_derivatives _ _ grad_spec jac_spec nx' ny ny f f' (map_mx Some y0) 1%:M l p g L M (invmx L *m M) (newton p y0 g L M 0)
  0 r r0 (@one_bound _) uL sL) => //.
- move=> x h nx1 hr; rewrite vE mul1mx moved_some; apply: fE => //.
  by rewrite /near addrAC subrr add0r.
- by rewrite vE.
- exact: full_rows.
- move=> x h e; rewrite /f' /demo_density odflt_some /mahalanobis invmxK /e mul1mx sub0r.
  by congr (Some (- (_ * _))).
- by rewrite mul1mx.
- by rewrite vE mul1mx.
Qed.
Lemma laplace_full ny (f : log_cond nx ny) l p y0 g L M : density_near f l p y0 -> expansion l p y0 g L M ->
  good_precision svd rtol L ->
  exists K : 'M[R]_ny, [/\ linearize_log_density tria svd grad jacobian f (map_mx Some p) (map_mx Some y0) rtol ignore
    = (map_mx Some (invmx L *m M), map_mx Some (newton p y0 g L M 0), map_mx Some K), is_trig_mx K & K *m K^T = invmx L].
Proof.
move=> fE ex gp; have [pL _ _] := gp; have [e1 e2 e3] := full_match fE ex pL.
rewrite (same_linearization _ _ _ _ e1 e2 e3).
exact: (C46_log_density_exact ignore p y0 tria_spec grad_spec jac_spec rtol0 (demo_density_ok _ _ _) (good_recoverable gp)).
Qed.

Notation process := (process_observation tria jacobian svd grad rtol ignore).
Inductive is_laplace : ObservationOutput nx -> measurement nx -> Prop :=
| LapFull ny (f : log_cond nx ny) l p y0 g L M :
    density_near f l p y0 -> expansion l p y0 g L M -> good_precision svd rtol L ->
    is_laplace (CondDensity f (map_mx Some p) (map_mx Some y0))
      (Measurement (newton p y0 g L M) (invmx L) p (invmx L *m M) (map_mx Some y0))
| LapPartial ny (f : log_cond nx ny) (y : 'cV[option R]_ny) l p g L M h Rn J :
    ignore -> density_near_at f (y := y) l p -> expansion l p (obs_values y) g L M -> good_precision_at svd rtol ny L ->
    (forall x, obs_rows y (h x) = newton p (obs_values y) g L M x) -> obs_block y Rn = invmx L -> obs_rows y J = invmx L *m M ->
    is_laplace (CondDensity f (map_mx Some p) y) (Measurement h Rn p J y)
| LapPotential f l p g L :
    potential_near f l p -> expansion0 l p g L -> good_precision svd rtol L ->
    is_laplace (Potential f (map_mx Some p)) (Measurement id (invmx L) p 1%:M (map_mx Some (p + invmx L *m g)))
| LapPotentialAt f (z : 'cV[option R]_nx) l p g L Rn :
    ignore -> potential_near f (fun x => l (obs_rows z x)) p -> expansion0 l (obs_rows z p) g L ->
    good_precision_at svd rtol nx L -> obs_values z = obs_rows z p + invmx L *m g -> obs_block z Rn = invmx L ->
    is_laplace (Potential f (map_mx Some p)) (Measurement id Rn p 1%:M z).

Lemma acts_like_ext (o : ObservationParams nx) ny (H H' : 'M[R]_(ny, nx)) d d' Rn Rn' y : acts_like o H d Rn y ->
  obs_rows y H = obs_rows y H' -> obs_rows y d = obs_rows y d' -> obs_block y Rn = obs_block y Rn' -> acts_like o H' d' Rn' y.
Proof.
move=> [Hr [dr [X [e u st]]]] e1 e2 e3; exists Hr, dr, X; split=> // b F c Q.
by rewrite st !kf_stepE e1 e2 e3.
Qed.
Lemma same_process ny (f f' : log_cond nx ny) x y : grad (f x) y = grad (f' x) y ->
  hessian grad jacobian (f x) y = hessian grad jacobian (f' x) y ->
  jacobian (fun x => grad (f x) y) x = jacobian (fun x => grad (f' x) y) x ->
  process (CondDensity f x y) = process (CondDensity f' x y).
Proof. by move=> e1 e2 e3; rewrite /process_observation (same_linearization _ _ _ _ e1 e2 e3). Qed.
Lemma same_process_potential (f f' : log_pot nx) x : grad f x = grad f' x ->
  hessian grad jacobian f x = hessian grad jacobian f' x -> process (Potential f x) = process (Potential f' x).
Proof. by move=> e1 e2; rewrite /process_observation (same_taylor _ _ _ _ e1 e2). Qed.
Lemma laplace_acts o m : is_laplace o m ->
  acts_like (process o) (o_jac m) (o_fun m (o_point m) - o_jac m *m o_point m) (o_cov m) (o_y m).
Proof.
case=> [ny f l p y0 g L M fE ex gp|ny f y l p g L M h Rn J ig fE ex gp hE RE JE|f l p g L fE ex gp|f z l p g L Rn ig fE ex gp zE RE];
  rewrite [o_jac _]/= [o_fun _]/= [o_point _]/= [o_cov _]/= [o_y _]/=.
- have [pL _ _] := gp; have [e1 e2 e3] := full_match fE ex pL.
  rewrite (same_process e1 e2 e3) (newton_affine _ _ _ _ _ p) addrC addKr.
  exact: (acts_full tria_spec grad_spec jac_spec rtol0 ignore p y0 (demo_density_ok _ _ _) (good_recoverable gp)).
- have [pL wL dL] := gp; have uL := @pd_unit R_realFieldType _ _ pL; have [sL _] := pL.
  have [r [r0 fE']] := fE.
  pose H' := (Sel y)^T *m (invmx L *m M); pose R' := (Sel y)^T *m invmx L *m Sel y.
  pose d' := (Sel y)^T *m newton p (obs_values y) g L M 0.
  have bE : obs_block y R' = invmx L by apply/matrixP => a b; rewrite mxE conjSel_obs.
  have HE : Sel y *m H' = invmx L *m M by rewrite /H' mulmxA SelSelT mul1mx.
  have dE : Sel y *m d' = newton p (obs_values y) g L M 0 by rewrite /d' mulmxA SelSelT mul1mx.
  have vE : Sel y *m map_mx value y = obs_values y by rewrite Sel_mul; apply/matrixP => a j; rewrite !mxE (ord1 j).
  have SE h0 : Sel y *m map_mx value (moved y h0) = Sel y *m (map_mx value y + h0).
    rewrite !Sel_mul; apply/matrixP => a j; rewrite !mxE (ord1 j).
    by case E: (y (sel a) ord0) => [w|] //=; have := sel_isSome a; rewrite E.
  have [c0 gE] := demo_missing_ok H' d' R' y.
  have [||| |e1 e2 e3] := @match_derivatives _ _ grad_spec jac_spec nx ny _ f (demo_missing H' d' R') y (Sel y) l p g L M H' d'
    c0 r r0 (@maxnorm_obs _ y) uL sL _ _ SE _ HE.
  + by move=> x h0 nx1 hr; rewrite fE' // -!Sel_mul SE mulmxDr.
  + by rewrite vE.
  + by move=> x h0 e; rewrite gE bE /mahalanobis invmxK -Sel_mul.
  + by rewrite vE.
  rewrite (same_process e1 e2 e3).
  have rc : recoverable_at svd rtol y R' by split; rewrite bE ?invmxK //; exact: pd_inv.
  rewrite ig; apply: (acts_like_ext (acts_missing tria_spec grad_spec jac_spec rtol0 p (demo_missing_ok H' d' R' y) rc)).
  + by rewrite JE -Sel_mul.
  + rewrite -!Sel_mul dE mulmxBr mulmxA !Sel_mul hE JE (newton_affine _ _ _ _ _ p); by zmod.
  + by rewrite bE.
- have [pL _ _] := gp; have uL := @pd_unit R_realFieldType _ _ pL.
  have [r [r0 fE']] := fE.
  have fd : density_near (fun _ : 'cV[option R]_nx => f) (fun _ => l) 0 p.
    by exists r; split=> // x v _ nv; exact: fE'.
  have [e1 e2 _] := full_match fd (expansion_const nx ex) pL.
  rewrite (same_process_potential e1 e2).
  have dE : newton 0 p g L 0 (0 : 'cV[R]_nx) = p + invmx L *m g by rewrite /newton mul0mx addr0.
  rewrite mul1mx subrr; apply: (acts_potential tria_spec grad_spec jac_spec rtol0 ignore p _ (good_recoverable gp)).
  exists 0 => x; rewrite /demo_density !odflt_some mulmx0 ?mul0mx add0r dE sub0r; by [].
- have [pL wL dL] := gp; have uL := @pd_unit R_realFieldType _ _ pL; have [sL _] := pL.
  have [r [r0 fE']] := fE.
  pose f' := fun _ : 'cV[option R]_nx => demo_potential z Rn.
  have vE : Sel z *m map_mx value (map_mx Some p) = obs_rows z p by rewrite value_some Sel_mul.
  have SE h0 : Sel z *m map_mx value (moved (map_mx Some p) h0) = Sel z *m (map_mx value (map_mx Some p) + h0).
    by rewrite moved_some !value_some.
  have [c0 gE] := demo_potential_ok z Rn.
  have [||| ||e1 e2 _] := @match_derivatives _ _ grad_spec jac_spec nx nx _ (fun _ : 'cV[option R]_nx => f) f' (map_mx Some p) (Sel z)
    (fun _ => l) 0 g L 0 0 (map_mx (odflt 0) z) c0 r r0 (@maxnorm_obs _ z) uL sL _ _ SE _ _.
  + move=> x h0 _ hr; rewrite moved_some fE'; last by rewrite /near addrAC subrr add0r.
    by rewrite vE -!Sel_mul mulmxDr.
  + by rewrite vE; exact: expansion_const.
  + move=> x h0 e; rewrite moved_some /f' gE RE /mahalanobis invmxK /e moved_some value_some mul0mx add0r Sel_mul.
    suff -> : obs_rows z (p + h0) - obs_values z = obs_rows z (p + h0 - map_mx (odflt 0) z) by [].
    by apply/matrixP => a j; rewrite !mxE (ord1 j).
  + by rewrite !mulmx0.
  + rewrite vE /newton mul0mx addr0 -zE Sel_mul; by apply/matrixP => a j; rewrite !mxE (ord1 j).
  rewrite (same_process_potential e1 e2) mul1mx subrr.
  have rc : recoverable_at svd rtol z Rn by split; rewrite RE ?invmxK //; exact: pd_inv.
  rewrite ig; exact: (acts_potential_at tria_spec grad_spec jac_spec rtol0 p (demo_potential_ok z Rn) rc).
Qed.
End Taylor.
