(** Gaussian conditioning identities (matrix algebra only; no model definitions). *)
From Coq Require Import Reals Lra.
From mathcomp Require Import all_ssreflect all_algebra.
From Verif Require Import RStruct MxBase ZmodTac GaussSpec.
Set Implicit Arguments.
Unset Strict Implicit.
Unset Printing Implicit Defensive.
Local Open Scope ring_scope.
Import GRing.Theory Num.Theory Order.Theory.

Section Algebra.
Variables (n p : nat).
Variables (P : 'M[R]_n) (H : 'M[R]_(p, n)) (Rn : 'M[R]_p).
Hypotheses (sP : P^T = P) (sR : Rn^T = Rn).
Variables (S : 'M[R]_p) (K : 'M[R]_(n, p)).
Hypotheses (SE : S = innovation_cov P H Rn) (KE : K = kalman_gain P H Rn).
Hypothesis uS : S \in unitmx.
Lemma KE' : K = P *m H^T *m invmx S. Proof. by rewrite KE SE. Qed.
Lemma innovT : S^T = S.
Proof. by rewrite SE /innovation_cov !trmxE sP sR mulmxA. Qed.
Lemma gainT : K^T = invmx S *m H *m P.
Proof. by rewrite KE' !trmxE sP trmx_inv innovT mulmxA. Qed.
Lemma gain_innov : K *m S = P *m H^T.
Proof. by rewrite KE' mulmxKV. Qed.
Lemma cond_covT : (cond_cov P H Rn)^T = cond_cov P H Rn.
Proof.
by rewrite /cond_cov -KE !trmxE gainT sP KE' !mulmxA.
Qed.
(** Joseph form *)
Lemma joseph : cond_cov P H Rn = (1%:M - K *m H) *m P *m (1%:M - K *m H)^T + K *m Rn *m K^T.
Proof.
have e : Rn = S - H *m P *m H^T by rewrite SE /innovation_cov; zmod.
rewrite [X in _ + K *m X *m _]e mulmxBr gain_innov /cond_cov -KE !trmxE.
by mxzmod.
Qed.

Hypotheses (uP : P \in unitmx) (uR : Rn \in unitmx).
Variable info : 'M[R]_n.
Hypothesis IE : info = invmx P + H^T *m invmx Rn *m H.
Lemma infoT : info^T = info.
Proof. by rewrite IE !trmxE !trmx_inv sP sR mulmxA. Qed.
Lemma info_gain : info *m K = H^T *m invmx Rn.
Proof.
have h : info *m (P *m H^T) = H^T *m invmx Rn *m S.
  rewrite IE SE /innovation_cov mulmxDl mulmxDr !mulmxA mulVmx // mul1mx addrC; congr (_ + _).
  by rewrite mulmxKV.
by rewrite KE' mulmxA h mulmxK.
Qed.
Lemma inv_innov : invmx Rn *m H *m K = invmx Rn - invmx S.
Proof.
have e : H *m P *m H^T = S - Rn by rewrite SE /innovation_cov addrK.
have -> : invmx Rn *m H *m K = invmx Rn *m (H *m P *m H^T *m invmx S) by rewrite KE' !mulmxA.
by rewrite e mulmxBl mulmxV // mulmxBr mulmx1 mulmxA mulVmx // mul1mx.
Qed.
Lemma info_cond : info *m cond_cov P H Rn = 1%:M.
Proof.
rewrite /cond_cov -KE mulmxBr !mulmxA info_gain IE mulmxDl mulVmx //.
by mxzmod.
Qed.
Lemma cond_unit : cond_cov P H Rn \in unitmx.
Proof. by have [] := mulmx1_unit info_cond. Qed.
Lemma inv_cond : invmx (cond_cov P H Rn) = info.
Proof. exact: invmx_uniqV info_cond. Qed.
Lemma det_cond : \det (cond_cov P H Rn) * \det S = \det P * \det Rn.
Proof.
have h1 : \det info * \det P * \det Rn = \det S.
  rewrite IE; have -> : invmx P + H^T *m invmx Rn *m H = invmx P *m (1%:M + (P *m H^T) *m (invmx Rn *m H)).
    by rewrite mulmxDr mulmx1 !mulmxA mulVmx // mul1mx.
  rewrite det_mulmx sylvester det_inv (mulrAC _ _ (\det P)) mulVf ?mul1r -?unitfE -?unitmxE //.
  rewrite [_ * \det Rn]mulrC -det_mulmx; congr (\det _).
  by rewrite mulmxDr mulmx1 SE /innovation_cov !mulmxA mulmxV // mul1mx addrC.
have h2 : \det info * \det (cond_cov P H Rn) = 1 by rewrite -det_mulmx info_cond det1.
by rewrite -h1 !mulrA [_ * \det info]mulrC h2 mul1r.
Qed.
(** completing the square *)
Lemma complete_square (v : 'cV[R]_n) (r : 'cV[R]_p) :
  v^T *m invmx P *m v + (r - H *m v)^T *m invmx Rn *m (r - H *m v)
  = r^T *m invmx S *m r + (v - K *m r)^T *m info *m (v - K *m r).
Proof.
have k1 : K^T *m info = invmx Rn *m H by rewrite -infoT -trmx_mul info_gain !trmxE trmx_inv sR.
have k2 : v^T *m info *m K = v^T *m H^T *m invmx Rn by rewrite -mulmxA info_gain mulmxA.
have k3 : r^T *m invmx Rn *m H *m K = r^T *m invmx Rn - r^T *m invmx S.
  by rewrite -!mulmxA (mulmxA (invmx Rn)) inv_innov mulmxBr.
rewrite !trmxE; mxexpand; rewrite -(mulmxA r^T K^T) k1.
mxexpand; rewrite k2 k3 IE; mxexpand; zmod.
Qed.
End Algebra.

Lemma ln_prod2 (a b : R) : Rlt 0 a -> Rlt 0 b -> ln (a * b) = ln a + ln b.
Proof. by move=> *; rewrite RmultE ln_mult. Qed.

(** Bayes' rule for Gaussian densities *)
Lemma gauss_bayes n p (P : 'M[R]_n) (H : 'M[R]_(p, n)) (Rn : 'M[R]_p) (m x : 'cV[R]_n) (d y : 'cV[R]_p) :
  P^T = P -> Rn^T = Rn -> innovation_cov P H Rn \in unitmx -> 
  Rlt 0 (\det P) -> Rlt 0 (\det Rn) -> Rlt 0 (\det (innovation_cov P H Rn)) ->
  Rlt 0 (\det (cond_cov P H Rn)) /\
  gauss x m P + gauss y (H *m x + d) Rn
  = gauss y (H *m m + d) (innovation_cov P H Rn) + gauss x (cond_mean m P H d Rn y) (cond_cov P H Rn).
Proof.
move=> sP sR uS pP pR pS.
have nz (a : R) : Rlt 0 a -> a != 0 by move=> h; apply/eqP => e; rewrite e in h; exact: Rlt_irrefl h.
have uP : P \in unitmx by rewrite unitmxE unitfE nz.
have uR : Rn \in unitmx by rewrite unitmxE unitfE nz.
have dE := det_cond erefl erefl uS uP uR erefl.
have pC : Rlt 0 (\det (cond_cov P H Rn)).
  move/RltP: pS => pS; apply/RltP; rewrite -(pmulr_lgt0 _ pS) dE mulr_gt0 //; exact/RltP.
split=> //.
have lE : ln (\det (cond_cov P H Rn)) + ln (\det (innovation_cov P H Rn)) = ln (\det P) + ln (\det Rn).
  by rewrite -!ln_prod2 // dE.
have q := complete_square sP sR erefl erefl uS uP uR erefl (x - m) (y - (H *m m + d)).
have e1 : y - (H *m m + d) - H *m (x - m) = y - (H *m x + d) by mxzmod.
have e2 : x - m - kalman_gain P H Rn *m (y - (H *m m + d)) = x - cond_mean m P H d Rn y.
  by rewrite /cond_mean; zmod.
move: q; rewrite e1 e2 -(inv_cond erefl erefl uS uP uR erefl) => /matrixP/(_ ord0 ord0).
rewrite !mxE -/(mahalanobis _ _) => q.
have q' : mahalanobis P (x - m) + mahalanobis Rn (y - (H *m x + d)) =
  mahalanobis (innovation_cov P H Rn) (y - (H *m m + d)) +
  mahalanobis (cond_cov P H Rn) (x - cond_mean m P H d Rn y).
  by rewrite /mahalanobis !mxE.
rewrite /gauss; move: q' lE.
move: (mahalanobis _ _) (mahalanobis _ _) (mahalanobis _ _) (mahalanobis _ _) => a b c e.
move: (ln _) (ln _) (ln _) (ln _) (ln _) => l0 l1 l2 l3 l4.
move: (n%:R) (p%:R) => u v.
by toR => h1 h2; lra.
Qed.
