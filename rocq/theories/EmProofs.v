(** Expected Gaussian log densities, and the Gibbs inequality for Gaussian chains. *)
From Coq Require Import Reals Lra Lia List FunctionalExtensionality.
From mathcomp Require Import all_ssreflect all_algebra.
From Verif Require Import RStruct MxBase ZmodTac KalmanModel GaussSpec KalmanSpec MvnProofs MvnProofs2
  KalmanProofs BayesProofs TriaExist Trajectory UnbiasedSpec EmSpec PropMap.
From Verif Require InvSqrtProofs.
Set Implicit Arguments.
Unset Strict Implicit.
Unset Printing Implicit Defensive.
Local Open Scope ring_scope.
Import GRing.Theory Num.Theory Order.Theory.

(** ** linear functionals *)
Section Linear.
Variables (U : Type) (mean : (U -> R) -> R) (good : (U -> R) -> Prop).
Hypothesis Hm : expectation_ok mean good.
Definition hm f v : Prop := good f /\ mean f = v.
Lemma hm_const c : hm (fun=> c) c.
Proof. exact: (proj1 Hm c). Qed.
Lemma hm_lin a b f g u v : hm f u -> hm g v -> hm (fun x => a * f x + b * g x) (a * u + b * v).
Proof. by move=> [gf <-] [gg <-]; have [? e] := proj2 Hm f g a b gf gg; split. Qed.
Lemma hm_ext f g v w : (forall x, f x = g x) -> v = w -> hm f v -> hm g w.
Proof. by move=> e <-; rewrite (functional_extensionality f g e). Qed.
Lemma hm_add f g u v : hm f u -> hm g v -> hm (fun x => f x + g x) (u + v).
Proof.
by move=> hf hg; apply: (hm_ext _ _ (hm_lin 1 1 hf hg)) => [x|]; rewrite !mul1r.
Qed.
Lemma hm_scal a f u : hm f u -> hm (fun x => a * f x) (a * u).
Proof.
by move=> hf; apply: (hm_ext _ _ (hm_lin a 0 hf hf)) => [x|]; rewrite mul0r addr0.
Qed.
Lemma hm_sum (I : finType) (f : I -> U -> R) v : (forall i, hm (f i) (v i)) -> hm (fun x => \sum_i f i x) (\sum_i v i).
Proof.
move=> h.
elim: (index_enum I) => [|i s IH].
  by apply: (hm_ext _ _ (hm_const 0)) => [x|]; rewrite big_nil.
by apply: (hm_ext _ _ (hm_add (h i) IH)) => [x|]; rewrite big_cons.
Qed.

(** ** moments of random vectors *)
Definition vec_moments n (z : U -> 'cV[R]_n) (m : 'cV[R]_n) (S : 'M[R]_n) : Prop :=
  (forall i, hm (fun u => z u i ord0) (m i ord0)) /\
  (forall i j, hm (fun u => z u i ord0 * z u j ord0) (m i ord0 * m j ord0 + S i j)).
Lemma vec_affine n p (z : U -> 'cV[R]_n) m S (A : 'M[R]_(p, n)) (b : 'cV[R]_p) : vec_moments z m S ->
  vec_moments (fun u => A *m z u + b) (A *m m + b) (A *m S *m A^T).
Proof.
move=> [h1 h2].
have l1 i : hm (fun u => (A *m z u) i ord0) ((A *m m) i ord0).
  apply: (hm_ext _ _ (hm_sum (fun k => hm_scal (A i k) (h1 k)))) => [u|]; by rewrite mxE.
have l2 i j : hm (fun u => (A *m z u) i ord0 * (A *m z u) j ord0)
    ((A *m m) i ord0 * (A *m m) j ord0 + (A *m S *m A^T) i j).
  apply: (hm_ext _ _ (hm_sum (fun k => hm_scal (A i k) (hm_sum (fun l => hm_scal (A j l) (h2 k l)))))) => [u|].
    rewrite !mxE mulr_suml; apply: eq_bigr => k _; rewrite mulr_sumr mulr_sumr; apply: eq_bigr => l _.
    by rewrite mulrACA mulrA.
  rewrite -mulmxA [(A *m (S *m A^T)) i j]mxE [(A *m m) i ord0]mxE mulr_suml -big_split /=.
  apply: eq_bigr => k _; rewrite !mxE -mulrA -mulrDr; congr (_ * _).
  rewrite mulr_sumr -big_split; apply: eq_bigr => l _; rewrite !mxE /=.
  by rewrite mulrDr [S k l * _]mulrC mulrCA.
split=> [i|i j].
  by apply: (hm_ext _ _ (hm_add (l1 i) (hm_const (b i ord0)))) => [u|]; rewrite [RHS]mxE.
apply: (hm_ext _ _ (hm_add (l2 i j) (hm_add (hm_scal (b j ord0) (l1 i))
   (hm_add (hm_scal (b i ord0) (l1 j)) (hm_const (b i ord0 * b j ord0)))))) => [u|].
  rewrite [X in _ = X * _]mxE [X in _ = _ * X]mxE.
  by move: (_ i _) (_ i _) (_ j _) (_ j _) => ? ? ? ?; toR; ring.
rewrite [(A *m m + b) i ord0]mxE [(A *m m + b) j ord0]mxE mulrDl !mulrDr [b j _ * _]mulrC.
move: (_ * _) (_ * _) (_ * _) (_ * _) ((A *m S *m A^T) i j) => ? ? ? ? ?; toR; ring.
Qed.
Lemma hm_qf n (z : U -> 'cV[R]_n) m S (W : 'M[R]_n) : vec_moments z m S ->
  hm (fun u => ((z u)^T *m W *m z u) ord0 ord0) ((m^T *m W *m m) ord0 ord0 + \tr (W *m S^T)).
Proof.
move=> [h1 h2].
apply: (hm_ext _ _ (hm_sum (fun j => hm_sum (fun i => hm_scal (W i j) (h2 i j))))) => [u|].
  rewrite mxE; apply: eq_bigr => j _; rewrite mxE mulr_suml; apply: eq_bigr => i _.
  by rewrite !mxE mulrA [W i j * _]mulrC.
have -> : \tr (W *m S^T) = \sum_j \sum_i W i j * S i j.
  rewrite /mxtrace exchange_big; apply: eq_bigr => i _; rewrite mxE; apply: eq_bigr => j _; by rewrite mxE.
rewrite mxE -big_split; apply: eq_bigr => j _ /=.
rewrite mxE mulr_suml -big_split; apply: eq_bigr => i _ /=.
by rewrite !mxE mulrDr mulrA [W i j * _]mulrC.
Qed.
Lemma hm_gauss n (z : U -> 'cV[R]_n) m S (P : 'M[R]_n) (c : 'cV[R]_n) : S^T = S -> vec_moments z m S ->
  hm (fun u => gauss (z u) c P) (gauss m c P - 2%:R^-1 * \tr (invmx P *m S)).
Proof.
move=> sS h; have ha := vec_affine 1%:M (- c) h; rewrite !mul1mx trmx1 mulmx1 in ha.
apply: (hm_ext _ _ (hm_add (hm_scal (- 2%:R^-1) (hm_qf (invmx P) ha))
   (hm_const (- (n%:R / 2%:R * ln (2%:R * PI)) - 2%:R^-1 * ln (\det P))))) => [u|].
  by rewrite mul1mx /gauss addrA.
rewrite sS /gauss /mahalanobis mulrDr mulNr -!addrA; congr (_ + _).
by rewrite [in RHS]addrC mulNr !addrA addrC !addrA.
Qed.
End Linear.

(** ** the Gibbs inequality *)
Lemma ln_le (x : R) : 0 < x -> ln x <= x - 1.
Proof.
move=> /RltP x0; have /= h := exp_ineq1_le (ln x); rewrite exp_ln // in h.
apply/RleP; toR; lra.
Qed.
Lemma trig_tr_ln n (A : 'M[R]_n) : is_trig_mx A -> A \in unitmx -> ln (\det (cov A)) <= \tr (cov A) - n%:R.
Proof.
move=> tA uA; have nz : forall i, A i i != 0 by apply/forallP; rewrite -trig_unit.
have -> : ln (\det (cov A)) = \sum_i ln (A i i ^+ 2).
  have -> : ln (\det (cov A)) = 2%:R * (2%:R^-1 * ln (\det (cov A))) by rewrite mulrA divff ?mul1r // pnatr_eq0.
  rewrite ln_det_gram // mulr_sumr; apply: eq_bigr => i _.
  by rewrite -ln_sqr // mulrA divff ?mul1r // pnatr_eq0.
have -> : n%:R = \sum_(i < n) (1 : R) by rewrite sumr_const card_ord.
rewrite /mxtrace -sumrB; apply: ler_sum => i _.
have a0 : 0 < A i i ^+ 2 by rewrite lt_def sqr_ge0 sqrf_eq0 nz.
apply: (le_trans (ln_le a0)); rewrite ler_add2r /cov mxE (bigD1 i) //= mxE -expr2 ler_addl.
by apply: sumr_ge0 => k _; rewrite mxE -expr2 sqr_ge0.
Qed.
Lemma psd_tr n (D : 'M[R]_n) : psd D -> 0 <= \tr D.
Proof.
move=> /chol_exists [L [_ <-]]; apply: sumr_ge0 => i _; rewrite mxE.
by apply: sumr_ge0 => k _; rewrite mxE -expr2 sqr_ge0.
Qed.
Lemma gibbs_mx n (V V' D : 'M[R]_n) : pd V -> pd V' -> psd D ->
  n%:R + ln (\det V) - ln (\det V') <= \tr (invmx V' *m (V + D)).
Proof.
move=> pV pV' pD; have uV' := pd_unit pV'.
have [C [tC eC]] := chol_exists (pd_psd (InvSqrtProofs.pd_inv pV')).
have uC : C \in unitmx by rewrite -gram_unit eC unitmx_inv.
have pM : pd (C^T *m V *m C).
  apply: psd_unit_pd; last by rewrite !unitmx_mul unitmx_tr uC pd_unit.
  by rewrite -{2}[C]trmxK; apply: psd_conj; exact: pd_psd.
have [A [tA eA]] := chol_exists (pd_psd pM).
have uA : A \in unitmx by rewrite -gram_unit eA; exact: pd_unit.
have h := trig_tr_ln tA uA; rewrite /cov eA in h.
have e1 : \tr (C^T *m V *m C) = \tr (invmx V' *m V) by rewrite -eC mxtrace_mulC mulmxA -mulmxA.
have e2 : ln (\det (C^T *m V *m C)) = ln (\det V) - ln (\det V').
  have p1 := pd_det_pos pV; have p2 := pd_det_pos pV'.
  have -> : \det (C^T *m V *m C) = \det V * (\det V')^-1.
    by rewrite -det_inv -eC !det_mulmx det_tr mulrC mulrA mulrC.
  rewrite lnM //; last by apply/RltP; rewrite invr_gt0; apply/RltP.
  by rewrite lnV.
have e3 : 0 <= \tr (invmx V' *m D).
  by rewrite -eC -mulmxA mxtrace_mulC -[X in _ *m X]trmxK; apply: psd_tr; exact: psd_conj.
rewrite mulmxDr mxtraceD -e1; apply: ler_paddr => //.
by rewrite -addrA -e2 addrC -ler_subr_addr.
Qed.

(** expected log density of one factor under the law it belongs to, and under another one *)
Section Factor.
Variables (U : Type) (mean : (U -> R) -> R) (good : (U -> R) -> Prop).
Hypothesis Hm : expectation_ok mean good.
Lemma factor_gibbs n (v v' : U -> 'cV[R]_n) (m m' c : 'cV[R]_n) (V V' D : 'M[R]_n) :
  pd V -> pd V' -> psd D -> vec_moments mean good v m V -> vec_moments mean good v' m' (V + D) ->
  exists e e', [/\ hm mean good (fun u => gauss (v u) m V) e, hm mean good (fun u => gauss (v' u) c V') e' & e' <= e].
Proof.
move=> pV pV' pD h h'; have [sV _] := pV; have [sD _] := pD.
have hV := hm_gauss Hm V m sV h.
have sVD : (V + D)^T = V + D by rewrite linearD /= sV sD.
have hV' := hm_gauss Hm V' c sVD h'.
exists (gauss m m V - 2%:R^-1 * \tr (invmx V *m V)), (gauss m' c V' - 2%:R^-1 * \tr (invmx V' *m (V + D))).
split=> //; have [g1 _] := gauss_mode m' c pV'.
apply: (le_trans (ler_add g1 (lexx _))).
have e n' (x : 'cV[R]_n') P : gauss x x P = - (n'%:R / 2%:R * ln (2%:R * PI)) - 2%:R^-1 * ln (\det P).
  by rewrite /gauss subrr /mahalanobis mulmx0 mxE mulr0 sub0r.
rewrite !e -!addrA ler_add2l mulVmx ?pd_unit // mxtrace1 -!mulNr -!mulrDr.
have g := gibbs_mx pV pV' pD.
rewrite !mulNr ler_opp2 ler_pmul2l ?invr_gt0 ?ltr0n //.
by rewrite -ler_subl_addl [ln _ + _]addrC.
Qed.
End Factor.

Section Chain.
Variables (nx : nat) (mean : ((nat -> 'cV[R]_nx) -> R) -> R) (good : ((nat -> 'cV[R]_nx) -> R) -> Prop).
Hypothesis Hm : expectation_ok mean good.
Variables (m : nat -> 'cV[R]_nx) (P G V : nat -> 'M[R]_nx) (T : nat).
Hypothesis mom : pair_moments mean good m P (fun t => P t.+1 *m (G t)^T) T.
Hypothesis rec : forall t, (t < T)%N -> P t = G t *m P t.+1 *m (G t)^T + V t.
Hypothesis pdT : pd (P T).
Hypothesis pdV : forall t, (t < T)%N -> pd (V t).
Lemma chain_psd t : (t <= T)%N -> psd (P t).
Proof.
move=> lt; rewrite -(subKn lt); move: (leq_subr t T); move: (T - t)%N => k; elim: k => [_|k IH lk].
  by rewrite subn0; exact: pd_psd.
have lk' : (T - k.+1 < T)%N by rewrite ltn_subrL (leq_trans _ lk).
rewrite rec // subnSK //; apply: psdD; last by apply: pd_psd; exact: pdV.
by apply: psd_conj; apply: IH; exact: ltnW.
Qed.
Lemma marginal_moments t : (t <= T)%N -> vec_moments mean good (fun x => x t) (m t) (P t).
Proof. by have [h1 h2 _] := mom; split=> *; [exact: h1|exact: h2]. Qed.
Lemma pair_vec t : (t < T)%N ->
  vec_moments mean good (fun x => col_mx (x t) (x t.+1)) (col_mx (m t) (m t.+1))
    (block_mx (P t) (G t *m P t.+1) (P t.+1 *m (G t)^T) (P t.+1)).
Proof.
move=> lt; have [h1 h2 h3] := mom; have [s1 _] := chain_psd lt.
have cE a (A B : 'cV[R]_nx) : (col_mx A B) (lshift nx a) ord0 = A a ord0 by rewrite col_mxEu.
have dE a (A B : 'cV[R]_nx) : (col_mx A B) (rshift nx a) ord0 = B a ord0 by rewrite col_mxEd.
split=> [i|i j].
  rewrite -[i]splitK; case: fintype.split => a /=.
    by apply: (hm_ext _ _ (h1 t a (ltnW lt))) => [x|]; rewrite cE.
  by apply: (hm_ext _ _ (h1 t.+1 a lt)) => [x|]; rewrite dE.
rewrite -[i]splitK -[j]splitK; case: fintype.split => a; case: fintype.split => b /=.
- by apply: (hm_ext _ _ (h2 t a b (ltnW lt))) => [x|]; rewrite ?block_mxEul !cE.
- apply: (hm_ext _ _ (h3 t b a lt)) => [x|]; rewrite ?block_mxEur cE dE mulrC //; congr (_ + _).
  by rewrite -[G t *m P t.+1]trmxK trmx_mul s1 [in RHS]mxE.
- by apply: (hm_ext _ _ (h3 t a b lt)) => [x|]; rewrite ?block_mxEdl cE dE.
- by apply: (hm_ext _ _ (h2 t.+1 a b lt)) => [x|]; rewrite ?block_mxEdr !dE.
Qed.
Lemma residual_moments t (G' : 'M[R]_nx) : (t < T)%N ->
  vec_moments mean good (fun x => x t - G' *m x t.+1) (m t - G' *m m t.+1)
    (V t + (G t - G') *m P t.+1 *m (G t - G')^T).
Proof.
move=> lt; have h := vec_affine Hm (row_mx 1%:M (- G')) 0 (pair_vec lt).
have e (a b : 'cV[R]_nx) : row_mx 1%:M (- G') *m col_mx a b + 0 = a - G' *m b.
  by rewrite mul_row_col mul1mx mulNmx addr0.
have eS : row_mx 1%:M (- G') *m block_mx (P t) (G t *m P t.+1) (P t.+1 *m (G t)^T) (P t.+1) *m (row_mx 1%:M (- G'))^T
   = V t + (G t - G') *m P t.+1 *m (G t - G')^T.
  rewrite mul_row_block tr_row_mx mul_row_col trmx1 !mul1mx mulmx1 rec //.
  rewrite (linearB (trmx_linear _ _ _)) /= (linearN (trmx_linear _ _ _)) /= ?(mulmxDl, mulmxDr, mulNmx, mulmxN, mulmxA, mulmxBl, mulmxBr, opprK).
  by mxzmod.
move: h; rewrite e eS => -[g1 g2]; split=> [i|i j].
  by apply: (hm_ext _ _ (g1 i)) => [x|//]; rewrite e.
by apply: (hm_ext _ _ (g2 i j)) => [x|//]; rewrite e.
Qed.
Lemma gibbs_chain (m' : 'cV[R]_nx) (P' : 'M[R]_nx) (G' V' : nat -> 'M[R]_nx) (g' : nat -> 'cV[R]_nx) :
  pd P' -> (forall t, (t < T)%N -> pd (V' t)) ->
  exists e e', [/\
    hm mean good (fun x => log_backward x (m T) (P T) G (fun t => m t - G t *m m t.+1) V T) e,
    hm mean good (fun x => log_backward x m' P' G' g' V' T) e' & e' <= e].
Proof.
move=> pP' pV'.
have [e [e' [a1 a2 a3]]] : exists e e', [/\ hm mean good (fun x => gauss (x T) (m T) (P T)) e,
    hm mean good (fun x => gauss (x T) m' P') e' & e' <= e].
  have h := marginal_moments (leqnn T).
  have p0 : psd (0 : 'M[R]_nx) by split=> [|v]; rewrite ?trmx0 // /qf mulmx0 mul0mx mxE.
  by apply: (factor_gibbs Hm m' pdT pP' p0 h) => //; rewrite addr0; exact: h.
have step t : exists e e', (t < T)%N -> [/\
    hm mean good (fun x => gauss (x t) (G t *m x t.+1 + (m t - G t *m m t.+1)) (V t)) e,
    hm mean good (fun x => gauss (x t) (G' t *m x t.+1 + g' t) (V' t)) e' & e' <= e].
  case lt: (t < T)%N; last by exists 0, 0.
  have r := residual_moments (G t) lt; have r' := residual_moments (G' t) lt.
  have pD : psd ((G t - G' t) *m P t.+1 *m (G t - G' t)^T) by apply: psd_conj; exact: chain_psd.
  rewrite subrr mul0mx mul0mx addr0 in r.
  have [f [f' [f1 f2 f3]]] := factor_gibbs Hm (g' t) (pdV lt) (pV' t lt) pD r r'.
  exists f, f' => _; split=> //.
  - by apply: (hm_ext _ _ f1) => [x|//]; rewrite /gauss; congr (_ * mahalanobis _ _ - _ - _); mxzmod.
  - by apply: (hm_ext _ _ f2) => [x|//]; rewrite /gauss; congr (_ * mahalanobis _ _ - _ - _); mxzmod.
have [f hf] : exists f, forall t : 'I_T, exists e', [/\
    hm mean good (fun x => gauss (x t) (G t *m x t.+1 + (m t - G t *m m t.+1)) (V t)) (f t),
    hm mean good (fun x => gauss (x t) (G' t *m x t.+1 + g' t) (V' t)) e' & e' <= f t].
  exists (fun t => mean (fun x => gauss (x t) (G t *m x t.+1 + (m t - G t *m m t.+1)) (V t))) => t.
  by have [e1 [e2 /(_ (ltn_ord t)) [b1 b2 b3]]] := step t; exists e2; split=> //; have [? ->] := b1.
have hf' (t : 'I_T) : hm mean good (fun x => gauss (x t) (G' t *m x t.+1 + g' t) (V' t))
     (mean (fun x => gauss (x t) (G' t *m x t.+1 + g' t) (V' t))) /\
     mean (fun x => gauss (x t) (G' t *m x t.+1 + g' t) (V' t)) <= f t.
  by have [e2 [_ [b2 b2'] b3]] := hf t; rewrite b2'; split.
exists (e + \sum_(t < T) f t), (e' + \sum_(t < T) mean (fun x => gauss (x t) (G' t *m x t.+1 + g' t) (V' t))); split.
- by apply: (hm_add Hm a1); apply: (hm_sum Hm) => t; have [e2 []] := hf t.
- by apply: (hm_add Hm a2); apply: (hm_sum Hm) => t; have [] := hf' t.
- by apply: ler_add => //; apply: ler_sum => t _; have [] := hf' t.
Qed.
End Chain.
