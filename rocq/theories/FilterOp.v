(** The Kalman filtering operator in covariance form, and its associativity. *)
From Coq Require Import Reals Lra.
From mathcomp Require Import all_ssreflect all_algebra.
From Verif Require Import RStruct MxBase ZmodTac KalmanModel GaussSpec MvnProofs MvnProofs2 KalmanProofs OpAlgebra.
Set Implicit Arguments.
Unset Strict Implicit.
Unset Printing Implicit Defensive.
Local Open Scope ring_scope.
Import GRing.Theory Num.Theory Order.Theory.

Ltac mx0 := rewrite ?(mul0mx, mulmx0, addr0, add0r, mul1mx, mulmx1).
(** ** augmented matrices *)
Section Aug.
Variable n : nat.
Implicit Types (A C J D : 'M[R]_n) (b eta : 'cV[R]_n) (lam : 'M[R]_1).
Definition augA A b : 'M[R]_(n + 1) := locked (block_mx A b 0 1%:M).
Definition augC C : 'M[R]_(n + 1) := locked (block_mx C 0 0 0).
Definition augJ J eta lam : 'M[R]_(n + 1) := locked (block_mx J (- eta) (- eta^T) lam).
Definition augD D C eta : 'M[R]_(n + 1) := locked (block_mx D (D *m C *m eta) 0 1%:M).
Lemma augA_inj A b A' b' : augA A b = augA A' b' -> A = A' /\ b = b'.
Proof. by rewrite /augA /augC -!lock => /eq_block_mx[]. Qed.
Lemma augC_inj C C' : augC C = augC C' -> C = C'.
Proof. by rewrite /augA /augC -!lock => /eq_block_mx[]. Qed.
Lemma augJ_inj J eta lam J' eta' lam' : augJ J eta lam = augJ J' eta' lam' ->
  [/\ J = J', eta = eta' & lam = lam'].
Proof. by rewrite /augJ -!lock => /eq_block_mx[-> /oppr_inj -> _ ->]. Qed.
Lemma augCT C : C^T = C -> (augC C)^T = augC C.
Proof. by move=> h; rewrite /augC -!lock tr_block_mx h !trmx0. Qed.
Lemma augJT J eta lam : J^T = J -> (augJ J eta lam)^T = augJ J eta lam.
Proof.
move=> h; rewrite /augJ -!lock tr_block_mx h !trmxE; congr block_mx.
by rewrite [lam]mx11_scalar tr_scalar_mx.
Qed.
Lemma one_block : 1%:M = block_mx 1%:M 0 0 1%:M :> 'M[R]_(n + 1).
Proof. by rewrite -scalar_mx_block. Qed.
Lemma augD_inv C J D eta lam : D *m (1%:M + C *m J) = 1%:M ->
  augD D C eta *m (1%:M + augC C *m augJ J eta lam) = 1%:M.
Proof.
move=> h; rewrite /augD /augC /augJ -!lock mulmx_block !mul0mx !addr0 one_block add_block_mx.
rewrite mulmx_block h !mul0mx !addr0 !add0r !mul1mx ?mulmx1 ?mulmx0.
by congr block_mx; mxzmod.
Qed.
Section Comp.
Variables (A1 A2 C1 C2 J1 J2 D : 'M[R]_n) (b1 b2 eta1 eta2 : 'cV[R]_n) (lam1 lam2 : 'M[R]_1).
Lemma aug_compA : augA A2 b2 *m augD D C1 eta2 *m augA A1 b1
  = augA (A2 *m D *m A1) (A2 *m D *m (b1 + C1 *m eta2) + b2).
Proof.
rewrite /augA /augD -!lock !mulmx_block !mul0mx !mulmx0 ?addr0 ?add0r !mulmx1 ?mul1mx.
by congr block_mx; mxzmod.
Qed.
Lemma aug_compC : augA A2 b2 *m augD D C1 eta2 *m augC C1 *m (augA A2 b2)^T + augC C2
  = augC (A2 *m D *m C1 *m A2^T + C2).
Proof.
rewrite /augA /augD /augC -!lock tr_block_mx !mulmx_block !trmxE; mx0.
by rewrite add_block_mx; mx0.
Qed.
Hypotheses (sC1 : C1^T = C1) (sJ2 : J2^T = J2) (hD : D *m (1%:M + C1 *m J2) = 1%:M).
Definition op_q : 'M[R]_1 := eta2^T *m D *m C1 *m eta2 + eta2^T *m D *m b1 + b1^T *m D^T *m eta2
   - b1^T *m J2 *m D *m b1.
Lemma JD_DJ : D^T *m J2 = J2 *m D.
Proof.
rewrite (DT sC1 sJ2 hD); have -> : (1%:M - J2 *m D *m C1) *m J2 = J2 *m D *m (1%:M + C1 *m J2) - J2 *m D *m C1 *m J2.
  by rewrite -(mulmxA J2 D (_ + _)) hD; mxzmod.
by mxzmod.
Qed.
Lemma aug_compJ : (augA A1 b1)^T *m augJ J2 eta2 lam2 *m augD D C1 eta2 *m augA A1 b1 + augJ J1 eta1 lam1
  = augJ (A1^T *m J2 *m D *m A1 + J1) (A1^T *m (D^T *m (eta2 - J2 *m b1)) + eta1) (lam1 + lam2 - op_q).
Proof.
have t := DT sC1 sJ2 hD; have jd := JD_DJ.
have t1 : D^T *m eta2 = eta2 - J2 *m D *m C1 *m eta2 by rewrite t mulmxBl mul1mx.
have M : augJ J2 eta2 lam2 *m augD D C1 eta2
  = block_mx (J2 *m D) (- (D^T *m eta2)) (- (eta2^T *m D)) (lam2 - eta2^T *m D *m C1 *m eta2).
  rewrite /augJ /augD -!lock mulmx_block !mulmx0 !mulmx1 ?addr0 t1; congr block_mx; by mxzmod.
rewrite -(mulmxA _ (augJ _ _ _)) M /augA /augJ -!lock tr_block_mx !mulmx_block !trmxE; mx0.
rewrite add_block_mx; congr block_mx.
- by mxzmod.
- by rewrite mulmxBr (mulmxA D^T) jd; mxzmod.
- by rewrite sJ2; mxzmod.
- by rewrite /op_q; mxzmod.
Qed.
End Comp.
End Aug.

(** ** covariance form of scan elements *)
Record ce n := MkCE { cA : 'M[R]_n; cb : 'cV[R]_n; cC : 'M[R]_n; ceta : 'cV[R]_n; cJ : 'M[R]_n; cl : R }.
Definition dec n (e : FilterScanElement n) : ce n :=
  MkCE (fA e) (fb e) (cov (fU e)) (feta e) (cov (fZ e)) (fell e).
Definition ce_op n (e1 e2 : ce n) : ce n :=
  let D := invmx (1%:M + cC e1 *m cJ e2) in
  MkCE (cA e2 *m D *m cA e1)
       (cA e2 *m D *m (cb e1 + cC e1 *m ceta e2) + cb e2)
       (cA e2 *m D *m cC e1 *m (cA e2)^T + cC e2)
       ((cA e1)^T *m (D^T *m (ceta e2 - cJ e2 *m cb e1)) + ceta e1)
       ((cA e1)^T *m cJ e2 *m D *m cA e1 + cJ e1)
       (cl e1 + cl e2 + 2%:R^-1 * op_q (cC e1) (cJ e2) D (cb e1) (ceta e2) ord0 ord0
        - 2%:R^-1 * ln `|\det (1%:M + cC e1 *m cJ e2)|).


Section CeAssocAlg.
Variable n : nat.
Variables (A1 A2 A3 C1 C2 C3 J1 J2 J3 : 'M[R]_n) (b1 b2 b3 h1 h2 h3 : 'cV[R]_n).
Hypotheses (sC1 : C1^T = C1) (sC2 : C2^T = C2) (sJ2 : J2^T = J2) (sJ3 : J3^T = J3).
Variables D12 D23 E G C12 J23 : 'M[R]_n.
Variables b12 h23 : 'cV[R]_n.
Hypotheses (d12 : D12 *m (1%:M + C1 *m J2) = 1%:M) (d23 : D23 *m (1%:M + C2 *m J3) = 1%:M).
Hypothesis C12E : C12 = A2 *m D12 *m C1 *m A2^T + C2.
Hypothesis J23E : J23 = A2^T *m J3 *m D23 *m A2 + J2.
Hypotheses (eE : E *m (1%:M + C12 *m J3) = 1%:M) (gE : G *m (1%:M + C1 *m J23) = 1%:M).
Hypothesis b12E : b12 = A2 *m D12 *m (b1 + C1 *m h2) + b2.
Hypothesis h23E : h23 = A2^T *m (D23^T *m (h3 - J3 *m b2)) + h2.
Lemma DC_sym (C J D : 'M[R]_n) : C^T = C -> J^T = J -> D *m (1%:M + C *m J) = 1%:M -> D *m C = C *m D^T.
Proof.
move=> sC sJ h; rewrite (DT sC sJ h); have h' := mulmx1C h.
have -> : C *m (1%:M - J *m D *m C) = (1%:M + C *m J) *m D *m C - C *m J *m D *m C by rewrite h'; mxzmod.
by mxzmod.
Qed.
Lemma ce_alg :
  [/\ A3 *m E *m (A2 *m D12 *m A1) = (A3 *m D23 *m A2) *m G *m A1,
      A3 *m E *m (b12 + C12 *m h3) + b3
      = (A3 *m D23 *m A2) *m G *m (b1 + C1 *m h23) + (A3 *m D23 *m (b2 + C2 *m h3) + b3),
      A3 *m E *m C12 *m A3^T + C3
      = (A3 *m D23 *m A2) *m G *m C1 *m (A3 *m D23 *m A2)^T + (A3 *m D23 *m C2 *m A3^T + C3) &
      [/\ (A2 *m D12 *m A1)^T *m (E^T *m (h3 - J3 *m b12)) + (A1^T *m (D12^T *m (h2 - J2 *m b1)) + h1)
        = A1^T *m (G^T *m (h23 - J23 *m b1)) + h1,
      (A2 *m D12 *m A1)^T *m J3 *m E *m (A2 *m D12 *m A1) + (A1^T *m J2 *m D12 *m A1 + J1)
        = A1^T *m J23 *m G *m A1 + J1 &
      op_q C1 J2 D12 b1 h2 + op_q C12 J3 E b12 h3 = op_q C2 J3 D23 b2 h3 + op_q C1 J23 G b1 h23]].
Proof.
have sC12 : C12^T = C12.
  by rewrite C12E !trmxE sC1 sC2; congr (_ + _); rewrite -!mulmxA (mulmxA D12) (DC_sym sC1 sJ2 d12) !mulmxA.
have sJ23 : J23^T = J23.
  by rewrite J23E !trmxE sJ2 sJ3; congr (_ + _); rewrite -!mulmxA (mulmxA D23^T) (JD_DJ sC2 sJ3 d23) !mulmxA.
pose q23 := op_q C2 J3 D23 b2 h3; pose q12 := op_q C1 J2 D12 b1 h2.
have t12 := augD_inv h2 0 d12; have t23 := augD_inv h3 0 d23.
have tE := augD_inv h3 0 eE; have tG := augD_inv h23 (0 + 0 - q23) gE.
have c12 := esym (aug_compC A2 C1 C2 D12 b2 h2).
have j23 := esym (aug_compJ A2 J2 b2 h2 h3 0 0 sC2 sJ3 d23).
rewrite -C12E in c12; rewrite -J23E -h23E -/q23 in j23.
have kA := assocA (augA A1 b1) (augA A3 b3) t12 t23 c12 j23 tE tG.
have kC := assocC (augA A3 b3) (augC C3) (augCT sC2) (augJT h3 0 sJ3) t12 t23 c12 j23 tE tG.
have kJ := assocJ (augA A1 b1) (augJ J1 h1 0) (augCT sC1) (augJT h2 0 sJ2) t12 t23 c12 j23 tE tG.
have e12 := aug_compA A1 A2 C1 D12 b1 b2 h2; rewrite -b12E in e12.
have e23 := aug_compA A2 A3 C2 D23 b2 b3 h3.
rewrite e12 e23 in kA kC kJ.
move: kA; rewrite !aug_compA => /augA_inj[-> ->].
move: kC; rewrite !aug_compC => /augC_inj ->.
move: kJ; rewrite (aug_compJ _ _ _ _ _ _ _ sC1 sJ2 d12) (aug_compJ _ _ _ _ _ _ _ sC12 sJ3 eE).
rewrite (aug_compJ _ _ _ _ _ _ _ sC1 sJ23 gE) => /augJ_inj[-> -> q].
split=> //; split=> //; move: q; rewrite /q23.
move: (op_q _ _ _ _ _) (op_q _ _ _ _ _) (op_q _ _ _ _ _) (op_q _ _ _ _ _) => x y z w q.
apply: oppr_inj; transitivity (0 + 0 - w + 0 - z); first by zmod.
by rewrite q; zmod.
Qed.
End CeAssocAlg.

Lemma ce_assoc n (e1 e2 e3 : ce n) :
  (cC e1)^T = cC e1 -> (cC e2)^T = cC e2 -> (cJ e2)^T = cJ e2 -> (cJ e3)^T = cJ e3 ->
  1%:M + cC e1 *m cJ e2 \in unitmx -> 1%:M + cC e2 *m cJ e3 \in unitmx ->
  1%:M + cC (ce_op e1 e2) *m cJ e3 \in unitmx -> 1%:M + cC e1 *m cJ (ce_op e2 e3) \in unitmx ->
  ce_op (ce_op e1 e2) e3 = ce_op e1 (ce_op e2 e3).
Proof.
move: e1 e2 e3 => [A1 b1 C1 h1 J1 l1] [A2 b2 C2 h2 J2 l2] [A3 b3 C3 h3 J3 l3] /=.
move=> sC1 sC2 sJ2 sJ3 u12 u23 uE uG.
have [a1 a2 a3 [a4 a5 a6]] := ce_alg A1 A3 C3 J1 b3 h1 sC1 sC2 sJ2 sJ3 (mulVmx u12) (mulVmx u23) erefl erefl
  (mulVmx uE) (mulVmx uG) (erefl (A2 *m _ *m (b1 + _) + b2)) (erefl (_ *m (_ *m (h3 - _ *m b2)) + h2)).
rewrite /ce_op /= a1 a2 a3 a4 a5; congr MkCE.
have cc := det_cocycle (mulVmx u12) (mulVmx u23) erefl erefl.
move: (congr1 (fun M : 'M_1 => M ord0 ord0) a6) => /=; rewrite [LHS]mxE [RHS]mxE => q.
have c : ln `|\det (1%:M + C1 *m J2)| + ln `|\det (1%:M + (A2 *m invmx (1%:M + C1 *m J2) *m C1 *m A2^T + C2) *m J3)|
       = ln `|\det (1%:M + C1 *m (A2^T *m J3 *m invmx (1%:M + C2 *m J3) *m A2 + J2))| + ln `|\det (1%:M + C2 *m J3)|.
  rewrite -!lnM; try by apply: norm_pos; rewrite -unitfE -unitmxE.
  by rewrite -!normrM cc.
move: q c; move: (op_q _ _ _ _ _ _ _) (op_q _ _ _ _ _ _ _) (op_q _ _ _ _ _ _ _) (op_q _ _ _ _ _ _ _) => x y z w.
move: (ln _) (ln _) (ln _) (ln _) => r s t u.
by toR => q c; lra.
Qed.

Section Model.
Variable tria : forall m l : nat, 'M[R]_(m, l) -> 'M[R]_m.
Hypothesis tria_spec : tria_ok tria.
Variable n : nat.
Implicit Types e : FilterScanElement n.
Definition good e := is_trig_mx (fU e) /\ fU e \in unitmx.
Lemma unit_CJ (U Z : 'M[R]_n) : 1%:M + cov U *m cov Z \in unitmx.
Proof. exact: (unit_1CJ erefl (gram_psd Z)). Qed.

Lemma opE e1 e2 :
  let e := filtering_operator tria e1 e2 in
  [/\ cA (dec e) = cA (ce_op (dec e1) (dec e2)), cb (dec e) = cb (ce_op (dec e1) (dec e2)),
      cC (dec e) = cC (ce_op (dec e1) (dec e2)), ceta (dec e) = ceta (ce_op (dec e1) (dec e2)) &
      cJ (dec e) = cJ (ce_op (dec e1) (dec e2))] /\
  (good e1 -> cl (dec e) = cl (ce_op (dec e1) (dec e2))).
Proof.
move: e1 e2 => [A1 b1 U1 h1 Z1 l1] [A2 b2 U2 h2 Z2 l2].
rewrite /filtering_operator /dec /ce_op /good /=; set T := tria _.
set C1 := cov U1; set J2 := cov Z2; set D := invmx (1%:M + C1 *m J2).
have cov1 : cov (1%:M : 'M[R]_n) = 1%:M by rewrite /cov trmx1 mulmx1.
have uS : innovation_cov J2 U1^T (cov 1%:M) \in unitmx.
  rewrite /innovation_cov cov1 trmxK addrC -mulmxA unit_sylvester -mulmxA -/(cov U1) -unit_sylvester.
  exact: unit_CJ.
have [t1 _] : is_trig_mx (ulsubmx T) /\ is_trig_mx (drsubmx T) := joint_trig tria_spec U1^T 1%:M Z2.
have [_ [e1 _ _]] := joint_block tria_spec U1^T 1%:M Z2.
have [u1 g c22] := joint_unit tria_spec uS; rewrite -/T in e1 u1 g c22.
set S := innovation_cov J2 U1^T (cov 1%:M) in uS e1 g c22.
have SE : S = 1%:M + U1^T *m (J2 *m U1) by rewrite /S /innovation_cov cov1 trmxK addrC mulmxA.
have DU : D *m U1 = U1 *m invmx S.
  rewrite /D SE /C1 /cov -mulmxA push_through; last by rewrite mulmxA; exact: unit_CJ.
  by rewrite -mulmxA.
have uD : 1%:M + C1 *m J2 \in unitmx by exact: unit_CJ.
have hD : D *m (1%:M + C1 *m J2) = 1%:M by exact: mulVmx.
have sJ2 : J2^T = J2 by exact: covT.
have sC1 : C1^T = C1 by exact: covT.
rewrite -/J2 in g c22.
have C1E : C1 = U1 *m U1^T by []. have J2E : J2 = Z2 *m Z2^T by [].
have gE : kalman_gain J2 U1^T (cov 1%:M) = J2 *m U1 *m invmx S by rewrite /kalman_gain -/S trmxK.
rewrite gE in g.
have c22' : cov (drsubmx T) = J2 - J2 *m U1 *m invmx S *m U1^T *m J2 by rewrite c22 /cond_cov gE.
clear c22 gE; clearbody S D J2 C1.
have sS : S^T = S by rewrite SE !trmxE sJ2 mulmxA.
rewrite solve_lowerE // trmx_mul trmxK.
have cov_tmp : cov (U1 *m (invmx (ulsubmx T))^T) = D *m C1.
  rewrite cov_mul C1E (mulmxA D) DU; congr (U1 *m _ *m _).
  by rewrite /cov trmxK trmx_inv -invmxM ?unitmx_tr // -/(cov _) e1.
have Dinv : 1%:M - U1 *m (invmx (ulsubmx T))^T *m (dlsubmx T)^T = D.
  rewrite -mulmxA -trmx_mul g !trmxE trmx_inv sS sJ2 !mulmxA -DU.
  have -> : D *m U1 *m U1^T *m J2 = D *m (1%:M + C1 *m J2) - D by rewrite C1E; mxzmod.
  by rewrite hD; zmod.
have c22E : cov (drsubmx T) = J2 *m D.
  rewrite c22'.
  have -> : J2 *m U1 *m invmx S *m U1^T *m J2 = J2 *m (U1 *m invmx S *m U1^T *m J2) by rewrite !mulmxA.
  rewrite -DU; have -> : D *m U1 *m U1^T *m J2 = D *m (1%:M + C1 *m J2) - D by rewrite C1E; mxzmod.
  by rewrite hD; mxzmod.
rewrite Dinv; have [tU eU] := tria_row tria_spec (A2 *m (U1 *m (invmx (ulsubmx T))^T)) U2 (leq_addl n n).
have [tZ eZ] := tria_row tria_spec (A1^T *m drsubmx T) Z1 (leq_addl n n).
rewrite eU eZ !cov_mul -cov_mul cov_tmp c22E trmxK; split.
  by split; rewrite ?mulmxA // ?C1E ?J2E ?mulmxA.
move=> [tU1 uU1]; have uC : C1 \in unitmx by rewrite C1E gram_unit.
rewrite cho_solveE // -C1E (mulmxA U1) -C1E /dot.
have detD : \det D = (\det (1%:M + C1 *m J2))^-1.
  have := congr1 (@determinant _ _) hD; rewrite det_mulmx det1 => h.
  have nz : \det (1%:M + C1 *m J2) != 0 by rewrite -unitfE -unitmxE.
  by apply: (mulIf nz); rewrite h mulVf.
have pd : Rlt 0 `|\det (1%:M + C1 *m J2)| by apply: norm_pos; rewrite -unitfE -unitmxE.
rewrite detD normfV lnV //.
have ci1 : invmx C1 *m D = invmx C1 - J2 *m D.
  have e : D = 1%:M - C1 *m J2 *m D.
    by have := mulmx1C hD; rewrite mulmxDl mul1mx => e; rewrite -e; zmod.
  by rewrite {1}e mulmxBr mulmx1 !mulmxA mulVmx // mul1mx.
have ci2 : invmx C1 *m D *m C1 = D^T.
  by rewrite -mulmxA (DC_sym sC1 sJ2 hD) mulmxA mulVmx // mul1mx.
have q : b1^T *m (invmx C1 *m b1) - (h2 + invmx C1 *m b1)^T *m (D *m (b1 + C1 *m h2)) = - op_q C1 J2 D b1 h2.
  have -> : (h2 + invmx C1 *m b1)^T *m (D *m (b1 + C1 *m h2)) =
     h2^T *m D *m b1 + h2^T *m D *m C1 *m h2 + b1^T *m (invmx C1 *m D) *m b1
     + b1^T *m (invmx C1 *m D *m C1) *m h2.
    by rewrite !trmxE trmx_inv sC1; mxzmod.
  by rewrite ci2 ci1 /op_q; mxzmod.
move: (congr1 (fun M : 'M_1 => M ord0 ord0) q) => /=.
rewrite [X in X = _ -> _]mxE [X in _ + X = _ -> _]mxE [X in _ = X -> _]mxE.
move: (op_q _ _ _ _ _ _ _) (ln _) ((_ *m _) _ _) ((_ *m _) _ _) => x y z w.
by toR => h; lra.
Qed.

Lemma op_good e1 e2 : good e2 -> good (filtering_operator tria e1 e2).
Proof.
case: e1 e2 => A1 b1 U1 h1 Z1 l1 [A2 b2 U2 h2 Z2 l2] [/= t2 u2]; split=> /=.
  by apply: tria_trig => //; exact: leq_addl.
rewrite -gram_unit -/(cov _) tria_cov ?leq_addl // cov_row.
by apply: pd_unit; apply: pdDr; [exact: gram_psd|exact: unit_pd].
Qed.
(** C15: associativity *)
Lemma op_dec e1 e2 : good e1 -> dec (filtering_operator tria e1 e2) = ce_op (dec e1) (dec e2).
Proof.
move=> g; have [[a1 a2 a3 a4 a5] /(_ g) a6] := opE e1 e2.
by move: a1 a2 a3 a4 a5 a6; rewrite /ce_op /dec /= => -> -> -> -> -> ->.
Qed.
Lemma op_assoc e1 e2 e3 : good e1 -> good e2 ->
  dec (filtering_operator tria (filtering_operator tria e1 e2) e3)
  = dec (filtering_operator tria e1 (filtering_operator tria e2 e3)).
Proof.
move=> g1 g2; have g12 := op_good e1 g2.
rewrite !op_dec //; apply: ce_assoc; rewrite -?op_dec //=; try exact: covT; exact: unit_CJ.
Qed.
End Model.
