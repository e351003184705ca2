(** Every positive semidefinite real matrix has a lower-triangular square root, so a routine meeting
    the contract [tria_ok] exists. *)
From Coq Require Import Reals.
From mathcomp Require Import all_ssreflect all_algebra.
From Verif Require Import RStruct MxBase ZmodTac GaussSpec.
Set Implicit Arguments.
Unset Strict Implicit.
Unset Printing Implicit Defensive.
Local Open Scope ring_scope.
Import GRing.Theory Num.Theory Order.Theory.

Lemma real_sqrt (a : R) : 0 <= a -> exists b : R, b * b = a.
Proof. by move=> /RleP h; exists (sqrt a); exact: sqrt_sqrt. Qed.

Lemma chol_exists n (G : 'M[R]_n) : psd G -> exists T : 'M[R]_n, is_trig_mx T /\ T *m T^T = G.
Proof.
elim: n G => [|n IH] G pG.
  by exists 0; split; [apply/is_trig_mxP => -[]|apply/matrixP => -[]].
move: G pG; rewrite -[n.+1]/(1 + n)%N => G [sG qG].
pose a := ulsubmx G ord0 ord0; pose b := dlsubmx G; pose G' := drsubmx G.
have ul : ulsubmx G = a%:M by rewrite [LHS]mx11_scalar.
have ur : ursubmx G = b^T by rewrite -{1}sG -trmx_dlsub.
have GE : G = block_mx a%:M b^T b G' by rewrite -[LHS]submxK ul ur.
have sG' : G'^T = G' by rewrite /G' -{2}sG trmx_drsub.
have qE (s : R) (w : 'cV[R]_n) :
  qf G (col_mx s%:M w) = a * s ^+ 2 + 2%:R * s * (b^T *m w) ord0 ord0 + qf G' w.
  rewrite /qf GE tr_col_mx tr_scalar_mx mul_row_block mul_row_col.
  rewrite -!scalar_mxM !mul_scalar_mx !mulmxDl -!scalemxAl.
  have -> : w^T *m b = (b^T *m w)^T by rewrite trmx_mul trmxK.
  move: (b^T *m w) (w^T *m G' *m w) => u z; rewrite !mul_mx_scalar !mxE /= !mulr1n expr2.
  by move: (u _ _) (z _ _) (a : R) => u' z' a'; toR; ring.
have a0 : 0 <= a.
  have := qG (col_mx 1%:M 0); rewrite qE mulmx0 mxE mulr0 addr0 expr1n mulr1 /qf mulmx0 mxE addr0.
  by [].
have [az|anz] := eqVneq a 0.
  have b0 : b = 0.
    apply: trmx_inj; rewrite trmx0; apply/eqP; apply/contraT => bn.
    have s0 : 0 < sqn b by rewrite lt_def sqn_ge0 sqn_eq0 andbT; apply: contra bn => /eqP->; rewrite trmx0.
    have := qG (col_mx (- (1 + qf G' b) / (2%:R * sqn b))%:M b).
    rewrite qE az mul0r add0r -/(sqn b).
    have -> : 2%:R * (- (1 + qf G' b) / (2%:R * sqn b)) * sqn b = - (1 + qf G' b).
      rewrite invfM mulrA [2%:R * _]mulrC !mulrA mulfK ?pnatr_eq0 //.
      by rewrite mulfVK // lt0r_neq0.
    by rewrite opprD subrK oppr_ge0 ler10.
  have pG' : psd G'.
    split=> // w; have := qG (col_mx 0%:M w).
    by rewrite qE expr0n /= !mulr0 mul0r !add0r.
  have [T [tT eT]] := IH _ pG'.
  exists (block_mx 0 0 0 T); split.
    apply/is_trig_mxP => i j; rewrite !mxE; case: splitP => i' ei; rewrite !mxE; case: splitP => j' ej;
      rewrite ?mxE //; rewrite ei ej ?ltn_add2l => ij; move/is_trig_mxP: tT; exact.
  rewrite tr_block_mx mulmx_block !trmx0 !mulmx0 !mul0mx !addr0 !add0r eT GE b0 az trmx0.
  by congr block_mx; rewrite -[RHS]scale1r scale_scalar_mx mulr0; apply/matrixP => i j; rewrite !mxE mul0rn.
have [s es] := real_sqrt a0.
have snz : s != 0 by apply: contra anz => /eqP s0; rewrite -es s0 mulr0.
have pS : psd (G' - a^-1 *: (b *m b^T)).
  split=> [|w]; first by rewrite trmxB sG' trmxZ !trmxE.
  have := qG (col_mx (- (b^T *m w) ord0 ord0 / a)%:M w); rewrite qE; set t := (b^T *m w) _ _.
  have -> : qf (G' - a^-1 *: (b *m b^T)) w = qf G' w - a^-1 * t ^+ 2.
    rewrite /qf mulmxBr mulmxBl -scalemxAr -scalemxAl mxE [X in _ + X = _]mxE; congr (_ - _).
    have -> : w^T *m (b *m b^T) *m w = (b^T *m w)^T *m (b^T *m w) by rewrite trmx_mul trmxK !mulmxA.
    by rewrite /t; move: (b^T *m w) => u; rewrite !mxE big_ord1 !mxE expr2.
  have -> : a * (- t / a) ^+ 2 + 2%:R * (- t / a) * t + qf G' w = qf G' w - a^-1 * t ^+ 2.
    rewrite expr2 mulrA (mulrCA a) mulfV // mulr1 expr2; move: (a^-1) (qf _ _) => c q; toR; ring.
  by [].
have [T [tT eT]] := IH _ pS.
exists (block_mx s%:M 0 (s^-1 *: b) T); split.
  apply/is_trig_mxP => i j; rewrite !mxE; case: splitP => i' ei; rewrite !mxE; case: splitP => j' ej;
    rewrite ?mxE //; rewrite ei ej ?ltn_add2l => ij.
  - by move: ij; rewrite !ord1 ltnn.
  - by move: ij; rewrite !ord1 ltn0.
  - move/is_trig_mxP: tT; exact.
rewrite tr_block_mx mulmx_block !trmx0 !mulmx0 !mul0mx !addr0 eT GE; congr block_mx.
- by rewrite tr_scalar_mx -scalar_mxM es.
- by rewrite trmxZ mul_scalar_mx scalerA divff // scale1r.
- by rewrite tr_scalar_mx mul_mx_scalar scalerA divff // scale1r.
- by rewrite trmxZ -scalemxAl -scalemxAr scalerA -invfM es addrC subrK.
Qed.

Lemma tria_exists m k (A : 'M[R]_(m, k)) :
  exists T : 'M[R]_m, is_trig_mx T && (T *m T^T == A *m A^T).
Proof.
by have [T [tT eT]] := chol_exists (gram_psd A); exists T; rewrite tT eT eqxx.
Qed.
(** a triangularisation routine *)
Definition some_tria m k (A : 'M[R]_(m, k)) : 'M[R]_m := xchoose (tria_exists A).
Lemma some_tria_ok : tria_ok some_tria.
Proof. by move=> m k A _; have /andP[tT /eqP eT] := xchooseP (tria_exists A). Qed.
