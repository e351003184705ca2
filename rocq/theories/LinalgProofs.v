(** Proofs about marginal_sqrt_cov and symmetric_inv_sqrt. *)
From Coq Require Import Reals Lra FunctionalExtensionality.
From mathcomp Require Import all_ssreflect all_algebra.
From Verif Require Import RStruct MxBase ZmodTac KalmanModel LinalgModel GaussSpec LinalgSpec MvnProofs MvnProofs2.
From Verif Require ScanModel.
Set Implicit Arguments.
Unset Strict Implicit.
Unset Printing Implicit Defensive.
Local Open Scope ring_scope.
Import GRing.Theory Num.Theory Order.Theory.

Section WithTria.
Variable tria : forall m k : nat, 'M[R]_(m, k) -> 'M[R]_m.
Hypothesis tria_spec : tria_ok tria.

Lemma marginal_coreE n size (le : (size <= n)%N) (L : 'M[R]_n) start :
  is_trig_mx (marginal_core tria le L start) /\
  forall i j, (cov (marginal_core tria le L start)) i j = cov L (slice_row start i le) (slice_row start j le).
Proof.
rewrite /marginal_core; set A := \matrix_(_, _) _; have [t e] := tria_spec A le; split=> // i j.
by rewrite /cov e !mxE; apply: eq_bigr => a _; rewrite !mxE.
Qed.
Lemma marginalE n size (L : 'M[R]_n) start : (0 < size)%N -> (size <= n)%N ->
  exists B, [/\ marginal_sqrt_cov tria L start size = ScanModel.Ok B, is_trig_mx B &
    forall (i j : 'I_size) (a b : 'I_n), (a = minn start (n - size) + i :> nat)%N ->
      (b = minn start (n - size) + j :> nat)%N -> (B *m B^T) i j = (L *m L^T) a b].
Proof.
move=> s0 le; rewrite /marginal_sqrt_cov; case: eqP => // e; rewrite castmx_id eqn0Ngt s0 /=.
case: {-}_ / idP => // le'; have [t h] := marginal_coreE le' L start.
eexists; split; [reflexivity|exact: t|] => i j a b ea eb; rewrite -/(cov _) h.
by congr (cov L _ _); apply: val_inj.
Qed.
Lemma block_marginalE n subdim (L : 'M[R]_n) : (0 < subdim)%N -> (subdim %| n)%N -> (0 < n)%N ->
  exists Bs, block_marginal_sqrt_cov tria L subdim = ScanModel.Ok Bs /\ size Bs = (n %/ subdim)%N /\
    forall (k : nat) (d : 'M[R]_subdim), (k < n %/ subdim)%N ->
      is_trig_mx (nth d Bs k) /\
      forall (i j : 'I_subdim) (a b : 'I_n), (a = k * subdim + i :> nat)%N -> (b = k * subdim + j :> nat)%N ->
        (nth d Bs k *m (nth d Bs k)^T) i j = (L *m L^T) a b.
Proof.
move=> s0 dv n0; have le := dvdn_leq n0 dv.
rewrite /block_marginal_sqrt_cov; case: eqP => // e; rewrite castmx_id eqn0Ngt s0 /=.
move: (dv); rewrite /dvdn => /eqP ->; rewrite eqxx /=; case: {-}_ / idP => // le'.
eexists; split; first reflexivity; rewrite size_map size_iota; split=> // k d lk.
rewrite (nth_map 0%N) ?size_iota // nth_iota // add0n.
have [t h] := marginal_coreE le' L (k * subdim)%N; split=> // i j a b ea eb; rewrite -/(cov _) h.
have fits : minn (k * subdim) (n - subdim) = (k * subdim)%N.
  apply/minn_idPl; rewrite -(leq_add2r subdim) subnK // -mulSnr.
  by rewrite -[X in (_ <= X)%N](divnK dv) leq_mul2r lk orbT.
by congr (cov L _ _); apply: val_inj => /=; rewrite fits.
Qed.
End WithTria.
