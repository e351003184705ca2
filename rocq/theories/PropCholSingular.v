(** C55: which zeros on the diagonal of the given factor break Cholesky updates. *)
From Coq Require Import Reals Lra.
From mathcomp Require Import all_ssreflect all_algebra.
From Verif Require Import RStruct MxBase ZmodTac KalmanModel MvnProofs QuadModel CholUpdate PropQuad CholSingular.
Set Implicit Arguments.
Unset Strict Implicit.
Unset Printing Implicit Defensive.
Local Open Scope ring_scope.
Import GRing.Theory Num.Theory Order.Theory.

Lemma first_zero n (L : 'M[R]_n) : exists m : nat,
  [/\ (m <= n)%N, forall j : 'I_n, (j < m)%N -> L j j != 0 & forall j : 'I_n, val j = m -> L j j = 0].
Proof.
pose P m := (m == n) || [exists j : 'I_n, (val j == m) && (L j j == 0)].
have ex : exists m, P m by exists n; rewrite /P eqxx.
exists (ex_minn ex); case: ex_minnP => m Pm min; split.
- by apply: min; rewrite /P eqxx.
- move=> j jm; apply/negP => /eqP z; have : P j by apply/orP; right; apply/existsP; exists j; rewrite eqxx z eqxx.
  by move/min; rewrite leqNgt jm.
move=> j jm; case/orP: Pm => [/eqP mn|/existsP [k /andP [/eqP km /eqP z]]].
  by move: (ltn_ord j) => /=; rewrite jm mn ltnn.
by have -> : j = k by apply: val_inj; rewrite /= km.
Qed.

Lemma update_one n (L : 'M[R]_n) al (v : 'cV[R]_n) : is_trig_mx L -> 0 <= al ->
  (forall k : 'I_n, (k.+1 < n)%N -> L k k != 0) ->
  let L' := cholesky_update L al v in
  [/\ is_trig_mx L', L' *m L'^T = L *m L^T + al *: (v *m v^T) & forall k : 'I_n, (k.+1 < n)%N -> L' k k != 0].
Proof.
move=> tL al0 dL; have [m [mn nz z]] := first_zero L.
have nm : (n <= m.+1)%N.
  rewrite leqNgt; apply/negP => h; have mn' : (m < n)%N by exact: ltnW.
  by have /eqP := dL (Ordinal mn') h; apply; exact: z.
split; first exact: update_trig z.
  exact: update_exact z nm.
move=> k kn; apply: (update_pos v tL al0 mn nz z); rewrite -ltnS; exact: leq_trans kn nm.
Qed.

(** the last diagonal entry of the factor may be zero: the updates are exact *)
Theorem C55_exact n K (L : 'M[R]_n) (V : 'M[R]_(K, n)) (al : R) : is_trig_mx L -> 0 <= al ->
  (forall k : 'I_n, (k.+1 < n)%N -> L k k != 0) ->
  let L' := cholesky_update_many L V al in
  is_trig_mx L' /\ L' *m L'^T = L *m L^T + al *: (V^T *m V).
Proof.
move=> tL al0 dL /=; rewrite /cholesky_update_many -sum_row_gram -[\sum_i _]big_enum /=.
elim: (enum _) L tL dL => [|j js IH] L0 t d; first by rewrite big_nil scaler0 addr0.
have [t' e' d'] := update_one (row j V)^T t al0 d.
have [t2 e2] := IH _ t' d'; rewrite /=; split; first exact: t2.
by rewrite e2 e' big_cons trmxK -addrA -scalerDr.
Qed.
(** any earlier zero: the last column of the updated factor is zero *)
Theorem C55_zero_pivot n (L : 'M[R]_n) (v : 'cV[R]_n) (al : R) (k l : 'I_n) : is_trig_mx L -> 0 <= al ->
  L k k = 0 -> (k < l)%N -> forall i, cholesky_update L al v i l = 0.
Proof.
move=> tL al0 zk kl; have [m [mn nz z]] := first_zero L; apply: (update_last_zero v tL al0 mn nz z).
by apply: leq_ltn_trans kl; rewrite leqNgt; apply/negP => /nz; rewrite zk eqxx.
Qed.
(** so one update to a positive definite matrix is exact exactly when only the last entry may be zero *)
Theorem C55_exact_iff n (L : 'M[R]_n) (v : 'cV[R]_n) (al : R) : is_trig_mx L -> 0 <= al ->
  pd (L *m L^T + al *: (v *m v^T)) ->
  (let L' := cholesky_update L al v in L' *m L'^T = L *m L^T + al *: (v *m v^T))
  <-> (forall k : 'I_n, (k.+1 < n)%N -> L k k <> 0).
Proof.
move=> tL al0 p /=; split=> [e k kn zk|dL]; last first.
  have dL' (k : 'I_n) : (k.+1 < n)%N -> L k k != 0 by move=> kn; apply/eqP; exact: dL.
  by have [_ -> _] := update_one v tL al0 dL'.
have c0 := @C55_zero_pivot n L v al k (Ordinal kn) tL al0 zk (ltnSn k).
have := pd_unit p; rewrite -e unitmx_mul => /andP [u _].
have : delta_mx (Ordinal kn) (ord0 : 'I_1) = 0 :> 'cV[R]_n.
  rewrite -[LHS]mul1mx -(mulVmx u) -mulmxA (_ : _ *m delta_mx _ _ = 0) ?mulmx0 //.
  by rewrite -colE; apply/colP => i; rewrite mxE c0 mxE.
by move/matrixP/(_ (Ordinal kn) ord0); rewrite !mxE !eqxx => /eqP; rewrite oner_eq0.
Qed.
(** diag(1, 0) can be updated; diag(0, 1) cannot *)
Example C55_exact_case : [/\ is_trig_mx (diag2 1 0), forall k : 'I_2, (k.+1 < 2)%N -> diag2 1 0 k k != 0,
  (diag2 1 0) ord_max ord_max = 0 & pd (diag2 1 0 *m (diag2 1 0)^T + 1 *: (delta_mx ord_max ord0 *m (delta_mx ord_max ord0 : 'cV[R]_2)^T))].
Proof.
split.
- by apply/is_trig_mxP => i j ij; rewrite mxE -val_eqE ltn_eqF.
- by case=> [[|[|?]] ?] // _; rewrite !mxE eqxx oner_neq0.
- by rewrite !mxE.
rewrite (_ : _ + _ = 1%:M); first exact: pd1.
rewrite scale1r trmx_delta mul_delta_mx.
by apply: mx2P; rewrite !mxE !big_ord_recl big_ord0 !mxE /= ?(mulr0, mul0r, mulr1, addr0, add0r).
Qed.
Print Assumptions C55_exact.
Print Assumptions C55_exact_iff.
