(** Proofs about the rank-one Cholesky updates. *)
From Coq Require Import Reals Lra FunctionalExtensionality.
From mathcomp Require Import all_ssreflect all_algebra.
From Verif Require Import RStruct MxBase ZmodTac KalmanModel MvnProofs QuadModel.
Set Implicit Arguments.
Unset Strict Implicit.
Unset Printing Implicit Defensive.
Local Open Scope ring_scope.
Import GRing.Theory Num.Theory Order.Theory.

Lemma oaddE (x y : R) : oadd (Some x) (Some y) = Some (x + y). Proof. by []. Qed.
Lemma osubE (x y : R) : osub (Some x) (Some y) = Some (x - y). Proof. by []. Qed.
Lemma omulE (x y : R) : omul (Some x) (Some y) = Some (x * y). Proof. by []. Qed.
Lemma odivE (x y : R) : y != 0 -> odiv (Some x) (Some y) = Some (x / y).
Proof. by rewrite /odiv => /negbTE ->. Qed.
Lemma osqrtE (x : R) : 0 <= x -> osqrt (Some x) = Some (sqrt x).
Proof. by rewrite /osqrt leNgt => /negbTE h; rewrite /= (_ : Rltb x 0 = false). Qed.

Section One.
Variables (n : nat) (L : 'M[R]_n) (al : R) (v : 'cV[R]_n).
Hypothesis tL : is_trig_mx L.
Hypothesis uL : L \in unitmx.
Hypothesis pdA : pd (L *m L^T + al *: (v *m v^T)).
(** coordinates of [v] in the columns of [L] *)
Variable z : 'cV[R]_n.
Hypothesis vE : v = L *m z.
(** the carries before column [k] *)
Definition om (k : nat) : 'cV[R]_n := \col_i \sum_(j < n | (k <= j)%N) z j ord0 * L i j.
Definition bb (k : nat) : R := 1 + al * \sum_(j < n | (j < k)%N) z j ord0 ^+ 2.

Lemma d_neq0 (k : 'I_n) : L k k != 0.
Proof. by move: uL; rewrite trig_unit // => /forallP. Qed.
Lemma L_up (i j : 'I_n) : (i < j)%N -> L i j = 0.
Proof. by move: tL => /is_trig_mxP h ?; exact: h. Qed.
Lemma om0 : om 0 = v.
Proof.
apply/colP => i; rewrite mxE /= vE.
by rewrite mxE; apply: eq_bigr => j _; rewrite mulrC.
Qed.
Lemma om_n : om n = 0.
Proof. by apply/colP => i; rewrite !mxE big1 // => j; rewrite leqNgt ltn_ord. Qed.
Lemma omS (k : 'I_n) i : om k i ord0 = z k ord0 * L i k + om k.+1 i ord0.
Proof.
rewrite !mxE (bigD1 k) //=; congr (_ + _); apply: eq_bigl => j.
by rewrite ltn_neqAle andbC [in RHS]eq_sym.
Qed.
Lemma om_up k (i : 'I_n) : (i < k)%N -> om k i ord0 = 0.
Proof.
move=> ik; rewrite mxE big1 // => j kj; rewrite L_up ?mulr0 //; exact: leq_trans ik kj.
Qed.
Lemma om_at (k : 'I_n) : om k k ord0 = z k ord0 * L k k.
Proof. by rewrite omS om_up // addr0. Qed.
Lemma bb0 : bb 0 = 1.
Proof. by rewrite /bb big_pred0 // mulr0 addr0. Qed.
Lemma bbS (k : 'I_n) : bb k.+1 = bb k + al * z k ord0 ^+ 2.
Proof.
rewrite /bb -addrA; congr (_ + _); rewrite -mulrDr; congr (_ * _).
rewrite (bigD1 k) //= addrC; congr (_ + _); apply: eq_bigl => j.
by rewrite ltnS [in RHS]ltn_neqAle andbC.
Qed.
Lemma bb_gt0 k : 0 < bb k.
Proof.
rewrite /bb; set s := \sum_(_ | _) _.
have s0 : 0 <= s by apply: sumr_ge0 => j _; exact: sqr_ge0.
have [->|sn] := eqVneq s 0; first by rewrite mulr0 addr0 ltr01.
pose t : 'cV[R]_n := \col_j if (j < k)%N then z j ord0 else 0.
have [u tE] : exists u, L^T *m u = t by exists (invmx L^T *m t); rewrite mulKVmx // unitmx_tr.
have st : sqn t = s.
  rewrite sqnE /s [RHS]big_mkcond; apply: eq_bigr => j _; rewrite mxE.
  by case: ifP => // _; rewrite expr0n.
have zt : (t^T *m z) ord0 ord0 = s.
  rewrite mxE /s [RHS]big_mkcond; apply: eq_bigr => j _; rewrite !mxE.
  by case: ifP => // _; rewrite ?mul0r ?expr2.
have un : u != 0.
  apply/negP => /eqP u0; move: sn; rewrite -st -tE u0 mulmx0 sqnE big1 ?eqxx // => i _.
  by rewrite mxE expr0n.
have := pdA.2 _ un; rewrite qfD qf_gram tE st.
have -> : qf (al *: (v *m v^T)) u = al * s ^+ 2.
  rewrite /qf -scalemxAr -scalemxAl mxE; congr (_ * _).
  rewrite vE.
  rewrite (trmx_mul L z) !mulmxA -(mulmxA (u^T *m L *m z *m z^T)) tE -(mulmxA (u^T *m L *m z)).
  have -> : u^T *m L = t^T by rewrite -[L in LHS]trmxK -trmx_mul tE.
  rewrite mxE big_ord1 zt expr2; congr (_ * _).
  by rewrite -[RHS]zt -[z^T *m t]trmxK trmx_mul trmxK mxE.
rewrite (_ : s + al * s ^+ 2 = s * (1 + al * s)); last by rewrite mulrDr mulr1 expr2 mulrCA.
by rewrite pmulr_rgt0 // lt_neqAle eq_sym sn s0.
Qed.
Lemma quo_ge0 (k : 'I_n) : 0 <= L k k ^+ 2 * bb k.+1 / bb k.
Proof.
by apply: divr_ge0; [apply: mulr_ge0; [exact: sqr_ge0|apply: ltW; exact: bb_gt0]|apply: ltW; exact: bb_gt0].
Qed.

(** the new columns *)
Definition newd (k : 'I_n) : R := sqrt (L k k ^+ 2 + al / bb k * (z k ord0 * L k k) ^+ 2).
Definition newc (k : 'I_n) (i : 'I_n) : R :=
  newd k * (L i k / L k k + al * (z k ord0 * L k k) / (L k k ^+ 2 * bb k.+1) * om k.+1 i ord0).
Lemma body_step (k : 'I_n) :
  update_body L al (fun i => Some (om k i ord0)) (Some (bb k)) k
  = (Some (newd k), (fun i => Some (newc k i)), (fun i => Some (om k.+1 i ord0)), Some (bb k.+1)).
Proof.
have b0 := lt0r_neq0 (bb_gt0 k); have b1 := lt0r_neq0 (bb_gt0 k.+1); have d0 := d_neq0 k.
have g : L k k ^+ 2 * bb k + al * (z k ord0 * L k k) ^+ 2 = L k k ^+ 2 * bb k.+1.
  by rewrite bbS [RHS]mulrDr; congr (_ + _); rewrite exprMn [RHS]mulrCA [X in _ * X = _]mulrC.
have g0 : L k k ^+ 2 * bb k.+1 != 0 by rewrite mulf_neq0 // expf_neq0.
have e : L k k ^+ 2 + al / bb k * (z k ord0 * L k k) ^+ 2 = L k k ^+ 2 * bb k.+1 / bb k.
  by rewrite -g mulrDl mulfK // mulrAC.
have q0 : 0 <= L k k ^+ 2 + al / bb k * (z k ord0 * L k k) ^+ 2 by rewrite e; exact: quo_ge0.
have nd : osqrt (oadd (omul (Some (L k k)) (Some (L k k)))
            (omul (odiv (Some al) (Some (bb k))) (omul (Some (z k ord0 * L k k)) (Some (z k ord0 * L k k)))))
          = Some (newd k).
  by rewrite odivE // !omulE oaddE -!expr2 osqrtE.
rewrite /update_body om_at nd; clear nd.
congr (_, _, _, _); try apply: functional_extensionality => i.
- have o : osub (Some (om k i ord0)) (omul (odiv (Some (z k ord0 * L k k)) (Some (L k k))) (Some (L i k)))
           = Some (om k.+1 i ord0).
    by rewrite odivE // omulE osubE omS mulfK // [_ + om _ _ _]addrC addrK.
  by rewrite o !omulE !oaddE -!expr2 g odivE // odivE // omulE oaddE omulE.
- by rewrite odivE // omulE osubE omS mulfK // [_ + om _ _ _]addrC addrK.
- by rewrite odivE // !omulE oaddE bbS mulfK // -expr2.
Qed.
Lemma update_scan_cons j js omega b : update_scan L al (j :: js) omega b
  = let: (d, col, omega, b) := update_body L al omega b j in (d, col) :: update_scan L al js omega b.
Proof. by []. Qed.
Lemma scan_step k : (k <= n)%N ->
  update_scan L al (drop k (enum 'I_n)) (fun i => Some (om k i ord0)) (Some (bb k))
  = [seq (Some (newd j), (fun i => Some (newc j i))) | j <- drop k (enum 'I_n)].
Proof.
have [m] := ubnPleq (n - k); elim: m k => [|m IH] k.
  rewrite leqn0 subn_eq0 => nk kn; have -> : k = n by apply/eqP; rewrite eqn_leq nk kn.
  by rewrite drop_oversize // size_enum_ord.
move=> h kn; have [kn'|nk] := ltnP k n; last first.
  by rewrite drop_oversize // size_enum_ord.
rewrite (drop_nth (Ordinal kn')) ?size_enum_ord // update_scan_cons map_cons.
have -> : nth (Ordinal kn') (enum 'I_n) k = Ordinal kn' by apply: val_inj; rewrite /= nth_enum_ord.
rewrite (body_step (Ordinal kn')); congr (_ :: _); apply: IH => //.
by rewrite leq_subLR addSnnS -leq_subLR.
Qed.
Lemma newc_up (i k : 'I_n) : (i < k)%N -> newc k i = 0.
Proof.
move=> ik; rewrite /newc L_up // om_up ?mulr0 ?mul0r ?addr0 ?mulr0 //; exact: ltn_trans ik _.
Qed.
Lemma newc_diag (k : 'I_n) : newc k k = newd k.
Proof. by rewrite /newc om_up // mulr0 addr0 divff ?d_neq0 // mulr1. Qed.
Lemma cholesky_updateE : cholesky_update L al v = \matrix_(i, k) newc k i.
Proof.
apply/matrixP => i j; rewrite !mxE.
have := scan_step (leq0n n); rewrite drop0 om0 bb0 => ->.
rewrite (nth_map i) ?size_enum_ord ?ltn_ord //= nth_ord_enum /=.
case: eqP => [->|_] /=; first by rewrite newc_diag.
by case: ifP => //= ij; rewrite newc_up.
Qed.
Lemma newd2 k : newd k ^+ 2 = L k k ^+ 2 * bb k.+1 / bb k.
Proof.
have e : L k k ^+ 2 + al / bb k * (z k ord0 * L k k) ^+ 2 = L k k ^+ 2 * bb k.+1 / bb k.
  rewrite bbS [in RHS]mulrDr [RHS]mulrDl mulfK ?lt0r_neq0 ?bb_gt0 //; congr (_ + _).
  by rewrite exprMn mulrAC; congr (_ / _); rewrite mulrA mulrC.
rewrite /newd e; have : 0 <= L k k ^+ 2 * bb k.+1 / bb k by exact: quo_ge0.
by move=> /RleP h; rewrite expr2; exact: sqrt_sqrt.
Qed.
Lemma newd_gt0 k : 0 < newd k.
Proof.
rewrite lt_neqAle; apply/andP; split; last by apply/RleP; exact: sqrt_pos.
rewrite eq_sym -sqrf_eq0 newd2 !mulf_neq0 ?expf_neq0 ?d_neq0 ?invr_neq0 ?lt0r_neq0 ?bb_gt0 //.
Qed.
Lemma step_identity (k i j : 'I_n) :
  newc k i * newc k j + al / bb k.+1 * (om k.+1 i ord0 * om k.+1 j ord0)
  = L i k * L j k + al / bb k * (om k i ord0 * om k j ord0).
Proof.
rewrite !(omS k) /newc mulrACA -expr2 newd2.
have b0 := lt0r_neq0 (bb_gt0 k); have b1 := lt0r_neq0 (bb_gt0 k.+1); have d0 := d_neq0 k.
have be := bbS k; move: (bb k) (bb k.+1) (L k k) (z k ord0) (L i k) (L j k) (om k.+1 i ord0) (om k.+1 j ord0) be b0 b1 d0.
move=> b b' d zz x y p q be b0 b1 d0; rewrite !(RdivE _ b0, RdivE _ b1, RdivE _ d0, RdivE _ (mulf_neq0 (expf_neq0 2 d0) b1)).
rewrite be in b1 *; move: b0 b1 d0 => /eqP b0 /eqP b1 /eqP d0; rewrite !expr2 in b1 *; toR.
field; split => //; split => // e; apply: b1; move: e; toR; lra.
Qed.
Theorem cholesky_update_ok (L' := cholesky_update L al v) :
  [/\ is_trig_mx L', L' *m L'^T = L *m L^T + al *: (v *m v^T) & forall k, 0 < L' k k].
Proof.
rewrite /L' cholesky_updateE; split; last by move=> k; rewrite mxE newc_diag newd_gt0.
  by apply/is_trig_mxP => i j ij; rewrite mxE newc_up.
apply/matrixP => i j; rewrite !mxE big_ord1 !mxE.
pose T k := al / bb k * (om k i ord0 * om k j ord0).
have e : forall k : 'I_n, newc k i * newc k j = L i k * L j k + (T k - T k.+1).
  by move=> k; rewrite addrA -step_identity addrK.
under eq_bigr => k _ do rewrite !mxE e.
rewrite big_split /=; congr (_ + _); first by apply: eq_bigr => k _; rewrite mxE.
have -> : \sum_(k < n) (T k - T k.+1) = T 0%N - T n.
  under eq_bigr do rewrite -opprB; rewrite sumrN -(big_mkord xpredT (fun k => T k.+1 - T k)) telescope_sumr //.
  by rewrite opprB.
by rewrite /T om_n om0 bb0 !mxE mulr0 mulr0 subr0 divr1.
Qed.
End One.

Lemma sum_row_gram K n (V : 'M[R]_(K, n)) : \sum_i (row i V)^T *m row i V = V^T *m V.
Proof.
apply/matrixP => a b; rewrite summxE mxE; apply: eq_bigr => i _.
by rewrite mxE big_ord1 !mxE.
Qed.
Lemma sum_row_psd K n (V : 'M[R]_(K, n)) (P : pred 'I_K) : psd (\sum_(i | P i) (row i V)^T *m row i V).
Proof.
apply: big_ind => [|*|i _]; first by split=> [|v]; [rewrite trmx0|rewrite /qf mulmx0 mul0mx mxE].
  exact: psdD.
by rewrite -{2}[row i V]trmxK; exact: gram_psd.
Qed.
Lemma psdZ n (A : 'M[R]_n) a : 0 <= a -> psd A -> psd (a *: A).
Proof.
move=> a0 [sA pA]; split=> [|v]; first by rewrite linearZ /= sA.
by rewrite /qf -scalemxAr -scalemxAl mxE mulr_ge0 //; exact: pA.
Qed.

Section Many.
Variables (n K : nat) (L : 'M[R]_n) (V : 'M[R]_(K, n)) (al : R).
Hypothesis tL : is_trig_mx L.
Hypothesis uL : L \in unitmx.
Hypothesis pdA : pd (L *m L^T + al *: (V^T *m V)).
Lemma inter_pd (P : pred 'I_K) : pd (L *m L^T + al *: (\sum_(i | P i) (row i V)^T *m row i V)).
Proof.
have [a0|a0] := leP 0 al.
  by apply: pdD; [exact: unit_pd|apply: psdZ => //; exact: sum_row_psd].
have -> : L *m L^T + al *: (\sum_(i | P i) (row i V)^T *m row i V)
  = (L *m L^T + al *: (V^T *m V)) + (- al) *: (\sum_(i | ~~ P i) (row i V)^T *m row i V).
  by rewrite -sum_row_gram [in RHS](bigID P) /= scalerDr addrA scaleNr addrK.
by apply: pdD => //; apply: psdZ; [rewrite oppr_ge0 ltW|exact: sum_row_psd].
Qed.
Theorem cholesky_update_many_ok (L' := cholesky_update_many L V al) :
  [/\ is_trig_mx L', L' *m L'^T = L *m L^T + al *: (V^T *m V) & (0 < K)%N -> forall k, 0 < L' k k].
Proof.
pose f chol i := cholesky_update chol al (row i V)^T.
have H k : (k <= K)%N -> let L' := foldl f L (take k (enum 'I_K)) in
  [/\ is_trig_mx L', L' *m L'^T = L *m L^T + al *: (\sum_(i < K | (i < k)%N) (row i V)^T *m row i V),
      (0 < k)%N -> forall j, 0 < L' j j & L' \in unitmx].
  elim: k => [|k IH] kK; first by rewrite take0 /= big_pred0 // scaler0 addr0.
  have [t e _ u] := IH (ltnW kK); pose o := Ordinal kK.
  rewrite (take_nth o) ?size_enum_ord // foldl_rcons.
  have -> : nth o (enum 'I_K) k = o by apply: val_inj; rewrite /= nth_enum_ord.
  set Lk := foldl f L _ in t e u *.
  have se : L *m L^T + al *: (\sum_(i < K | (i < k.+1)%N) (row i V)^T *m row i V)
            = Lk *m Lk^T + al *: ((row o V)^T *m (row o V)^T^T).
    rewrite e -addrA -scalerDr; congr (_ + _ *: _); rewrite (bigD1 o) //= addrC trmxK; congr (_ + _).
    by apply: eq_bigl => i; rewrite ltnS [in RHS]ltn_neqAle andbC.
  have p := inter_pd (fun i : 'I_K => (i < k.+1)%N); rewrite se in p.
  have [t' e' d'] := cholesky_update_ok t u p (esym (mulKVmx u (row o V)^T)).
  split=> //; [by rewrite e' se|by rewrite -gram_unit e'; exact: pd_unit].
have [|t e d _] := H K; first by [].
rewrite take_oversize ?size_enum_ord // in t e d; split=> //.
by rewrite /L' e; congr (_ + _ *: _); rewrite -sum_row_gram; apply: eq_bigl => i; rewrite ltn_ord.
Qed.
End Many.
