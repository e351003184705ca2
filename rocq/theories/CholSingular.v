(** Rank-one Cholesky updates of factors with zeros on the diagonal. *)
From Coq Require Import Reals Lra FunctionalExtensionality.
From mathcomp Require Import all_ssreflect all_algebra.
From Verif Require Import RStruct MxBase ZmodTac KalmanModel MvnProofs QuadModel CholUpdate PropQuad.
Set Implicit Arguments.
Unset Strict Implicit.
Unset Printing Implicit Defensive.
Local Open Scope ring_scope.
Import GRing.Theory Num.Theory Order.Theory.

Section Sing.
Variables (n : nat) (L : 'M[R]_n) (al : R) (v : 'cV[R]_n).
Hypothesis tL : is_trig_mx L.
Hypothesis al0 : 0 <= al.
(** the first [m] diagonal entries are not zero; the next one is, if there is a next one *)
Variable m : nat.
Hypothesis mn : (m <= n)%N.
Hypothesis dL : forall j : 'I_n, (j < m)%N -> L j j != 0.

(** carries before column [k] *)
Fixpoint carry (k : nat) : ('I_n -> R) * R :=
  if k is k'.+1 then
    let: (w, b) := carry k' in
    if insub k' is Some j then
      ((fun i => w i - w j / L j j * L i j), b + al * (w j / L j j * (w j / L j j)))
    else (w, b)
  else ((fun i => v i ord0), 1).
Definition w k := (carry k).1.
Definition b k := (carry k).2.
Lemma carryS (j : 'I_n) : carry j.+1 =
  ((fun i => w j i - w j j / L j j * L i j), b j + al * (w j j / L j j * (w j j / L j j))).
Proof. by rewrite /= /w /b; case: (carry j) => ww bb; rewrite valK. Qed.
Lemma wS (j : 'I_n) i : w j.+1 i = w j i - w j j / L j j * L i j.
Proof. by rewrite /w carryS. Qed.
Lemma bS (j : 'I_n) : b j.+1 = b j + al * (w j j / L j j * (w j j / L j j)).
Proof. by rewrite /b carryS. Qed.
Lemma up (i j : 'I_n) : (i < j)%N -> L i j = 0.
Proof. by move: tL => /is_trig_mxP h ?; exact: h. Qed.
Lemma b_ge k : 1 <= b k.
Proof.
elim: k => [|k IH]; first exact: lexx.
have [kn|nk] := ltnP k n.
  rewrite -[k]/(val (Ordinal kn)) bS; apply: (le_trans IH); rewrite -[X in X <= _]addr0 ler_add2l.
  by apply: mulr_ge0 => //; rewrite -expr2; exact: sqr_ge0.
by rewrite /b /=; case E: (carry k) => [ww bb]; rewrite insubN -?leqNgt //; move: IH; rewrite /b E.
Qed.
Lemma b_gt0 k : 0 < b k. Proof. exact: lt_le_trans ltr01 (b_ge k). Qed.
Lemma w_up k (i : 'I_n) : (k <= m)%N -> (i < k)%N -> w k i = 0.
Proof.
elim: k => // k IH km; rewrite ltnS leq_eqVlt => ik.
have kn : (k < n)%N by exact: leq_trans km mn.
rewrite -[k.+1]/((val (Ordinal kn)).+1) wS; case/orP: ik => [/eqP ik|ik].
  have -> : i = Ordinal kn by exact: val_inj.
  by rewrite divfK ?subrr //; apply: dL.
by rewrite [w _ i]IH ?(ltnW km) // [L i _]up // mulr0 subr0.
Qed.

Definition nd (k : 'I_n) : R := sqrt (L k k * L k k + al / b k * (w k k * w k k)).
Definition nc (k i : 'I_n) : R :=
  nd k * (L i k / L k k + al * w k k / (L k k * L k k * b k + al * (w k k * w k k)) * w k.+1 i).
Lemma rad_ge0 (k : 'I_n) : 0 <= L k k * L k k + al / b k * (w k k * w k k).
Proof.
apply: addr_ge0; first by rewrite -expr2; exact: sqr_ge0.
by apply: mulr_ge0; [apply: divr_ge0 => //; exact: ltW (b_gt0 k)|rewrite -expr2; exact: sqr_ge0].
Qed.
Lemma gam_gt0 (k : 'I_n) : L k k != 0 -> 0 < L k k * L k k * b k + al * (w k k * w k k).
Proof.
move=> d0; apply: ltr_spaddl; last by apply: mulr_ge0 => //; rewrite -expr2; exact: sqr_ge0.
by apply: mulr_gt0; [rewrite -expr2 exprn_even_gt0|exact: b_gt0].
Qed.
Lemma ndE (k : 'I_n) : osqrt (oadd (omul (Some (L k k)) (Some (L k k)))
   (omul (odiv (Some al) (Some (b k))) (omul (Some (w k k)) (Some (w k k))))) = Some (nd k).
Proof. by rewrite odivE ?lt0r_neq0 ?b_gt0 // !omulE oaddE osqrtE ?rad_ge0. Qed.
Lemma body_nz (k : 'I_n) : L k k != 0 ->
  update_body L al (fun i => Some (w k i)) (Some (b k)) k
  = (Some (nd k), (fun i => Some (nc k i)), (fun i => Some (w k.+1 i)), Some (b k.+1)).
Proof.
move=> d0; rewrite /update_body ndE.
congr (_, _, _, _); try apply: functional_extensionality => i.
- rewrite !(odivE _ d0) !omulE !osubE -!wS !oaddE !odivE ?lt0r_neq0 ?gam_gt0 // !omulE !oaddE !omulE.
- by rewrite odivE // omulE osubE wS.
- by rewrite odivE // !omulE oaddE bS.
Qed.
Lemma body_zero (k : 'I_n) : L k k = 0 ->
  update_body L al (fun i => Some (w k i)) (Some (b k)) k
  = (Some (nd k), (fun=> None), (fun=> None), None).
Proof.
move=> d0; rewrite /update_body ndE.
by congr (_, _, _, _); try apply: functional_extensionality => i; rewrite d0 !nonfinite.
Qed.
Lemma scan_none js : update_scan L al js (fun=> None) None = [seq (None, (fun=> None)) | _ <- js].
Proof.
elim: js => // j js IH; rewrite update_scan_cons map_cons.
have -> : update_body L al (fun=> None) None j = (None, (fun=> None), (fun=> None), None).
  rewrite /update_body !nonfinite.
  by congr (_, _, _, _); apply: functional_extensionality => i; rewrite !nonfinite.
by rewrite IH.
Qed.
Hypothesis zL : forall j : 'I_n, val j = m -> L j j = 0.
Definition outp (j : 'I_n) : option R * ('I_n -> option R) :=
  if (j < m)%N then (Some (nd j), fun i => Some (nc j i))
  else if val j == m then (Some (nd j), fun=> None) else (None, fun=> None).
Lemma scan_all k : (k <= m)%N ->
  update_scan L al (drop k (enum 'I_n)) (fun i => Some (w k i)) (Some (b k)) = [seq outp j | j <- drop k (enum 'I_n)].
Proof.
have [p] := ubnPleq (m - k); elim: p k => [|p IH] k.
  rewrite leqn0 subn_eq0 => mk km; have {mk km} -> : k = m by apply/eqP; rewrite eqn_leq km mk.
  have [mn'|nm] := ltnP m n; last by rewrite drop_oversize // size_enum_ord.
  rewrite (drop_nth (Ordinal mn')) ?size_enum_ord // update_scan_cons map_cons.
  have -> : nth (Ordinal mn') (enum 'I_n) m = Ordinal mn' by apply: val_inj; rewrite /= nth_enum_ord.
  rewrite (@body_zero (Ordinal mn')) ?zL // scan_none; congr (_ :: _); first by rewrite /outp ltnn eqxx.
  apply/eq_in_map => j jd; have mj : (m < j)%N.
    have := map_f val jd; rewrite map_drop val_enum_ord drop_iota add0n mem_iota; by case/andP.
  by rewrite /outp ltnNge (ltnW mj) /= gtn_eqF.
move=> h km; have [km'|mk] := ltnP k m; last by apply: IH => //; rewrite (eqP (_ : m - k == 0)%N) // subn_eq0.
have kn : (k < n)%N by exact: leq_trans km' mn.
rewrite (drop_nth (Ordinal kn)) ?size_enum_ord // update_scan_cons map_cons.
have -> : nth (Ordinal kn) (enum 'I_n) k = Ordinal kn by apply: val_inj; rewrite /= nth_enum_ord.
rewrite (@body_nz (Ordinal kn)) ?dL //; congr (_ :: _); first by rewrite /outp km'.
by apply: IH => //; rewrite leq_subLR addSnnS -leq_subLR.
Qed.
Lemma nc_up (i k : 'I_n) : (k < m)%N -> (i < k)%N -> nc k i = 0.
Proof.
by move=> km ik; rewrite /nc [L i k]up // mul0r add0r [w _ i]w_up ?mulr0 //; exact: ltnW.
Qed.
Lemma nc_diag (k : 'I_n) : (k < m)%N -> nc k k = nd k.
Proof. by move=> km; rewrite /nc [w k.+1 k]w_up // mulr0 addr0 divff ?dL // mulr1. Qed.
(** the result: updated columns before the zero, the new diagonal entry in its column, zeros after it *)
Lemma updateE : cholesky_update L al v =
  \matrix_(i, k) (if (k < m)%N then nc k i else if (val k == m) && (i == k) then nd k else 0).
Proof.
apply/matrixP => i j; rewrite !mxE.
have := scan_all (leq0n m); rewrite drop0 => ->.
rewrite (nth_map i) ?size_enum_ord ?ltn_ord //= nth_ord_enum /outp.
case: ifP => jm /=.
  case: eqP => [->|_] /=; first by rewrite nc_diag.
  by case: ifP => //= ij; rewrite nc_up.
by case: eqP => jm' /=; case: eqP => //= _; case: ifP.
Qed.
Lemma nd2 k : nd k * nd k = L k k * L k k + al / b k * (w k k * w k k).
Proof. by have /RleP h := rad_ge0 k; exact: sqrt_sqrt. Qed.
Lemma step_id (k i j : 'I_n) : L k k != 0 ->
  nc k i * nc k j + al / b k.+1 * (w k.+1 i * w k.+1 j) = L i k * L j k + al / b k * (w k i * w k j).
Proof.
move=> d0; have b0 := lt0r_neq0 (b_gt0 k); have g0 := lt0r_neq0 (gam_gt0 d0).
rewrite /nc mulrACA nd2.
have b1 := lt0r_neq0 (b_gt0 k.+1); have be := bS k.
have wE : w k k = w k k / L k k * L k k by rewrite divfK.
have w1 (h : 'I_n) : w k h = w k.+1 h + w k k / L k k * L h k by rewrite wS subrK.
rewrite (w1 i) (w1 j); move: (w k k / L k k) wE be => z wE be; rewrite wE in g0 *.
move: (w k.+1 i) (w k.+1 j) (b k) (b k.+1) (L k k) (L i k) (L j k) be b0 b1 d0 g0.
move=> p q c c' d x y be c0 c1 d0 g0.
rewrite !(RdivE _ c0, RdivE _ c1, RdivE _ d0, RdivE _ g0).
rewrite be in c1 *; move: c0 c1 d0 g0 => /eqP c0 /eqP c1 /eqP d0 /eqP g0; toR.
by field.
Qed.

(** all columns before the last one have a pivot: the identity telescopes *)
Lemma gram_upto (i j : 'I_n) : \sum_(k < n | (k < m)%N) nc k i * nc k j
  = \sum_(k < n | (k < m)%N) L i k * L j k + (al * (v i ord0 * v j ord0) - al / b m * (w m i * w m j)).
Proof.
pose T k := al / b k * (w k i * w k j).
have e (k : 'I_n) : (k < m)%N -> nc k i * nc k j = L i k * L j k + (T k - T k.+1).
  by move=> km; rewrite addrA -step_id ?dL // addrK.
rewrite (eq_bigr _ e) big_split /=; congr (_ + _).
have -> : \sum_(k < n | (k < m)%N) (T k - T k.+1) = \sum_(k < m) (T k - T k.+1).
  by rewrite (big_ord_widen n (fun k => T k - T k.+1) mn).
have -> : \sum_(k < m) (T k - T k.+1) = T 0%N - T m.
  under eq_bigr do rewrite -opprB; rewrite sumrN -(big_mkord xpredT (fun k => T k.+1 - T k)) telescope_sumr //.
  by rewrite opprB.
by rewrite /T /b /w /= divr1.
Qed.
Lemma update_trig : is_trig_mx (cholesky_update L al v).
Proof.
rewrite updateE; apply/is_trig_mxP => i j ij; rewrite mxE; case: ifP => jm; first by rewrite nc_up.
by case: (i =P j) ij => [->|_]; rewrite ?ltnn ?andbF.
Qed.
Lemma update_pos (k : 'I_n) : (k < m)%N -> cholesky_update L al v k k != 0.
Proof.
move=> km; rewrite updateE mxE km nc_diag // -sqrf_eq0 expr2 nd2 lt0r_neq0 //.
apply: ltr_spaddl; first by rewrite -expr2 exprn_even_gt0 //=; exact: dL.
by apply: mulr_ge0; [apply: divr_ge0 => //; exact: ltW (b_gt0 k)|rewrite -expr2; exact: sqr_ge0].
Qed.
(** the zero, if any, is in the last column *)
Lemma update_exact : (n <= m.+1)%N ->
  cholesky_update L al v *m (cholesky_update L al v)^T = L *m L^T + al *: (v *m v^T).
Proof.
move=> nm; rewrite updateE; apply/matrixP => i j; rewrite !mxE big_ord1 !mxE.
rewrite (bigID (fun k : 'I_n => (k < m)%N)) [in RHS](bigID (fun k : 'I_n => (k < m)%N)) /=.
have -> : \sum_(k < n | (k < m)%N) (\matrix_(i0, k0) (if (k0 < m)%N then nc k0 i0
     else if (val k0 == m) && (i0 == k0) then nd k0 else 0)) i k *
    ((\matrix_(i0, k0) (if (k0 < m)%N then nc k0 i0
     else if (val k0 == m) && (i0 == k0) then nd k0 else 0))^T : 'M[R]_n) k j
   = \sum_(k < n | (k < m)%N) nc k i * nc k j.
  by apply: eq_bigr => k km; rewrite !mxE km.
rewrite gram_upto.
have [em|mn'] := leqP n m.
  have em' : m = n by apply/eqP; rewrite eqn_leq mn em.
  have nn (F : 'I_n -> R) : \sum_(k < n | ~~ (k < m)%N) F k = 0.
    by apply: big_pred0 => k; rewrite em' ltn_ord.
  rewrite !nn.
  rewrite (@w_up m i) ?em' // mul0r mulr0 subr0 !addr0; congr (_ + _).
  by apply: eq_bigr => k _; rewrite !mxE.
have last1 (k : 'I_n) : ~~ (k < m)%N = (k == Ordinal mn').
  rewrite -leqNgt -val_eqE /= eqn_leq andbC; case: leqP => // mk; symmetry.
  by rewrite -ltnS; exact: leq_trans (ltn_ord k) nm.
have nn (F : 'I_n -> R) : \sum_(k < n | ~~ (k < m)%N) F k = F (Ordinal mn').
  by rewrite (big_pred1 (Ordinal mn')).
rewrite !nn !mxE /= ltnn eqxx /= [L i (Ordinal _)](_ : _ = 0) ?mul0r ?addr0.
  have hw (h : 'I_n) : h != Ordinal mn' -> w m h = 0.
    by move=> ne; apply: w_up => //; have := last1 h; rewrite (negbTE ne) => /negbFE.
  have -> : \sum_(k < n | (k < m)%N) L i k * L^T k j = \sum_(k < n | (k < m)%N) L i k * L j k.
    by apply: eq_bigr => k _; rewrite !mxE.
  rewrite -!addrA; congr (_ + _); rewrite -[RHS]addr0; congr (_ + _).
  have [-> |ni] := eqVneq i (Ordinal mn'); have [-> |nj] := eqVneq j (Ordinal mn').
  - by rewrite nd2 (@zL (Ordinal mn')) // mul0r add0r addNr.
  - by rewrite (hw _ nj) !mulr0 oppr0 addr0.
  - by rewrite (hw _ ni) !mul0r mulr0 oppr0 addr0.
  - by rewrite (hw _ ni) !mul0r mulr0 oppr0 addr0.
have [-> |ni] := eqVneq i (Ordinal mn'); first exact: zL.
apply: up; rewrite /=; have := last1 i; rewrite (negbTE ni); by move/negbFE.
Qed.
Lemma update_last_zero (l : 'I_n) : (m < l)%N -> forall i, cholesky_update L al v i l = 0.
Proof. by move=> ml i; rewrite updateE mxE ltnNge (ltnW ml) /= gtn_eqF. Qed.
End Sing.
