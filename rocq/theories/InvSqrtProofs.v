(** Proofs about symmetric_inv_sqrt. *)
From Coq Require Import Reals Lra FunctionalExtensionality.
From mathcomp Require Import all_ssreflect all_algebra.
From Verif Require Import RStruct MxBase ZmodTac KalmanModel LinalgModel GaussSpec LinalgSpec MvnProofs MvnProofs2.
Set Implicit Arguments.
Unset Strict Implicit.
Unset Printing Implicit Defensive.
Local Open Scope ring_scope.
Import GRing.Theory Num.Theory Order.Theory.

Lemma pd_inv n (A : 'M[R]_n) : pd A -> pd (invmx A).
Proof.
move=> pA; have uA := pd_unit pA; have [sA qA] := pA.
have sI : (invmx A)^T = invmx A by rewrite trmx_inv sA.
split=> // v v0; have w0 : invmx A *m v != 0.
  by apply: contraNneq v0 => h; rewrite -[v](mulKVmx uA) h mulmx0.
have := qA _ w0; rewrite /qf trmx_mul sI !mulmxA.
by rewrite -(mulmxA _ (invmx A) A) mulVmx // mulmx1.
Qed.
Lemma pd_diag n (A : 'M[R]_n) i : pd A -> 0 < A i i.
Proof.
move=> [_ qA]; have d0 : (delta_mx i 0 : 'cV[R]_n) != 0.
  by apply/eqP => /matrixP/(_ i 0); rewrite !mxE !eqxx => /eqP; rewrite oner_eq0.
have := qA _ d0; rewrite /qf trmx_delta -rowE -colE !mxE => //.
Qed.

Section Core.
Variables (n : nat) (y : 'cV[option R]_n).
Let k := size (observed y).
Let Pd := Pd y.
Variables (Av : 'M[R]_k) (rtol : R).
Hypothesis pdA : pd Av.
Hypothesis rtol0 : 0 <= rtol.
Hypothesis sep : forall w w', eigenvalue_of Av w -> eigenvalue_of Av w' -> rtol * w' < w.
Let M := Pd *m Av *m Pd^T.
Variables (u : 'M[R]_n) (s : 'rV[R]_n).
Hypothesis dec : svd_at M u s.
Let uA := pd_unit pdA.

Lemma M_psd : psd M. Proof. by apply: psd_conj; exact: pd_psd. Qed.
Lemma uuT : u *m u^T = 1%:M. Proof. by apply: mulmx1C; case: dec. Qed.
Lemma s_ge0 j : 0 <= s ord0 j. Proof. by case: dec => _ [w [_ -> _]]; exact: normr_ge0. Qed.
Lemma M_eig : M = u *m diag_mx s *m u^T.
Proof.
have [uu [w [e es _]]] := dec; have [_ qM] := M_psd.
suff -> : s = w by [].
apply/rowP => j; rewrite es ger0_norm //.
have := qM (u *m delta_mx j 0).
have -> : qf M (u *m delta_mx j 0) = qf (diag_mx w) (delta_mx j 0).
  rewrite /qf {1}e trmx_mul -!mulmxA (mulmxA u^T u) uu mul1mx (mulmxA u^T u) uu mul1mx //.
by rewrite /qf trmx_delta -rowE -colE !mxE eqxx mulr1n.
Qed.
Lemma eig_col j : M *m col j u = s ord0 j *: col j u.
Proof.
have [uu _] := dec; rewrite {1}M_eig colE -!mulmxA (mulmxA u^T u) uu mul1mx -colE.
have -> : col j (diag_mx s) = s ord0 j *: delta_mx j 0.
  apply/matrixP => a b; rewrite !mxE [b]ord1 eqxx andbT.
  by case: eqP => [->|_]; rewrite ?mulr1n ?mulr1 ?mulr0n ?mulr0.
by rewrite -scalemxAr.
Qed.
Lemma PdPd : Pd^T *m Pd = 1%:M. Proof. exact: PdTPd. Qed.
Lemma s_eig j : s ord0 j != 0 -> eigenvalue_of Av (s ord0 j).
Proof.
move=> sj; exists (Pd^T *m col j u); have e := eig_col j; split.
  apply/eqP => z; move: e; rewrite /M -!mulmxA z !mulmx0 => /esym/eqP; rewrite scaler_eq0 (negbTE sj) /= => /eqP c0.
  have [uu _] := dec; move: uu => /matrixP/(_ j j); rewrite -/(cov _) !mxE eqxx.
  rewrite big1 => [/eqP|i _]; first by rewrite eq_sym oner_eq0.
  by move/matrixP/(_ i ord0): c0; rewrite !mxE => ->; rewrite mulr0.
by rewrite scalemxAr -e /M !mulmxA PdPd mul1mx.
Qed.
Lemma s_first (o : 'I_n) j : (o = 0 :> nat)%N -> s ord0 j <= s ord0 o.
Proof. by move=> o0; have [_ [w [_ _ h]]] := dec; apply: h; rewrite o0. Qed.

Definition cutoff : R := rtol * (if insub 0%N is Some o then s ord0 o else 0).
Definition inv_s j : R := if Rltb cutoff (s ord0 j) then (sqrt (s ord0 j))^-1 else 0.
Lemma cutoff_ge0 : 0 <= cutoff.
Proof. by apply: mulr_ge0 => //; case: insubP => // o _ _; exact: s_ge0. Qed.
Lemma inv_s0 j : s ord0 j = 0 -> inv_s j = 0.
Proof.
by move=> e; rewrite /inv_s e; case: RltbP => // /RltP; rewrite ltNge cutoff_ge0.
Qed.
Lemma inv_sE j : s ord0 j != 0 -> inv_s j * inv_s j = (s ord0 j)^-1.
Proof.
move=> sj; rewrite /inv_s; case: RltbP => [_|[]].
  by rewrite -invfM; congr (_^-1); apply: sqrt_sqrt; apply/RleP; exact: s_ge0.
apply/RltP; rewrite /cutoff; case: insubP => [o _ o0|]; last by rewrite (leq_ltn_trans (leq0n j) (ltn_ord j)).
have so : s ord0 o != 0.
  by apply/eqP => z; have := s_first j o0; rewrite z leNgt lt_def sj s_ge0.
by apply: sep; exact: s_eig.
Qed.
Definition B : 'M[R]_n := \matrix_(i, j) (u i j * inv_s j).
Let d2 : 'rV[R]_n := \row_j (inv_s j * inv_s j).
Lemma B_gram : B *m B^T = u *m diag_mx d2 *m u^T.
Proof.
have -> : B = u *m diag_mx (\row_j inv_s j).
  by apply/matrixP => i j; rewrite mul_mx_diag !mxE.
rewrite trmx_mul tr_diag_mx -!mulmxA; congr (_ *m _); rewrite mulmxA; congr (_ *m _).
by apply/matrixP => i j; rewrite mul_diag_mx !mxE; case: eqP => [->|_]; rewrite ?mulr0 ?mulr1n.
Qed.
Lemma B_inverse : B *m B^T = Pd *m invmx Av *m Pd^T.
Proof.
rewrite B_gram; set W := u *m _ *m _; set X := Pd *m _ *m _; have [uu _] := dec.
have dd a b : (u *m diag_mx a *m u^T) *m (u *m diag_mx b *m u^T) = u *m diag_mx (\row_j (a ord0 j * b ord0 j)) *m u^T.
  rewrite -!mulmxA (mulmxA u^T u) uu mul1mx; congr (_ *m _); rewrite mulmxA; congr (_ *m _).
  by apply/matrixP => i j; rewrite mul_diag_mx !mxE; case: eqP => [->|_]; rewrite ?mulr0 ?mulr1n.
have z0 j : d2 ord0 j * s ord0 j * d2 ord0 j = d2 ord0 j.
  rewrite mxE; have [e|sj] := eqVneq (s ord0 j) 0; first by rewrite inv_s0 ?mul0r.
  by rewrite inv_sE // mulVf // mul1r.
have z1 j : s ord0 j * d2 ord0 j * s ord0 j = s ord0 j.
  rewrite mxE; have [e|sj] := eqVneq (s ord0 j) 0; first by rewrite e mulr0.
  by rewrite inv_sE // divff // mul1r.
have WMW : W *m M *m W = W.
  by rewrite M_eig /W !dd; congr (_ *m diag_mx _ *m _); apply/rowP => j; rewrite -[RHS](z0 j) !mxE.
have MWM : M *m W *m M = M.
  by rewrite M_eig /W !dd; congr (_ *m diag_mx _ *m _); apply/rowP => j; rewrite -[RHS](z1 j) !mxE.
have comm : W *m M = M *m W.
  by rewrite M_eig /W !dd; congr (_ *m diag_mx _ *m _); apply/rowP => j; rewrite !mxE mulrC.
pose E := Pd *m Pd^T.
have MX : M *m X = E by rewrite /M /X -!mulmxA (mulmxA Pd^T Pd) PdPd mul1mx (mulmxA Av) mulmxV // mul1mx.
have XM : X *m M = E by rewrite /M /X -!mulmxA (mulmxA Pd^T Pd) PdPd mul1mx (mulmxA (invmx Av)) mulVmx // mul1mx.
have EM : E *m M = M by rewrite /E /M -!mulmxA (mulmxA Pd^T Pd) PdPd mul1mx.
have ME : M *m E = M by rewrite /E /M -!mulmxA (mulmxA Pd^T Pd) PdPd mul1mx.
have EX : E *m X = X by rewrite /E /X -!mulmxA (mulmxA Pd^T Pd) PdPd mul1mx.
have W1 : W = M *m (W *m W) by rewrite mulmxA -comm WMW.
have W2 : W = W *m W *m M by rewrite -mulmxA comm mulmxA WMW.
have EW : E *m W = W by rewrite W1 mulmxA EM.
have WE : W *m E = W by rewrite W2 -mulmxA ME.
have <- : E *m W *m E = W by rewrite EW WE.
have -> : E *m W *m E = X *m (M *m W *m M) *m X by rewrite -{1}XM -MX !mulmxA.
by rewrite MWM XM EX.
Qed.
End Core.

Section Wrapper.
Variable tria : forall m k : nat, 'M[R]_(m, k) -> 'M[R]_m.
Hypothesis tria_spec : tria_ok tria.
Variable svd : forall n, 'M[R]_n -> 'M[R]_n * 'rV[R]_n.
Variables (n : nat) (A : 'M[option R]_n) (rtol : R) (ignore : bool).
Let y : 'cV[option R]_n := \col_i A i i.
Let k := size (observed y).
Let Pd := Pd y.
Let Av := obs_block y (map_mx value A).
Hypothesis Adiag : forall a, Av a a != 0.
Hypothesis fin : forall i j, A i i <> None -> A j j <> None -> A i j <> None.
Hypothesis full : ignore = false -> forall i, A i i <> None.
Let M := Pd *m Av *m Pd^T.
Variable X : 'M[R]_k.
Hypothesis gramX : B rtol (svd M).1 (svd M).2 *m (B rtol (svd M).1 (svd M).2)^T = Pd *m X *m Pd^T.
Hypothesis Xdiag : forall a, X a a != 0.

Let flag i := isnan (y i ord0).
Lemma flagE i : flag i = isnan (A i i). Proof. by rewrite /flag mxE. Qed.
Lemma mask_flag : (fun i => isnan (A i i) && ignore || [forall j, A j i == Some 0] && [forall j, A i j == Some 0]) = flag.
Proof.
apply: functional_extensionality => i; rewrite flagE; case E: (isnan (A i i)).
  have -> : ignore = true.
    by case: ignore full => // /(_ erefl i); move: E; rewrite /isnan; case: (A i i).
  by [].
rewrite /=; apply/negbTE; rewrite negb_and; apply/orP; left; apply/negP => /forallP/(_ i)/eqP e.
have io : i \in observed y by rewrite mem_filter mxE e mem_enum.
have [a ea] : exists a : 'I_k, sel a = i.
  have lt : (index i (observed y) < k)%N by rewrite index_mem.
  by exists (Ordinal lt); rewrite /sel (tnth_nth i) /= nth_index.
by have := Adiag a; rewrite !mxE ea e eqxx.
Qed.

Lemma sel_flag (a : 'I_k) : flag (sel a) = false.
Proof.
have : sel a \in observed y by exact: mem_tnth.
by rewrite mem_filter /flag /isnan => /andP[->].
Qed.
Lemma sel_some (a b : 'I_k) : exists v, A (sel a) (sel b) = Some v.
Proof.
have h (c : 'I_k) : A (sel c) (sel c) <> None by have := sel_flag c; rewrite flagE /isnan; case: (A _ _).
by have := fin (h a) (h b); case: (A _ _) => [v|] // _; exists v.
Qed.
Lemma invalid_ignore i : flag i -> ignore.
Proof. by rewrite flagE /isnan; case: ignore full => // /(_ erefl i); case: (A i i). Qed.
Let ms i := sorted_flag flag i.
Lemma msE (i : 'I_n) : ms i = (k <= i)%N. Proof. exact: sorted_flagE. Qed.
Lemma ms_ignore (i : 'I_n) : (k <= i)%N -> ignore.
Proof. by rewrite -msE => h; exact: (invalid_ignore h). Qed.
Let inv (i j : 'I_n) := (ms i || ms j) && ignore.
Lemma invE i j : inv i j = (k <= i)%N || (k <= j)%N.
Proof.
rewrite /inv !msE; case ki: (k <= i)%N => /=; first by rewrite (ms_ignore ki).
by case kj: (k <= j)%N => //=; rewrite (ms_ignore kj).
Qed.
Let arr : 'M[option R]_n := \matrix_(i, j) (if inv i j then Some 0 else A (argsort flag i) (argsort flag j)).
Lemma arr_fin i j : isnan (arr i j) = false.
Proof.
rewrite mxE invE; case: leqP => //= ik; case: leqP => //= jk; rewrite (argsort_lt ik) (argsort_lt jk).
by have [v ->] := sel_some (Ordinal ik) (Ordinal jk).
Qed.
Lemma arr_value : map_mx value arr = M.
Proof.
apply/matrixP => i j; rewrite Pd_conj !mxE invE.
case: insubP => [a ik ai|]; last by rewrite -leqNgt => ->.
rewrite leqNgt ik /=; case: insubP => [b jk bj|]; last by rewrite -leqNgt => ->.
have -> : a = Ordinal ik by apply: val_inj.
have -> : b = Ordinal jk by apply: val_inj.
by rewrite leqNgt jk /= !mxE (argsort_lt ik) (argsort_lt jk).
Qed.
Let u := (svd M).1.
Let s := (svd M).2.
Let L := tria (B rtol u s).
Lemma L_spec : is_trig_mx L /\ cov L = Pd *m X *m Pd^T.
Proof. by have [t e] := tria_spec (B rtol u s) (leqnn n); split=> //; rewrite /cov e; exact: gramX. Qed.
Lemma L_row (i : 'I_n) j : (k <= i)%N -> L i j = 0.
Proof.
move=> ki; have [_ e] := L_spec; have : row i L = 0.
  by apply: gram_row0; rewrite -/(cov L) e Pd_conj insubF // ltnNge ki.
by move/rowP/(_ j); rewrite !mxE.
Qed.
Lemma L_col i (j : 'I_n) : (k <= j)%N -> L i j = 0.
Proof.
move=> kj; case: (leqP k i) => ki; first exact: L_row.
have [/is_trig_mxP t _] := L_spec; apply: t; exact: leq_trans ki kj.
Qed.
Lemma L_zero i : ([forall j, L j i == 0] && [forall j, L i j == 0]) = (k <= i)%N.
Proof.
case: leqP => ki.
  by apply/andP; split; apply/forallP => j; apply/eqP; [exact: L_col|exact: L_row].
apply/negbTE; rewrite negb_and; apply/orP; right; apply/negP => /forallP z.
have c0 : cov L i i = 0 by rewrite mxE big1 // => j _; move/eqP: (z j) => ->; rewrite mul0r.
have [_ e] := L_spec; move: c0; rewrite e Pd_conj; case: insubP => [a _ _|]; last by rewrite ki.
by move=> z0; have := Xdiag a; rewrite z0 eqxx.
Qed.
Lemma coreE : symmetric_inv_sqrt_core tria svd rtol M
  = \matrix_(i, j) (if (k <= i)%N || (k <= j)%N then None else Some (L i j)).
Proof.
rewrite /symmetric_inv_sqrt_core; case E: (svd M) => [u' s'].
have -> : u' = u by rewrite /u E. have -> : s' = s by rewrite /s E.
rewrite -/(cutoff rtol s); apply/matrixP => i j; rewrite !mxE.
rewrite -[tria _]/L; do !rewrite L_zero; by [].
Qed.
Definition Lv : 'M[R]_k := Pd^T *m L *m Pd.
Lemma LvE (a b : 'I_k) (i j : 'I_n) : i = a :> nat -> j = b :> nat -> Lv a b = L i j.
Proof.
move=> ia jb; rewrite /Lv /Pd /MvnProofs.Pd tr_pid_mx.
rewrite mxE (bigD1 j) //= big1 ?addr0.
  rewrite [X in _ * X]mxE -jb eqxx jb ltn_ord mulr1 mxE (bigD1 i) //= big1 ?addr0.
    by rewrite mxE ia eqxx ltn_ord mul1r.
  move=> c ci; rewrite mxE; case: eqP => [e|_]; rewrite ?mul0r //.
  by case/eqP: ci; apply: val_inj; rewrite /= -e ia.
move=> c cj; rewrite [X in _ * X]mxE; case: eqP => [e|_]; rewrite ?mulr0 //.
by case/eqP: cj; apply: val_inj; rewrite /= e jb.
Qed.
Lemma Lv_spec : is_trig_mx Lv /\ Lv *m Lv^T = X.
Proof.
have kn : (k <= n)%N by exact: k_le.
have [/is_trig_mxP t e] := L_spec; split.
  apply/is_trig_mxP => a b ab.
  by rewrite (@LvE _ _ (widen_ord kn a) (widen_ord kn b)) //; exact: t.
have LP : L *m (Pd *m Pd^T) = L.
  have : L *m Cp y = 0.
    apply/matrixP => i j; rewrite [in RHS]mxE mxE big1 // => c _.
    case: (leqP k c) => kc; first by rewrite L_col // mul0r.
    by rewrite !mxE kc andbT -val_eqE /= subrr mulr0.
  by rewrite CpE mulmxBr mulmx1 => /eqP; rewrite subr_eq0 => /eqP <-.
rewrite /Lv !trmx_mul trmxK -!mulmxA (mulmxA Pd Pd^T) (mulmxA L) LP (mulmxA L) -/(cov L) e.
by rewrite -!mulmxA PdTPd mulmx1 (mulmxA Pd^T) PdTPd mul1mx.
Qed.

Lemma argsort_mem i : i \in argsort_seq flag.
Proof.
have e : i \in enum 'I_n by rewrite mem_enum.
by rewrite /argsort_seq mem_cat (mem_filter (fun j => ~~ flag j)) (mem_filter flag) e; case: (flag i).
Qed.
Definition position (i : 'I_n) : 'I_n := nth i (enum 'I_n) (index i (argsort_seq flag)).
Lemma positionE i : position i = index i (argsort_seq flag) :> nat.
Proof.
rewrite /position nth_enum_ord //.
by have := argsort_mem i; rewrite -index_mem -/flag => /leq_trans; apply; rewrite (size_argsort y).
Qed.
Lemma position_inj : injective position.
Proof.
move=> i j /(congr1 val); rewrite /= !positionE => e.
by rewrite -(nth_index i (argsort_mem i)) e nth_index // argsort_mem.
Qed.
Lemma position_sel (a : 'I_k) : position (sel a) = a :> nat.
Proof.
rewrite positionE /argsort_seq index_cat -observedE.
have -> : sel a \in observed y by exact: mem_tnth.
by rewrite /sel (tnth_nth (sel a)) index_uniq // filter_uniq // enum_uniq.
Qed.
Lemma position_flag i : flag i -> (k <= position i)%N.
Proof.
move=> fi; rewrite positionE /argsort_seq index_cat -observedE.
by rewrite mem_filter -[isSome _]negbK -/(isnan _) -/(flag i) fi /= leq_addr.
Qed.
Lemma flag_sel i : flag i = false -> exists a : 'I_k, sel a = i.
Proof.
move=> fi; have io : i \in observed y by rewrite mem_filter -[isSome _]negbK -/(isnan _) -/(flag i) fi mem_enum.
have lt : (index i (observed y) < k)%N by rewrite index_mem.
by exists (Ordinal lt); rewrite /sel (tnth_nth i) /= nth_index.
Qed.
Lemma sel_le (a b : 'I_k) : (a <= b)%N -> (sel a <= sel b)%N.
Proof.
move=> ab; pose le := relpre (@nat_of_ord n) leq.
have tr : transitive le by move=> ? ? ?; apply: leq_trans.
have so : sorted le (observed y).
  by rewrite sorted_filter // /le -sorted_map val_enum_ord iota_sorted.
have re : reflexive le by move=> ?; apply: leqnn.
have [d _] : exists d : 'I_n, True by exists (sel a).
have := sorted_leq_nth tr re d so a b (ltn_ord a) (ltn_ord b) ab.
by rewrite /le /= /sel (tnth_nth d) [in X in _ -> (_ <= X)%N](tnth_nth d).
Qed.
Let res := symmetric_inv_sqrt tria svd rtol ignore A.
Lemma resE i j : res i j =
  if (i == j) && (k <= position i)%N then None
  else if (k <= position i)%N || (k <= position j)%N then Some 0 else Some (L (position i) (position j)).
Proof.
pose f mask : 'M[option R]_n :=
  let order := argsort mask in
  let nan_mask_sorted i := mask (order i) in
  let invalid i j := (nan_mask_sorted i || nan_mask_sorted j) && ignore in
  let arr_sorted : 'M[option R]_n := \matrix_(i, j) (if invalid i j then Some 0 else A (order i) (order j)) in
  let L_sorted := if [exists i, exists j, isnan (arr_sorted i j)] then const_mx None
                  else symmetric_inv_sqrt_core tria svd rtol (map_mx value arr_sorted) in
  let L_sorted : 'M[option R]_n := \matrix_(i, j) (if invalid i j then Some 0 else L_sorted i j) in
  let L_sorted : 'M[option R]_n :=
    \matrix_(i, j) (if (i == j) && nan_mask_sorted i then None else L_sorted i j) in
  let position (i : 'I_n) := nth i (enum 'I_n) (index i (argsort_seq mask)) in
  \matrix_(i, j) L_sorted (position i) (position j).
have -> : res = f (fun i => isnan (A i i) && ignore || [forall j, A j i == Some 0] && [forall j, A i j == Some 0]) by [].
rewrite mask_flag /f -/arr; cbv zeta.
have -> : [exists i, exists j, isnan (arr i j)] = false.
  by apply/negbTE/existsPn => a; apply/existsPn => b; rewrite arr_fin.
rewrite arr_value coreE [LHS]mxE -/(position i) -/(position j) [LHS]mxE (inj_eq position_inj).
rewrite -/(sorted_flag flag _) -/(ms _) msE; case: ifP => // _.
rewrite mxE -/(sorted_flag flag _) -/(sorted_flag flag (position j)) -/(ms _) -/(ms (position j)) -/(inv _ _) invE.
by case: ifP => // h; rewrite mxE h.
Qed.
Lemma inv_sqrt_gen : exists Lv : 'M[R]_k,
  [/\ is_trig_mx Lv, Lv *m Lv^T = X,
      (forall a b, res (sel a) (sel b) = Some (Lv a b)),
      (forall i j, A i i = None -> res i j = (if i == j then None else Some 0)) &
      (forall i j, A j j = None -> res i j = (if i == j then None else Some 0))] /\
  forall i j : 'I_n, (i < j)%N -> res i j = Some 0.
Proof.
exists Lv; have [t e] := Lv_spec.
have v a b : res (sel a) (sel b) = Some (Lv a b).
  rewrite resE !position_sel leqNgt ltn_ord /= andbF leqNgt ltn_ord /=; congr Some.
  by apply/esym/LvE; rewrite position_sel.
have r1 i j : A i i = None -> res i j = (if i == j then None else Some 0).
  by move=> h; rewrite resE position_flag ?flagE ?h // andbT.
have r2 i j : A j j = None -> res i j = (if i == j then None else Some 0).
  move=> h; have kj : (k <= position j)%N by rewrite position_flag ?flagE ?h.
  by rewrite resE kj orbT; case: eqP => [->|] //; rewrite kj.
split=> // i j ij; have ne : (i == j) = false by apply: contraTF ij => /eqP ->; rewrite ltnn.
case Ai: (A i i) => [vi|]; last by rewrite r1 // ne.
case Aj: (A j j) => [vj|]; last by rewrite r2 // ne.
have [a ea] : exists a : 'I_k, sel a = i by apply: flag_sel; rewrite flagE Ai.
have [b eb] : exists b : 'I_k, sel b = j by apply: flag_sel; rewrite flagE Aj.
rewrite -ea -eb v; congr Some; move/is_trig_mxP: t; apply.
rewrite ltnNge; apply/negP => /sel_le; rewrite ea eb leqNgt ij //.
Qed.
End Wrapper.

Lemma inv_sqrt_spec tria : tria_ok tria -> forall (svd : forall n, 'M[R]_n -> 'M[R]_n * 'rV[R]_n) n (A : 'M[option R]_n)
    (rtol : R) (ignore : bool),
  let y := \col_i A i i in let k := size (observed y) in let Av := obs_block y (map_mx value A) in
  pd Av -> 0 <= rtol ->
  (forall w w', eigenvalue_of Av w -> eigenvalue_of Av w' -> rtol * w' < w) ->
  (forall i j, A i i <> None -> A j j <> None -> A i j <> None) ->
  (ignore = false -> forall i, A i i <> None) ->
  (let M := Pd y *m Av *m (Pd y)^T in svd_at M (svd n M).1 (svd n M).2) ->
  let res := symmetric_inv_sqrt tria svd rtol ignore A in
  exists Lv : 'M[R]_k,
  [/\ is_trig_mx Lv, Lv *m Lv^T = invmx Av,
      (forall a b, res (sel a) (sel b) = Some (Lv a b)),
      (forall i j, A i i = None -> res i j = (if i == j then None else Some 0)) &
      (forall i j, A j j = None -> res i j = (if i == j then None else Some 0))] /\
  forall i j : 'I_n, (i < j)%N -> res i j = Some 0.
Proof.
move=> ok svd n A rtol ignore y k Av pdA r0 sep fin full dec res.
apply: inv_sqrt_gen => //.
- by move=> a; have := pd_diag a pdA; rewrite lt_def => /andP[].
- exact: B_inverse.
by move=> a; have := pd_diag a (pd_inv pdA); rewrite lt_def => /andP[].
Qed.
