(** Potentials with a singular precision matrix. *)
From Coq Require Import Reals Lra FunctionalExtensionality.
From mathcomp Require Import all_ssreflect all_algebra.
From Verif Require Import RStruct MxBase ZmodTac KalmanModel LinalgModel LinearizeModel LinKalmanModel GaussSpec KalmanSpec
  LinalgSpec LinearizeSpec LinSpec PotSpec MvnProofs MvnProofs2 CholUpdate KalmanProofs BayesProofs InvSqrtProofs InvSqrtSing
  LinearizeProofs LinearizeProofs2 LinearizeProofs3 TriaExist SvdExist PropMvn LinRuns LinObs.
Set Implicit Arguments.
Unset Strict Implicit.
Unset Printing Implicit Defensive.
Local Open Scope ring_scope.
Import GRing.Theory Num.Theory Order.Theory.

(** ** what the decomposition of SvdExist.v serves *)
Lemma zero_padded_sym n k (B : 'M[R]_k) : B^T = B -> (zero_padded n B)^T = zero_padded n B.
Proof.
move=> s; apply/matrixP => i j; rewrite !mxE; case: insub => [a|]; case: insub => [b|] //.
by rewrite -[in RHS]s mxE.
Qed.
Lemma pos_def_inv n (A : 'M[R]_n) : pos_def A -> pos_def (invmx A). Proof. exact: pd_inv. Qed.
Lemma recoverable_some n rtol (Rn : 'M[R]_n) : pos_def Rn -> well_conditioned rtol (invmx Rn) ->
  recoverable (@some_svd) rtol Rn.
Proof. by move=> p w; split=> //; apply: some_svd_ok; have [] := pos_def_inv p. Qed.
Lemma recoverable_at_some n rtol y (Rn : 'M[R]_n) : pos_def (obs_block y Rn) ->
  well_conditioned rtol (invmx (obs_block y Rn)) -> recoverable_at (@some_svd) rtol y Rn.
Proof. by move=> p w; split=> //; apply/some_svd_ok/zero_padded_sym; have [] := pos_def_inv p. Qed.
(** every positive definite matrix is well conditioned for some positive tolerance *)
Lemma eigen_of_svd n (A u : 'M[R]_n) s w : psd A -> svd_at A u s -> eigenvalue_of A w -> exists j, w = s ord0 j.
Proof.
move=> pA dec [v [v0 e]]; have AE := sing_eig pA dec; have [uu _] := dec.
have [j cj] : exists j, (u^T *m v) j ord0 != 0.
  have [/existsP [j h]|] := boolP [exists j, (u^T *m v) j ord0 != 0]; first by exists j.
  rewrite negb_exists => /forallP z; case/negP: v0; rewrite -[v]mul1mx -(mulmx1C uu) -mulmxA.
  have -> : u^T *m v = 0 by apply/colP => j; have := z j; rewrite negbK => /eqP ->; rewrite mxE.
  by rewrite mulmx0.
exists j; apply: (mulIf cj); have : u^T *m (A *m v) = w *: (u^T *m v) by rewrite e -scalemxAr.
rewrite {1}AE -!mulmxA (mulmxA u^T u) uu mul1mx => /matrixP/(_ j ord0).
by rewrite mul_diag_mx [RHS]mxE [LHS]mxE => ->.
Qed.
Lemma tolerance_exists n (A : 'M[R]_n) : pos_def A -> exists rtol, 0 < rtol /\ well_conditioned rtol A.
Proof.
move=> pA; have [u [s dec]] := svd_exists (proj1 pA).
have pos j : 0 < s ord0 j.
  have [w [wv ww]] : exists w, w = s ord0 j /\ eigenvalue_of A w by exists (s ord0 j); split=> //; exact: (sing_value (pd_psd pA) dec).
  rewrite -wv; have [v [v0 e]] := ww; have [_ /(_ v v0)] := pA; rewrite -mulmxA e -scalemxAr mxE => h.
  have v2 : 0 < (v^T *m v) ord0 ord0.
    rewrite lt_def; apply/andP; split.
      apply: contra v0 => /eqP z; have := @gram_row0 _ _ _ v^T ord0; rewrite trmxK => /(_ z) /rowP r.
      by apply/eqP/colP => i; have := r i; rewrite !mxE.
    by rewrite mxE; apply: sumr_ge0 => i _; rewrite mxE -expr2 sqr_ge0.
  by rewrite pmulr_lgt0 in h.
case: n A u s pA dec pos => [|n] A u s pA dec pos.
  by exists 1; split; rewrite ?ltr01 // => w w' [v []]; rewrite (flatmx0 v) eqxx.
exists (s ord0 ord_max / (s ord0 ord0 + s ord0 ord0)); split; first by rewrite divr_gt0 // addr_gt0.
move=> w w' /(eigen_of_svd (pd_psd pA) dec) [j ->] /(eigen_of_svd (pd_psd pA) dec) [j' ->].
have [_ [_ [_ _ mono]]] := dec.
apply: lt_le_trans (mono j ord_max _); last exact: (leq_ord j).
have h0 : s ord0 j' <= s ord0 ord0 by exact: mono.
rewrite -mulrA -[X in _ < X]mulr1; rewrite ltr_pmul2l // mulrC ltr_pdivr_mulr ?addr_gt0 // mul1r.
by apply: le_lt_trans h0 _; rewrite ltr_addl.
Qed.

(** ** the derivative routines on a twice differentiable function *)
Section Oracles.
Variable tria : forall m k : nat, 'M[R]_(m, k) -> 'M[R]_m.
Variable svd : forall n, 'M[R]_n -> 'M[R]_n * 'rV[R]_n.
Variable grad : forall n, ('cV[option R]_n -> option R) -> 'cV[option R]_n -> 'cV[option R]_n.
Variable jacobian : forall n p, ('cV[option R]_n -> 'cV[option R]_p) -> 'cV[option R]_n -> 'M[option R]_(p, n).
Hypothesis tria_spec : tria_ok tria.
Hypothesis grad_spec : grad_ok grad.
Hypothesis jac_spec : jacobian_ok jacobian.
Variables (n : nat) (f : 'cV[option R]_n -> option R) (x g : 'cV[R]_n) (J : 'M[R]_n) (rtol : R).
Hypothesis rtol0 : 0 <= rtol.
Hypothesis fd : second_order f x g (- J).
Lemma second_grad : grad f (map_mx Some x) = map_mx Some g.
Proof. by have [G [<- h _]] := fd; exact: grad_spec. Qed.
Lemma second_hess : hessian grad jacobian f (map_mx Some x) = map_mx Some (- J).
Proof.
have [G [_ h1 h2]] := fd; apply: jac_spec => i.
have E z : grad f (map_mx Some z) i ord0 = Some (G z i ord0) by rewrite (grad_spec (h1 z)) mxE.
have [v [ev hv]] := h2 i; exists v; split; first by rewrite E -ev value_some.
move=> eps /hv [delta [d0 hd]]; exists delta; split=> // h /hd [w [ew hw]]; exists w; split=> //.
by rewrite -ew moved_some E value_some.
Qed.

Let z := touched J.
Hypothesis psdJ : psd J.
Hypothesis rank : clear_rank rtol J.
Hypothesis dec : decomposes svd (zero_padded n (obs_block z J)).
Lemma touchedE i : isSome (z i ord0) = (row i J != 0). Proof. by rewrite mxE; case: eqP. Qed.
Lemma untouched i j : z i ord0 = None \/ z j ord0 = None -> J i j = 0.
Proof.
have r0 a b : z a ord0 = None -> J a b = 0.
  by rewrite mxE; case: eqP => // /rowP/(_ b) e _; move: e; rewrite !mxE.
by case=> [/r0 //|h]; have [s _] := psdJ; rewrite -s mxE r0.
Qed.
Let Jo := obs_block z J.
Lemma touched_conj : (Sel z)^T *m Jo *m Sel z = J.
Proof.
apply/matrixP => i j; case Ei: (z i ord0) => [v|]; last first.
  by rewrite conjSel_missing ?(@untouched i j) //; left.
case Ej: (z j ord0) => [w|]; last by rewrite conjSel_missing ?(@untouched i j) //; right.
have [|a <-] := @sel_exists _ z i; rewrite ?Ei //.
by have [|b <-] := @sel_exists _ z j; rewrite ?Ej // conjSel_obs mxE.
Qed.
Lemma Jo_conj : Jo = Sel z *m J *m (Sel z)^T.
Proof. by rewrite -touched_conj !mulmxA SelSelT mul1mx -mulmxA SelSelT mulmx1. Qed.
Lemma taylor_sing : exists L (Lo : 'M[R]_(size (observed z))), let X := Lo *m Lo^T in
  [/\ linearize_taylor tria svd grad jacobian f (map_mx Some x) rtol true
      = (map_mx Some (x + (Sel z)^T *m X *m Sel z *m g), L),
      [/\ Jo *m X *m Jo = Jo, X *m Jo *m X = X & X *m Jo = Jo *m X],
      (forall a b, L (sel a) (sel b) = Some (Lo a b)) &
      (forall i j, z i ord0 = None \/ z j ord0 = None -> L i j = (if i == j then None else Some 0))].
Proof.
rewrite /linearize_taylor second_grad second_hess nan_oppE opprK (zero_rows _ _ _ untouched).
have vA i j : isSome (z i ord0) -> nan_at z J i j = Some (J i j).
  by move=> h; rewrite mxE /isnan h andbF.
have psdo : psd Jo by rewrite Jo_conj; exact: psd_conj.
have gapo : forall w w', eigenvalue_of Jo w -> eigenvalue_of Jo w' -> w != 0 -> w' != 0 -> rtol * w' < w.
  have eig t : eigenvalue_of Jo t -> eigenvalue_of J t.
    move=> [v [v0 e]]; exists ((Sel z)^T *m v); split.
      by apply: contra v0 => /eqP h; apply/eqP; rewrite -[v]mul1mx -(SelSelT z) -mulmxA h mulmx0.
    by rewrite -touched_conj -!mulmxA (mulmxA (Sel z)) SelSelT mul1mx e -scalemxAr.
  by move=> w w' /eig h /eig h'; exact: rank.
have rowso a : row a Jo != 0.
  have := sel_isSome a; rewrite touchedE; apply: contra => /eqP r0; apply/eqP/rowP => j.
  rewrite !mxE; case Ej: (z j ord0) => [w|]; last by rewrite (@untouched _ j) //; right.
  have [|b <-] := @sel_exists _ z j; rewrite ?Ej //.
  by move/rowP/(_ b): r0; rewrite !mxE.
have main := @inv_sqrt_sing tria tria_spec svd n (nan_at z J) rtol true.
have bE : mxsub (tnth (in_tuple (observed z))) (tnth (in_tuple (observed z))) (map_mx value (nan_at z J)) = Jo.
  by apply/matrixP => a b; rewrite [LHS]mxE [LHS]mxE -/(sel a) -/(sel b) vA ?sel_isSome //= mxE.
have dec' : let M := Pd z *m Jo *m (Pd z)^T in svd_at M (svd M).1 (svd M).2.
  have -> : Pd z *m Jo *m (Pd z)^T = zero_padded n Jo by apply/matrixP => i j; rewrite [RHS]mxE Pd_conj.
  exact: dec.
move: main; rewrite /obs_block /sel.
have yN i : z i ord0 = None -> nan_at z J i i = None by move=> h; rewrite mxE eqxx /isnan h.
have selR : forall a, tnth (in_tuple (observed z)) a = sel a by [].
rewrite /Pd.
move: (nan_at_observed z J); move: (observed (\col_i nan_at z J i i)) => s es; subst s; rewrite bE.
case=> // [i j|Lo].
  by move=> hi _; rewrite vA // -(nan_at_diag z J) //; case: (nan_at z J i i) hi.
move=> [t pX h1 h2'].
have h2 i j : z i ord0 = None \/ z j ord0 = None ->
    symmetric_inv_sqrt tria svd rtol true (nan_at z J) i j = (if i == j then None else Some 0).
  by move=> [h|h]; apply: h2'; [left|right]; exact: yN.
move: (symmetric_inv_sqrt _ _ _ _ _) h1 h2 => L h1 h2.
exists L, Lo; split=> //; congr (_, _).
have mk i : isnan (L i i) = isnan (z i ord0).
  case E: (z i ord0) => [v|]; last by rewrite h2 ?E ?eqxx; auto.
  by have [|a <-] := @sel_exists _ z i; rewrite ?E // h1.
have -> : \matrix_(i, j) (if isnan (L i i) && true || isnan (L j j) && true then Some 0 else L i j)
    = map_mx Some ((Sel z)^T *m Lo *m Sel z).
  apply/matrixP => i j; rewrite [LHS]mxE [RHS]mxE !mk !andbT.
  case Ei: (z i ord0) => [v|] /=; last by rewrite conjSel_missing ?Ei; auto.
  case Ej: (z j ord0) => [w|] /=; last by rewrite conjSel_missing ?Ej; auto.
  have [|a <-] := @sel_exists _ z i; rewrite ?Ei //.
  by have [|b <-] := @sel_exists _ z j; rewrite ?Ej // h1 conjSel_obs.
rewrite map_some_tr !nan_mulE nan_addE; congr (map_mx Some (_ + _ *m _)).
by rewrite !trmx_mul trmxK -!mulmxA (mulmxA (Sel z) (Sel z)^T) SelSelT mul1mx.
Qed.
End Oracles.

(** every positive definite noise covariance is recoverable for some positive tolerance *)
Example recoverable_any n (Rn : 'M[R]_n) : pos_def Rn -> exists rtol, 0 < rtol /\ recoverable (@some_svd) rtol Rn.
Proof.
move=> p; have [rtol [r0 w]] := tolerance_exists (pos_def_inv p).
by exists rtol; split=> //; exact: recoverable_some.
Qed.
