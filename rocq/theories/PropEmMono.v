(** Property C77: expectation-maximisation with the library's smoother never decreases the library's evidence. *)
From Coq Require Import Reals Lra Lia List.
From mathcomp Require Import all_ssreflect all_algebra.
From Verif Require Import RStruct MxBase ZmodTac KalmanModel GaussSpec KalmanSpec MvnProofs
  KalmanProofs BayesProofs TriaExist ScanStep KalmanRuns SmootherProofs Trajectory PropKalman PropSmoothing PropMap
  UnbiasedSpec EmSpec EmProofs QuadModel QuadSpec QuadProofs PropQuad.
From Verif Require ScanModel DriverSpec DriverProofs.
Set Implicit Arguments.
Unset Strict Implicit.
Unset Printing Implicit Defensive.
Local Open Scope ring_scope.
Import GRing.Theory Num.Theory Order.Theory.

Section Em.
Variable tria : forall m l : nat, 'M[R]_(m, l) -> 'M[R]_m.
Variables (nx ny ny' : nat) (Inp Inp' Key Key' : Type).
(** the model whose smoothing law is used, and the model it is compared with *)
Variable init : Inp -> 'cV[R]_nx * 'M[R]_nx.
Variable dyn : Inp -> 'M[R]_nx * 'cV[R]_nx * 'M[R]_nx.
Variable obs : Inp -> 'M[R]_(ny, nx) * 'cV[R]_ny * 'M[R]_ny * 'cV[option R]_ny.
Variable init' : Inp' -> 'cV[R]_nx * 'M[R]_nx.
Variable dyn' : Inp' -> 'M[R]_nx * 'cV[R]_nx * 'M[R]_nx.
Variable obs' : Inp' -> 'M[R]_(ny', nx) * 'cV[R]_ny' * 'M[R]_ny' * 'cV[option R]_ny'.
Variables (split : Key -> nat -> list Key) (split' : Key' -> nat -> list Key').
Variables (dummy_like : Inp -> Inp) (inputs_of : @KalmanFilterState nx Inp -> Inp) (dummy_mx : 'M[R]_nx).
Variables (mean : ((nat -> 'cV[R]_nx) -> R) -> R) (good : ((nat -> 'cV[R]_nx) -> R) -> Prop).

(** [mean] is any expectation whose trajectory has the means, covariances and lag-one covariances returned by the
    smoother (the last from the stored gains). [Q] and [Q'] are the expected complete-data log likelihoods. *)
Theorem C77_evidence_lower_bound (store_cov par1 par2 par3 : bool) (key1 key2 : option Key) (key3 : option Key')
    (x0 : Inp) (rest : list Inp) (x0' : Inp') (rest' : list Inp') fs ss fs' fT fT' :
  let T := List.length rest in
  let logp x := log_joint x (init x0).1 (cov (init x0).2) (fun t => step_of dyn obs (List.nth t rest x0)) T in
  let logp' x := log_joint x (init' x0').1 (cov (init' x0').2) (fun t => step_of dyn' obs' (List.nth t rest' x0')) T in
  tria_ok tria -> DriverSpec.split_ok split -> DriverSpec.split_ok split' -> rest <> nil -> List.length rest' = T ->
  nondegenerate init dyn obs (x0 :: rest) -> nondegenerate init' dyn' obs' (x0' :: rest') ->
  ScanModel.filter split (kalman_build_filter tria init dyn obs) (x0 :: rest) par1 key1 = ScanModel.Ok fs ->
  ScanModel.smoother split dummy_like inputs_of (kalman_build_smoother tria dyn dummy_like dummy_mx true store_cov)
    fs (Some rest) par2 key2 = ScanModel.Ok ss ->
  ScanModel.filter split' (kalman_build_filter tria init' dyn' obs') (x0' :: rest') par3 key3 = ScanModel.Ok fs' ->
  List.nth_error fs T = Some fT -> List.nth_error fs' T = Some fT' ->
  expectation_ok mean good ->
  pair_moments mean good (mean_at ss) (cov_at ss) (fun t => cov_at ss t.+1 *m (gain_at ss t)^T) T ->
  exists Q Q', [/\ has_mean mean good logp Q, has_mean mean good logp' Q' &
    Q' - Q <= kf_log_normalizing_constant fT' - kf_log_normalizing_constant fT].
Proof.
move=> T logp logp' ok sok sok' ne eT nd nd' Ef Es Ef' EfT EfT' Hm mom.
have ne' : rest' <> nil by move=> e; move: eT; rewrite e /T; case: (rest) ne.
have [f [G [V [Ls e1 fact pT pV]]]] := runs_backward ok sok ne nd Ef Es.
move: e1; rewrite EfT => -[e]; rewrite -{}e {f} in fact.
have [ss' [f' [Es' [e1 _]]]] := trajectory_runs ok sok' id (fun s => kf_inputs s) dummy_mx par3 None ne' nd' Ef'.
have [f [G' [V' [_ e2 fact' pT' pV']]]] := runs_backward ok sok' ne' nd' Ef' Es'.
rewrite eT in e2 fact' pT' pV'.
move: e2; rewrite EfT' => -[e]; rewrite -{}e {f e1 f'} in fact'.
have mom' : pair_moments mean good (mean_at ss) (cov_at ss) (fun t => cov_at ss t.+1 *m (G t)^T) T.
  have [h1 h2 h3] := mom; split=> // t i j lt; have [_ _ /(_ erefl) <- _] := pV t lt; exact: h3.
have [e [e' [a1 a2 a3]]] := @gibbs_chain _ mean good Hm (mean_at ss) (cov_at ss) G V T mom'
  (fun t lt => let: And4 _ p _ _ := pV t lt in p) pT (fun t lt => let: And4 p _ _ _ := pV t lt in p)
  (mean_at ss' T) (cov_at ss' T) G' V' (fun t => mean_at ss' t - G' t *m mean_at ss' t.+1) pT'
  (fun t lt => let: And4 p _ _ _ := pV' t lt in p).
exists (kf_log_normalizing_constant fT + e), (kf_log_normalizing_constant fT' + e'); split.
- by apply: (hm_ext _ erefl (hm_add Hm (hm_const Hm _) a1)) => x; rewrite -fact.
- by apply: (hm_ext _ erefl (hm_add Hm (hm_const Hm _) a2)) => x; rewrite -fact'.
- by rewrite opprD addrACA; apply: ler_naddr; rewrite // subr_le0.
Qed.
End Em.
Print Assumptions C77_evidence_lower_bound.

(** such an expectation exists for every chain of backward kernels: a trajectory driven by finitely many equally likely
    noise vectors with identity covariance *)
Section Existence.
Variables (n : nat) (m : nat -> 'cV[R]_n.+1) (P G V : nat -> 'M[R]_n.+1) (T : nat).
Let N := (T.+1 * n.+1)%N.
Let sel t : 'M[R]_(n.+1, N) := \matrix_(i, j) ((j == t * n.+1 + i :> nat)%N)%:R.
Lemma sel_orth s t : (s <= T)%N -> (t <= T)%N -> sel s *m (sel t)^T = if s == t then 1%:M else 0.
Proof.
move=> ls lt; apply/matrixP => i k; rewrite mxE.
have lN u (a : 'I_n.+1) : (u <= T)%N -> (u * n.+1 + a < N)%N.
  by move=> lu; rewrite /N mulSn addnC -addSn; apply: leq_add; [exact: ltn_ord|rewrite leq_mul2r lu orbT].
pose j0 : 'I_N := Ordinal (lN s i ls).
have sE u (a : 'I_n.+1) (j : 'I_N) : sel u a j = ((j == u * n.+1 + a :> nat)%N)%:R by rewrite mxE.
rewrite (bigD1 j0) //= big1; last first.
  move=> j nj; rewrite sE [X in X * _](_ : _ = 0) ?mul0r //.
  by case: eqP => // e; case/eqP: nj; apply: val_inj.
rewrite [X in _ * X]mxE !sE eqxx mul1r addr0 /=.
have -> : (s * n.+1 + i == t * n.+1 + k)%N = (s == t) && (i == k).
  apply/eqP/andP => [e|[/eqP -> /eqP ->] //].
  have e1 : s = t.
    by have := congr1 (fun u => u %/ n.+1)%N e; rewrite !divnMDl // !divn_small ?ltn_ord // !addn0.
  by rewrite e1 eqxx; split=> //; move: e; rewrite e1 => /addnI /val_inj ->.
by case: eqP => // _; rewrite mxE.
Qed.
Lemma law_exists : psd (P T) -> (forall t, (t < T)%N -> psd (V t)) ->
  (forall t, (t < T)%N -> P t = G t *m P t.+1 *m (G t)^T + V t) ->
  exists mean good, expectation_ok mean good /\ pair_moments mean good m P (fun t => P t.+1 *m (G t)^T) T.
Proof.
move=> pT pV rec.
have [LT [_ eT]] := chol_exists pT.
have [L eL] : exists L : nat -> 'M[R]_n.+1, forall t, (t < T)%N -> L t *m (L t)^T = V t.
  exists (fun t => some_cholesky (V t)) => t lt.
  by have [] := ClassicalEpsilon.epsilon_spec (inhabits 0) _ (chol_exists (pV t lt)).
pose B := fix B k : 'M[R]_(n.+1, N) := if k is k'.+1 then G (T - k)%N *m B k' + L (T - k)%N *m sel (T - k)%N else LT *m sel T.
have Borth k s : (k <= T)%N -> (s < T - k)%N -> B k *m (sel s)^T = 0.
  elim: k => [|k IH] lk ls /=.
    by rewrite -mulmxA sel_orth ?mulmx0 // ?leqnn ?(ltnW (leq_trans ls (leq_subr _ _))) //; case: eqP ls => [->|]; rewrite ?ltnn ?subn0 ?ltnn // mulmx0.
  have ls' : (s < T - k)%N by apply: (ltn_trans ls); rewrite ltn_sub2l.
  rewrite mulmxDl -!mulmxA IH ?(ltnW lk) // mulmx0 add0r sel_orth ?leq_subr //; last first.
    by apply: ltnW; apply: (leq_trans ls (leq_subr _ _)).
  by case: eqP ls => [->|_ _]; rewrite ?ltnn // mulmx0.
have BB k : (k <= T)%N -> B k *m (B k)^T = P (T - k)%N.
  elim: k => [_|k IH lk] /=.
    by rewrite subn0 trmx_mul mulmxA -(mulmxA LT) sel_orth // eqxx mulmx1.
  have lk' : (T - k.+1 < T)%N by rewrite ltn_subrL (leq_trans _ lk).
  have z : B k *m (sel (T - k.+1)%N)^T = 0 by apply: Borth; [exact: ltnW|rewrite ltn_sub2l].
  have z' : sel (T - k.+1)%N *m (B k)^T = 0 by rewrite -[LHS]trmxK trmx_mul trmxK z trmx0.
  rewrite rec // subnSK // -(IH (ltnW lk)) -eL // linearD /= !trmx_mul mulmxDl !mulmxDr !mulmxA.
  rewrite -(mulmxA _ (B k) (sel _)^T) z mulmx0 mul0mx addr0 -(mulmxA _ (sel _) (B k)^T) z' mulmx0 mul0mx add0r.
  by rewrite -(mulmxA _ (sel _) (sel _)^T) sel_orth ?leq_subr // eqxx mulmx1.
have BS k : (k < T)%N -> B k *m (B k.+1)^T = P (T - k)%N *m (G (T - k.+1)%N)^T.
  move=> lk /=; rewrite linearD /= !trmx_mul mulmxDr !mulmxA BB ?(ltnW lk) // Borth ?mul0mx ?addr0 //.
    exact: ltnW.
  by rewrite ltn_sub2l.
have N0 : (0 < N)%N by rewrite /N mulSn.
have [w1 _ w2 _ w3] := C43_cubature N0 0 1%:M.
rewrite mul1mx trmx1 in w3; set s := get_sigma_points _ _ _ in w1 w2 w3.
pose I := 'I_(q_size (cubature_weights N)).
pose traj (i : I) t := m t + B (T - t)%N *m pt (sp_points s) i.
pose meanI (f : I -> R) := \sum_i sp_wm s i ord0 * f i.
have HI : expectation_ok meanI (fun=> True).
  split=> [c|f g a b _ _]; split=> //; first by rewrite /meanI -mulr_suml w1 mul1r.
  change (\sum_i sp_wm s i ord0 * (a * f i + b * g i) = a * meanI f + b * meanI g).
  rewrite /meanI !mulr_sumr -big_split; apply: eq_bigr => i _ /=.
  by rewrite mulrDr mulrCA [X in _ + X]mulrCA.
have Hz : vec_moments meanI (fun=> True) (fun i => pt (sp_points s) i) 0 1%:M.
  split=> [a|a b]; split=> //.
    by rewrite -w2 /weighted_mean summxE; apply: eq_bigr => i _; rewrite [RHS]mxE.
  rewrite -w3 mxE mul0r add0r /weighted_cov summxE; apply: eq_bigr => i _.
  rewrite subr0 [RHS]mxE [(_ *m _) a b]mxE big_ord1; congr (_ * (_ * _)).
  by rewrite [RHS]mxE; congr (pt _ i b _); exact: ord1.
exists (fun f => meanI (fun i => f (traj i))), (fun=> True); split.
  by split=> [c|f g a b _ _]; [exact: (proj1 HI)|exact: (proj2 HI (fun i => f (traj i)) (fun i => g (traj i)) a b)].
have Hx t : (t <= T)%N -> vec_moments meanI (fun=> True) (fun i => traj i t) (m t) (P t).
  move=> lt; have := vec_affine HI (B (T - t)%N) (m t) Hz.
  rewrite mulmx0 add0r mulmx1 BB ?leq_subr // subKn //.
  move=> [h1 h2]; split=> [i|i j].
    by apply: (hm_ext _ erefl (h1 i)) => x; rewrite /traj addrC.
  by apply: (hm_ext _ erefl (h2 i j)) => x; rewrite /traj addrC.
split=> [t i lt|t i j lt|t i j lt].
- by have [h _] := Hx t lt; exact: h.
- by have [_ h] := Hx t lt; exact: h.
have [_ h] := vec_affine HI (col_mx (B (T - t.+1)%N) (B (T - t)%N)) (col_mx (m t.+1) (m t)) Hz.
apply: (hm_ext _ _ (h (lshift _ i) (rshift _ j))) => [u|].
  by rewrite /traj mul_col_mx add_col_mx col_mxEu col_mxEd [m t.+1 + _]addrC [m t + _]addrC.
rewrite mulmx0 add0r mulmx1 tr_col_mx mul_col_row block_mxEur col_mxEu col_mxEd; congr (_ + _).
have e : (T - t)%N = (T - t.+1).+1 by rewrite subnSK.
rewrite e BS; last by rewrite ltn_subrL (leq_trans _ lt).
by rewrite -e !subKn // ltnW.
Qed.
End Existence.

(** every smoothing run has such an expectation *)
Theorem C77_law_exists tria (n ny : nat) (Inp Key : Type) (init : Inp -> 'cV[R]_n.+1 * 'M[R]_n.+1)
    (dyn : Inp -> 'M[R]_n.+1 * 'cV[R]_n.+1 * 'M[R]_n.+1)
    (obs : Inp -> 'M[R]_(ny, n.+1) * 'cV[R]_ny * 'M[R]_ny * 'cV[option R]_ny) (split : Key -> nat -> list Key)
    (dummy_like : Inp -> Inp) (inputs_of : @KalmanFilterState n.+1 Inp -> Inp) (dummy_mx : 'M[R]_n.+1)
    (store_cov par1 par2 : bool) (key1 key2 : option Key) (x0 : Inp) (rest : list Inp) fs ss :
  tria_ok tria -> DriverSpec.split_ok split -> rest <> nil -> nondegenerate init dyn obs (x0 :: rest) ->
  ScanModel.filter split (kalman_build_filter tria init dyn obs) (x0 :: rest) par1 key1 = ScanModel.Ok fs ->
  ScanModel.smoother split dummy_like inputs_of (kalman_build_smoother tria dyn dummy_like dummy_mx true store_cov)
    fs (Some rest) par2 key2 = ScanModel.Ok ss ->
  exists mean good, expectation_ok mean good /\
    pair_moments mean good (mean_at ss) (cov_at ss) (fun t => cov_at ss t.+1 *m (gain_at ss t)^T) (List.length rest).
Proof.
move=> ok sok ne nd Ef Es.
have [fT [G [V [_ _ _ pT pV]]]] := runs_backward ok sok ne nd Ef Es.
have [mean [good [h [h1 h2 h3]]]] := @law_exists n (mean_at ss) (cov_at ss) G V (List.length rest) (pd_psd pT)
  (fun t lt => let: And4 p _ _ _ := pV t lt in pd_psd p) (fun t lt => let: And4 _ p _ _ := pV t lt in p).
exists mean, good; split=> //; split=> // t i j lt; have [_ _ /(_ erefl) -> _] := pV t lt; exact: h3.
Qed.
Print Assumptions C77_law_exists.
Example C77_hypotheses_met (T : nat) :
  [/\ tria_ok some_tria, nondegenerate demo_init demo_dyn demo_obs (0%N :: iota 1 T.+1) & iota 1 T.+1 <> nil].
Proof. by have [h h'] := C18_hypotheses_met T; split=> //; exact: some_tria_ok. Qed.
