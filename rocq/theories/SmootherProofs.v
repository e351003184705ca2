(** The RTS smoothing step, the smoothing operator and whole smoothing runs. *)
From Coq Require Import Reals Lra Lia List.
From mathcomp Require Import all_ssreflect all_algebra.
From Verif Require Import RStruct MxBase ZmodTac KalmanModel GaussSpec KalmanSpec MvnProofs MvnProofs2
  KalmanProofs BayesProofs OpAlgebra FilterOp ScanStep KalmanRuns.
From Verif Require ScanModel ScanProofs DriverSpec DriverProofs.
Set Implicit Arguments.
Unset Strict Implicit.
Unset Printing Implicit Defensive.
Local Open Scope ring_scope.
Import GRing.Theory Num.Theory Order.Theory.

Section Step.
Variable tria : forall m l : nat, 'M[R]_(m, l) -> 'M[R]_m.
Hypothesis tria_spec : tria_ok tria.
Variable nx : nat.
Variables (m : 'cV[R]_nx) (L F : 'M[R]_nx) (c : 'cV[R]_nx) (Lq : 'M[R]_nx).
Let P := cov L.
Let Q := cov Lq.
Let Pp := F *m P *m F^T + Q.
Let G := P *m F^T *m invmx Pp.
Hypothesis uP : Pp \in unitmx.
Lemma PpE : innovation_cov P F Q = Pp. Proof. by []. Qed.
Lemma GE : kalman_gain P F Q = G. Proof. by []. Qed.
Lemma PpT : Pp^T = Pp. Proof. exact: ScanStep.innovT. Qed.
Lemma GPp : G *m Pp = P *m F^T. Proof. by rewrite /G mulmxKV. Qed.
Lemma condE : cond_cov P F Q = P - G *m Pp *m G^T.
Proof.
have h : Pp *m G^T = F *m P by rewrite -[in LHS]PpT -trmx_mul GPp trmx_mul trmxK covT.
by rewrite /cond_cov GE -!mulmxA h.
Qed.

Lemma smoother_paramsE e : smoother_params tria m L F c Lq = e ->
  [/\ sE e = G, sg e = m - G *m (F *m m + c), is_trig_mx (sD e) & cov (sD e) = P - G *m Pp *m G^T].
Proof.
rewrite /smoother_params; set T := tria _ => <- /=.
have [t1 t2] : is_trig_mx (ulsubmx T) /\ is_trig_mx (drsubmx T) := joint_trig tria_spec F Lq L.
have [u g cc] := joint_unit tria_spec (uP : innovation_cov (cov L) F (cov Lq) \in unitmx).
rewrite -/T in u g cc.
have Ee : (invmx (ltri (ulsubmx T))^T *m (dlsubmx T)^T)^T = G.
  by rewrite trmx_mul trmxK -trmx_inv trmxK ltri_trig // g.
by rewrite Ee cc; split=> //; exact: condE.
Qed.

(** C16 *)
Lemma smoother_updateE ms Ls mean chol gain : smoother_update tria m L ms Ls F c Lq = (mean, chol, gain) ->
  [/\ mean = m + G *m (ms - (F *m m + c)), is_trig_mx chol, cov chol = P + G *m (cov Ls - Pp) *m G^T & gain = G].
Proof.
have := smoother_paramsE erefl; rewrite /smoother_update /smoother_params /=.
set T := tria _; set E := (_ *m _)^T => -[-> _ tD cD] [<- <- <-].
have [tc cc] := tria_row tria_spec (drsubmx T) (G *m Ls) (leq_addl nx nx).
split=> //; first by rewrite (addrC c).
by rewrite cc cD cov_mul mulmxBr mulmxBl; zmod.
Qed.
Lemma smoother_pair ms E0 Ls e : smoothing_operator tria (MkSSE ms E0 Ls) (smoother_params tria m L F c Lq) = e ->
  [/\ sg e = m + G *m (ms - (F *m m + c)), is_trig_mx (sD e), cov (sD e) = P + G *m (cov Ls - Pp) *m G^T & sE e = G *m E0].
Proof.
case Ep: (smoother_params _ _ _ _ _ _) => [g E D]; have [/= -> -> tD cD] := smoother_paramsE Ep.
move=> <- /=; have [tc cc] := tria_row tria_spec (G *m Ls) D (leq_addl nx nx).
split=> //.
- by rewrite mulmxBr; zmod.
- by rewrite cc cD cov_mul mulmxBr mulmxBl; zmod.
Qed.
End Step.

(** ** the operator *)
Section Op.
Variable tria : forall m l : nat, 'M[R]_(m, l) -> 'M[R]_m.
Hypothesis tria_spec : tria_ok tria.
Variable nx : nat.
Definition sdec (e : SmootherScanElement nx) := (sg e, sE e, cov (sD e)).
Lemma smoothing_opE e1 e2 : sdec (smoothing_operator tria e1 e2) =
  (sE e2 *m sg e1 + sg e2, sE e2 *m sE e1, sE e2 *m cov (sD e1) *m (sE e2)^T + cov (sD e2)).
Proof.
case: e1 e2 => g1 E1 D1 [g2 E2 D2]; rewrite /sdec /=.
by have [_ ->] := tria_row tria_spec (E2 *m D1) D2 (leq_addl nx nx); rewrite cov_mul.
Qed.
Lemma smoothing_op_assoc e1 e2 e3 :
  sdec (smoothing_operator tria (smoothing_operator tria e1 e2) e3)
  = sdec (smoothing_operator tria e1 (smoothing_operator tria e2 e3)).
Proof.
have h12 := smoothing_opE e1 e2; have h23 := smoothing_opE e2 e3.
rewrite !smoothing_opE; move: h12 h23; rewrite /sdec => -[-> -> ->] [-> -> ->].
by congr (_, _, _); [mxzmod|rewrite mulmxA|rewrite trmx_mul; mxzmod].
Qed.
End Op.

(** ** runs *)
Section Runs.
Variable tria : forall m l : nat, 'M[R]_(m, l) -> 'M[R]_m.
Hypothesis tria_spec : tria_ok tria.
Variable nx : nat.
Variables Inp Key : Type.
Variable get_dynamics_params : Inp -> 'M[R]_nx * 'cV[R]_nx * 'M[R]_nx.
Variable split : Key -> nat -> list Key.
Hypothesis split_spec : DriverSpec.split_ok split.
Variables (dummy_like : Inp -> Inp) (inputs_of : @KalmanFilterState nx Inp -> Inp) (dummy_mx : 'M[R]_nx).
Variables store_gain store_cov : bool.
Let sm := kalman_build_smoother tria (Key := Key) get_dynamics_params dummy_like dummy_mx store_gain store_cov.

Definition ks_equiv (s s' : @KalmanSmootherState nx Inp) :=
  [/\ sdec (ks_elem s) = sdec (ks_elem s'), ks_gain s = ks_gain s',
      ks_chol_cov_given_next s = ks_chol_cov_given_next s' & ks_inputs s = ks_inputs s'].
Lemma ks_assoc : DriverSpec.assoc_upto (ScanModel.smoother_combine sm) (fun _ => True) ks_equiv.
Proof.
split=> //.
- by move=> x y _ _; rewrite /ks_equiv => -[-> -> -> ->].
- by move=> x y z _ _ _; rewrite /ks_equiv => -[-> -> -> ->].
- move=> x x' y y' _ _ _ _ [e1 e2 e3 e4] [f1 f2 f3 f4]; split=> //=.
  by rewrite !smoothing_opE //; move: e1 f1; rewrite /sdec => -[-> -> ->] [-> -> ->].
- by move=> x y z _ _ _; split=> //=; rewrite smoothing_op_assoc.
Qed.

(** what a smoothing pass must return, for filtering states [fs] and transitions [trans] *)
Definition smoothed (fs : list (@KalmanFilterState nx Inp)) (trans : list Inp)
    (states : list (@KalmanSmootherState nx Inp)) :=
  let T := List.length trans in
  [/\ List.length states = S T,
      (forall f s, List.nth_error fs T = Some f -> List.nth_error states T = Some s ->
         ks_mean s = kf_mean f /\ cov (ks_chol_cov s) = cov (kf_chol_cov f)) &
      (forall t f x s s' F c Lq, List.nth_error fs t = Some f -> List.nth_error trans t = Some x ->
         List.nth_error states t = Some s -> List.nth_error states (S t) = Some s' ->
         get_dynamics_params x = (F, c, Lq) ->
         let m := kf_mean f in let P := cov (kf_chol_cov f) in let Q := cov Lq in
         [/\ ks_mean s = rts_mean m P F c Q (ks_mean s'),
             cov (ks_chol_cov s) = rts_cov P F Q (cov (ks_chol_cov s')),
             store_gain -> ks_gain s = Some (rts_gain P F Q) &
             store_cov -> exists V, [/\ ks_chol_cov_given_next s = Some V, is_trig_mx V &
                                        cov V = rts_cond_cov P F Q]])].
Lemma prepare_trig f x k : is_trig_mx (sD (ks_elem (kalman_smoother_prepare tria (Key := Key) get_dynamics_params store_gain store_cov f x k))).
Proof.
rewrite /kalman_smoother_prepare; case: (get_dynamics_params x) => [[F c] Lq] /=.
by have [] := joint_trig tria_spec F Lq (kf_chol_cov f).
Qed.
Lemma combine_trig x y : is_trig_mx (sD (ks_elem (kalman_smoother_combine tria x y : @KalmanSmootherState nx Inp))).
Proof.
rewrite /=; case: (ks_elem x) (ks_elem y) => ? ? ? [? ? ?] /=.
by apply: (tria_trig tria_spec); exact: leq_addl.
Qed.
Lemma smoother_exact fs trans (parallel : bool) key :
  trans <> nil -> List.length fs = S (List.length trans) ->
  (forall t f x F c Lq, List.nth_error fs t = Some f -> List.nth_error trans t = Some x ->
     get_dynamics_params x = (F, c, Lq) -> rts_pred (cov (kf_chol_cov f)) F (cov Lq) \in unitmx) ->
  exists states, ScanModel.smoother split dummy_like inputs_of sm fs (Some trans) parallel key = ScanModel.Ok states /\
    smoothed fs trans states /\
    ((forall f, List.nth_error fs (List.length trans) = Some f -> is_trig_mx (kf_chol_cov f)) ->
     forall t s, List.nth_error states t = Some s -> is_trig_mx (ks_chol_cov s)).
Proof.
move=> ne len reg.
have [x0 Ex0] : exists x, List.nth_error trans 0 = Some x by apply: nth_ex; case: trans ne {len reg} => //= *; lia.
have [ss [Es [L1 [L2 [BT BS]]]]] := DriverProofs.smoother_sequential _ split_spec dummy_like inputs_of sm fs trans x0 trans key
  ne len Ex0 (or_introl erefl).
have seq : smoothed fs trans ss.
  split=> //; first by move=> f s Ef; rewrite (BT _ Ef) => -[<-].
  move=> t f x s s' F c Lq Ef Ex Et Es' Ed; move: Et; rewrite (BS _ _ _ _ Ef Ex Es') => -[<-].
  have u := reg _ _ _ _ _ _ Ef Ex Ed.
  rewrite /ks_mean /ks_chol_cov /= /kalman_smoother_prepare Ed.
  case: (ks_elem s') => ms Em Ds.
  have [p1 p2 p3 p4] := smoother_paramsE (c := c) (m := kf_mean f) tria_spec u erefl.
  have [q1 q2 q3 q4] := smoother_pair (c := c) (m := kf_mean f) tria_spec u (ms := ms) (E0 := Em) (Ls := Ds) erefl.
  split=> //; first by move=> ->; rewrite p1.
  by move=> ->; eexists; split; [reflexivity| |].
have trig ps : ScanModel.smoother split dummy_like inputs_of sm fs (Some trans) parallel key = ScanModel.Ok ps ->
    (forall f, List.nth_error fs (List.length trans) = Some f -> is_trig_mx (kf_chol_cov f)) ->
     forall t s, List.nth_error ps t = Some s -> is_trig_mx (ks_chol_cov s).
  move=> Ep tf.
  have [ps' [Ep' [_ H]]] := DriverProofs.smoother_interval _ dummy_like inputs_of sm (fun _ _ s => is_trig_mx (ks_chol_cov s))
    fs trans parallel key split_spec ne len (fun i j k x y _ _ _ _ _ => combine_trig x y)
    (fun f x k Ef => tf f Ef) (fun t f x k _ _ => prepare_trig f x k).
  by move: Ep'; rewrite Ep => -[->].
case: parallel trig => trig; last first.
  by exists ss; split=> //; split=> //; exact: trig.
have [ps [ss' [Ep [Ess F]]]] := DriverProofs.smoother_parallel _ split_spec dummy_like inputs_of sm _ _ fs trans key ne len
   ks_assoc (fun _ _ _ _ => I) (fun _ _ _ _ _ _ => I).
move: Ess; rewrite Es => -[e]; rewrite -{}e {ss'} in F.
exists ps; split=> //; split; last exact: trig.
have [q1 q2 q3] := seq; have lps : List.length ps = List.length ss := Forall2_length' F.
split; first by rewrite lps.
- move=> f s Ef Et; have [s' Et'] : exists s', List.nth_error ss (List.length trans) = Some s' by apply: nth_ex; lia.
  have [e1 _ _ _] := Forall2_nth F Et Et'; have := q2 _ _ Ef Et'.
  by move: e1; rewrite /sdec /ks_mean /ks_chol_cov => -[-> _ ->].
- move=> t f x s s' F' c Lq Ef Ex Et Et' Ed.
  have [r Er] : exists r, List.nth_error ss t = Some r by apply: nth_ex; have := nth_lt Et; lia.
  have [r' Er'] : exists r', List.nth_error ss t.+1 = Some r' by apply: nth_ex; have := nth_lt Et'; lia.
  have [e1 e2 e3 _] := Forall2_nth F Et Er; have [f1 _ _ _] := Forall2_nth F Et' Er'.
  have := q3 _ _ _ _ _ _ _ _ Ef Ex Er Er' Ed.
  by move: e1 f1; rewrite /sdec /ks_mean /ks_chol_cov e2 e3 => -[-> _ ->] [-> _ ->].
Qed.
End Runs.
