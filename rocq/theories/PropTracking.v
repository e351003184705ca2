(** C93: the tracking example. *)
From Coq Require Import Reals Lra Lia List ZArith.
From Coquelicot Require Import Coquelicot.
Lemma derive_affine (a b t : R) : is_derive (fun u : R => (a + b * u)%R) t b.
Proof. auto_derive; [exact I|ring]. Qed.
Lemma int_quad (a b c dt : R) :
  is_RInt (fun s : R => (a + b * s + c * (s * s))%R) 0 dt (a * dt + b * (dt * dt / 2) + c * (dt * dt * dt / 3))%R.
Proof.
set (f := fun s : R => (a + b * s + c * (s * s))%R); set (F := fun s : R => (a * s + b * (s * s / 2) + c * (s * s * s / 3))%R).
replace (a * dt + b * (dt * dt / 2) + c * (dt * dt * dt / 3))%R with (minus (F dt) (F 0%R))
  by (unfold minus, plus, opp, F; simpl; field).
apply (is_RInt_derive F f); intros x _.
- unfold F, f; auto_derive; [exact I|field].
- apply continuity_pt_filterlim. unfold f. reg.
Qed.
From mathcomp Require Import all_ssreflect all_algebra.
From Verif Require Import RStruct MxBase ZmodTac Ext MvnExt KalmanModel GaussExt GaussSpec KalmanSpec MvnProofs MvnProofs2
  KalmanProofs BayesProofs OpAlgebra FilterOp ScanStep KalmanRuns LinearizeProofs2 LinearFilterSpec LinearFilter TriaExist
  PropMvn Trajectory PropKalman PropOptimal IntertwineProofs ProductSpec ProductProofs PropProduct QuadSpec PropQuad TrackingModel TrackingSpec.
From Verif Require ScanModel DriverSpec DriverProofs.
Set Implicit Arguments.
Unset Strict Implicit.
Unset Printing Implicit Defensive.
Local Open Scope ring_scope.
Import GRing.Theory Num.Theory Order.Theory.

Lemma ord4 (P : 'I_4 -> Prop) :
  P ord0 -> P (lift ord0 ord0) -> P (lift ord0 (lift ord0 ord0)) -> P (lift ord0 (lift ord0 (lift ord0 ord0))) ->
  forall i, P i.
Proof.
move=> h0 h1 h2 h3 [[|[|[|[|i]]]] lt] //.
- by have -> : Ordinal lt = ord0 by exact: val_inj.
- by have -> : Ordinal lt = lift ord0 ord0 by exact: val_inj.
- by have -> : Ordinal lt = lift ord0 (lift ord0 ord0) by exact: val_inj.
- by have -> : Ordinal lt = lift ord0 (lift ord0 (lift ord0 ord0)) by exact: val_inj.
Qed.
Lemma RthirdE : (3%:R^-1 : R) = Rinv (IZR 3).
Proof.
have e : (3%:R : R) = IZR 3 by toR; rewrite /INR; lra.
by rewrite RinvE e //; apply/eqP; toR; lra.
Qed.
Ltac ent := rewrite !(mxE, big_ord_recl, big_ord0) /= ?RthirdE ?exprS ?expr0; toR; rewrite /INR.

(** the transition matrix is the exact solution of the equations of motion and the noise covariance is the exact
    accumulated noise, for every step length *)
Theorem C93_motion (q1 q2 : R) : transitions drift car_F /\ forall dt, accumulated car_F (shake q1 q2) dt (car_Q dt q1 q2).
Proof.
split.
  split.
    by apply/matrixP; elim/ord4; elim/ord4; rewrite !mxE /=.
  have D (a b : R) t i j : (forall u, car_F u i j = a + b * u) -> (drift *m car_F t) i j = b ->
      is_derive (fun u : R => car_F u i j) t ((drift *m car_F t) i j).
    by move=> h ->; apply: is_derive_ext (derive_affine a b t) => u; rewrite h.
  by move=> t; elim/ord4; elim/ord4;
     first [apply: (D 0 0); [move=> u|]; ent; ring
           |apply: (D 1 0); [move=> u|]; ent; ring
           |apply: (D 0 1); [move=> u|]; ent; ring].
move=> dt.
have ok (a b c : R) i j : (forall u, (car_F u *m shake q1 q2 *m (car_F u)^T) i j = a + b * u + c * (u * u)) ->
    car_Q dt q1 q2 i j = (a * dt + b * (dt * dt / 2%:R) + c * (dt * dt * dt / 3%:R)) ->
    is_RInt (fun s => (car_F s *m shake q1 q2 *m (car_F s)^T) i j) 0 dt (car_Q dt q1 q2 i j).
  move=> h ->; have i0 := int_quad a b c dt.
  have -> : a * dt + b * (dt * dt / 2%:R) + c * (dt * dt * dt / 3%:R)
    = (Rplus (Rplus (Rmult a dt) (Rmult b (Rdiv (Rmult dt dt) (IZR 2)))) (Rmult c (Rdiv (Rmult (Rmult dt dt) dt) (IZR 3)))).
    by rewrite RthirdE; toR; field.
  by apply: is_RInt_ext i0 => u _; rewrite h.
by elim/ord4; elim/ord4;
   first [apply: (ok 0 0 0); [move=> u|]; ent; field
         |apply: (ok q1 0 0); [move=> u|]; ent; field
         |apply: (ok q2 0 0); [move=> u|]; ent; field
         |apply: (ok 0 q1 0); [move=> u|]; ent; field
         |apply: (ok 0 q2 0); [move=> u|]; ent; field
         |apply: (ok 0 0 q1); [move=> u|]; ent; field
         |apply: (ok 0 0 q2); [move=> u|]; ent; field].
Qed.
Print Assumptions C93_motion.

Lemma car_F_add s t : car_F (s + t) = car_F t *m car_F s.
Proof. by apply/matrixP; elim/ord4; elim/ord4; ent; ring. Qed.
Lemma car_Q_add q1 q2 s t : car_Q (s + t) q1 q2 = car_F t *m car_Q s q1 q2 *m (car_F t)^T + car_Q t q1 q2.
Proof. by apply/matrixP; elim/ord4; elim/ord4; ent; field. Qed.
Lemma car_F0 : car_F 0 = 1%:M.
Proof. by case: (C93_motion 0 0) => -[]. Qed.
Lemma car_Q0 q1 q2 : car_Q 0 q1 q2 = 0.
Proof. by apply/matrixP; elim/ord4; elim/ord4; ent; field. Qed.
Lemma col4 (v : 'cV[R]_4) : v = \col_i nth 0 [:: v ord0 ord0; v (lift ord0 ord0) ord0; v (lift ord0 (lift ord0 ord0)) ord0;
  v (lift ord0 (lift ord0 (lift ord0 ord0))) ord0] i.
Proof. by apply/matrixP => i j; rewrite [j]ord1; move: i; elim/ord4; rewrite mxE. Qed.
Lemma car_Q_qf dt q1 q2 (v : 'cV[R]_4) :
  let a := v ord0 ord0 in let b := v (lift ord0 ord0) ord0 in let c := v (lift ord0 (lift ord0 ord0)) ord0 in
  let d := v (lift ord0 (lift ord0 (lift ord0 ord0))) ord0 in
  qf (car_Q dt q1 q2) v = dt * (q1 * ((c + a * dt / 2%:R) ^+ 2 + (a * dt / 2%:R) ^+ 2 / 3%:R)
                              + q2 * ((d + b * dt / 2%:R) ^+ 2 + (b * dt / 2%:R) ^+ 2 / 3%:R)).
Proof.
move=> a b c d.
have -> : v = \col_i nth 0 [:: a; b; c; d] i by exact: col4.
by rewrite /qf; clearbody a b c d; ent; field.
Qed.
Lemma car_Q_pd dt q1 q2 : 0 < dt -> 0 < q1 -> 0 < q2 -> pd (car_Q dt q1 q2).
Proof.
move=> d0 p1 p2; split.
  by apply/matrixP; elim/ord4; elim/ord4; rewrite !mxE.
move=> v; apply: contraTT => h.
have q0 (x y : R) : 0 <= (x + y) ^+ 2 + y ^+ 2 / 3%:R by rewrite addr_ge0 ?divr_ge0 ?sqr_ge0 ?ler0n.
have q1' (x y : R) : (x + y) ^+ 2 + y ^+ 2 / 3%:R = 0 -> x = 0 /\ y = 0.
  move/eqP; rewrite paddr_eq0 ?divr_ge0 ?sqr_ge0 ?ler0n // !sqrf_eq0 mulf_eq0 invr_eq0 pnatr_eq0 orbF sqrf_eq0 => /andP[/eqP e /eqP f].
  by move: e; rewrite f addr0.
rewrite car_Q_qf in h.
have := h; rewrite -real_leNgt ?num_real // => h'.
have {h'} : q1 * ((v (lift ord0 (lift ord0 ord0)) ord0 + v ord0 ord0 * dt / 2%:R) ^+ 2 + (v ord0 ord0 * dt / 2%:R) ^+ 2 / 3%:R)
          + q2 * ((v (lift ord0 (lift ord0 (lift ord0 ord0))) ord0 + v (lift ord0 ord0) ord0 * dt / 2%:R) ^+ 2
                  + (v (lift ord0 ord0) ord0 * dt / 2%:R) ^+ 2 / 3%:R) == 0.
  apply/eqP/le_anti/andP; split; first by rewrite -(pmulr_rle0 _ d0).
  by apply: addr_ge0; apply: mulr_ge0; rewrite ?q0 // ltW.
rewrite paddr_eq0; try by apply: mulr_ge0; rewrite ?q0 // ltW.
rewrite !mulf_eq0 !(gt_eqF p1) !(gt_eqF p2) /= => /andP[/eqP /q1' [c0 a0] /eqP /q1' [e0 b0]].
have z (x : R) : x * dt / 2%:R = 0 -> x = 0.
  by move/eqP; rewrite !mulf_eq0 invr_eq0 pnatr_eq0 (gt_eqF d0) !orbF => /eqP.
rewrite negbK; apply/eqP/matrixP => i j; rewrite [j]ord1 mxE; move: i; elim/ord4 => //; exact: z.
Qed.

(** prediction over [s] and then over [t] is prediction over [s + t], whatever the two step lengths *)
Theorem C93_any_grid tria cholesky (q1 q2 s t : R) (m : 'cV[R]_4) (L : 'M[R]_4) :
  tria_ok tria -> cholesky_ok cholesky -> 0 < q1 -> 0 < q2 -> 0 < s -> 0 < t ->
  let over u (b : 'cV[R]_4 * 'M[R]_4) := predict tria b.1 b.2 (car_F u) 0 (car_chol_Q u q1 q2 cholesky) in
  (over t (over s (m, L))).1 = (over (s + t) (m, L)).1 /\
  cov (over t (over s (m, L))).2 = cov (over (s + t) (m, L)).2.
Proof.
move=> ok cok p1 p2 s0 t0 over.
have P u b : 0 < u -> (over u b).1 = car_F u *m b.1 /\ cov (over u b).2 = car_F u *m cov b.2 *m (car_F u)^T + car_Q u q1 q2.
  move=> u0; rewrite /over; case E: (predict tria _ _ _ _ _) => [m' L'] /=.
  have [-> _ ->] := predict_spec ok E; rewrite addr0 {2}/cov.
  by have [_ ->] := cok _ _ (car_Q_pd u0 p1 p2).
have [m1 c1] := P s (m, L) s0; have [m2 c2] := P t (over s (m, L)) t0; have [m3 c3] := P (s + t) (m, L) (addr_gt0 s0 t0).
rewrite m2 m1 m3 c2 c1 c3 car_F_add car_Q_add mulmxA; split=> //.
by rewrite mulmxDr mulmxDl trmx_mul !mulmxA addrA.
Qed.
Print Assumptions C93_any_grid.

(** ** uniqueness of the motion *)
Lemma transitions_unique (G : R -> 'M[R]_4) : transitions drift G -> forall t, G t = car_F t.
Proof.
move=> [G0 dG].
have [[F0 dF] _] := C93_motion 0 0.
have const (f : R -> R) t : (forall x, is_derive f x 0) -> f 0 = 0 -> f t = 0.
  move=> h f0; rewrite -[RHS]f0; case: (Rtotal_order 0 t) => [lt|[<- //|lt]].
  - by apply/esym; apply: (eq_is_derive f) lt => x _; exact: h.
  - by apply: (eq_is_derive f) lt => x _; exact: h.
have dD i j x : is_derive (fun u => G u i j - car_F u i j) x ((drift *m (G x - car_F x)) i j).
  have -> : (drift *m (G x - car_F x)) i j = (drift *m G x) i j - (drift *m car_F x) i j by rewrite mulmxBr [LHS]mxE [X in _ + X]mxE.
  exact: (is_derive_minus (fun u => G u i j) (fun u => car_F u i j) x).
have D0 i j : G 0 i j - car_F 0 i j = 0 by rewrite G0 F0 subrr.
have low (X : 'M[R]_4) (i j : 'I_4) : (1 < i)%N -> (drift *m X) i j = 0.
  by move=> h; rewrite mxE big1 // => k _; rewrite mxE (_ : (k == i + 2 :> nat)%N = false) ?mul0r //;
    apply/negP => /eqP e; have := ltn_ord k; rewrite e; case: (val i) h => [|[|v]] //; rewrite addnC.
have up (X : 'M[R]_4) (i k j : 'I_4) : val k = (i + 2)%N -> (drift *m X) i j = X k j.
  move=> h; rewrite mxE (bigD1 k) //= mxE h eqxx mul1r big1 ?addr0 // => l nl.
  by rewrite mxE -h (_ : (val l == val k) = false) ?mul0r //; apply/negbTE.
have R2 (i j : 'I_4) t : (1 < i)%N -> G t i j - car_F t i j = 0.
  by move=> h; apply: (const (fun u => G u i j - car_F u i j)) => // x; have := dD i j x; rewrite low.
have R1 (i k j : 'I_4) t : val k = (i + 2)%N -> G t i j - car_F t i j = 0.
  move=> h; apply: (const (fun u => G u i j - car_F u i j)) => // x; have := dD i j x.
  have k1 : (1 < k)%N by rewrite h addn2.
  have -> : (drift *m (G x - car_F x)) i j = G x k j - car_F x k j by rewrite (up _ _ _ _ h) !mxE.
  by rewrite R2.
move=> t; apply/matrixP => i j; apply: subr0_eq; move: i; elim/ord4.
- exact: (R1 _ (lift ord0 (lift ord0 ord0))).
- exact: (R1 _ (lift ord0 (lift ord0 (lift ord0 ord0)))).
- exact: R2.
- exact: R2.
Qed.
Lemma accumulated_unique n (F G : R -> 'M[R]_n) S dt Q Q' : (forall t, F t = G t) ->
  accumulated F S dt Q -> accumulated G S dt Q' -> Q = Q'.
Proof.
move=> e h h'; apply/matrixP => i j; rewrite -(is_RInt_unique _ _ _ _ (h i j)) -(is_RInt_unique _ _ _ _ (h' i j)).
by apply: RInt_ext => x _; rewrite e.
Qed.
Lemma car_unique (G : R -> 'M[R]_4) q1 q2 dt Q : transitions drift G -> accumulated G (shake q1 q2) dt Q ->
  (forall t, G t = car_F t) /\ Q = car_Q dt q1 q2.
Proof.
move=> tG aQ; have e := transitions_unique tG; split=> //.
exact: (accumulated_unique e aQ ((C93_motion q1 q2).2 dt)).
Qed.

(** ** which row is used when *)
Lemma jax_get_row A (d : A) (ys : list A) k : (k < List.length ys)%coq_nat -> jax_get d ys (Z.of_nat k) = List.nth k ys d.
Proof.
move=> lt; rewrite /jax_get; have -> : Z.ltb (Z.of_nat k) Z0 = false by apply/Z.ltb_ge; lia.
by congr (List.nth _ ys d); lia.
Qed.
Lemma rows_in_order A (d : A) (ys : list A) :
  List.map (fun x => jax_get d ys (Z.pred x)) (List.map Z.of_nat (List.seq 1 (List.length ys))) = ys.
Proof.
rewrite List.map_map -List.seq_shift List.map_map.
rewrite (List.map_ext _ (fun x => jax_get d ys (Z.of_nat x))); last by move=> k; rewrite Nat2Z.inj_succ Z.pred_succ.
have main (zs : list A) : forall k, (forall i, (i < List.length zs)%coq_nat -> List.nth (Nat.add k i) ys d = List.nth i zs d) ->
    (Nat.add k (List.length zs) <= List.length ys)%coq_nat ->
    List.map (fun x => jax_get d ys (Z.of_nat x)) (List.seq k (List.length zs)) = zs.
  elim: zs => [|z zs IH] //= k h le; congr (_ :: _).
    by rewrite jax_get_row; [have := h 0%N; rewrite Nat.add_0_r => -> //; lia|lia].
  by apply: IH => [i lt|]; [rewrite -(h (S i)); [congr List.nth|]|]; lia.
by apply: main => //; lia.
Qed.

Lemma kf_step_unseen nx ny (b : belief nx) (s : lgstep nx ny) : (forall i, ly s i ord0 = None) ->
  kf_step b s = Belief (pred_mean b s) (pred_cov b s) (bell b).
Proof.
move=> h; have e : size (observed (ly s)) = 0%N.
  by rewrite size_filter; apply/eqP; rewrite -leqn0 leqNgt -has_count; apply/hasPn => i _; rewrite h.
rewrite /kf_step /cond_mean /cond_cov /kalman_gain.
move: (obsH s) (obsd s) (obsR s) (obsy s); rewrite e => H d X y.
rewrite [y - _]flatmx0 [H]flatmx0 !mulmx0 !mul0mx addr0 subr0.
by congr Belief; rewrite /gauss /mahalanobis [y - _]flatmx0 mulmx0 mxE det_mx00 ln_1 mul0r; toR; lra.
Qed.

Lemma obs_block_scalar' n (y : 'cV[option R]_n) (c : R) : obs_block y c%:M = c%:M.
Proof. by apply/matrixP => a b; rewrite !mxE (inj_eq (@sel_inj _ _)). Qed.

Section Run.
Variables (tria : forall m k : nat, 'M[R]_(m, k) -> 'M[R]_m) (cholesky : forall n, 'M[R]_n -> 'M[R]_n).
Variables (Key : Type) (split : Key -> nat -> list Key) (dt q1 q2 sd_P0 sd_R : R) (ys : list 'cV[option R]_2).
Hypotheses (ok : tria_ok tria) (cok : cholesky_ok cholesky) (sok : DriverSpec.split_ok split).
Hypotheses (dt0 : 0 < dt) (p1 : 0 < q1) (p2 : 0 < q2) (n0 : sd_P0 != 0) (nR : sd_R != 0).
Let init := car_init_params sd_P0.
Let dyn := car_dynamics_params dt q1 q2 cholesky.
Let obs := car_observation_params sd_R ys.
Let bs := planar_beliefs (car_F dt) (car_Q dt q1 q2) (sd_P0 ^+ 2) (sd_R ^+ 2) ys.
Lemma scalar_cov n (a : R) : cov (a%:M : 'M[R]_n) = (a ^+ 2)%:M.
Proof. by rewrite /cov tr_scalar_mx -scalar_mxM expr2. Qed.
Lemma car_HE : car_H = positions.
Proof. by apply/matrixP => -[[|[|i]] lt] //; elim/ord4; rewrite !mxE. Qed.
Lemma car_step_of x : step_of dyn obs x = planar_step (car_F dt) (car_Q dt q1 q2) (sd_R ^+ 2) (jax_get (const_mx None) ys (Z.pred x)).
Proof.
rewrite /step_of /dyn /obs /car_dynamics_params /car_observation_params scalar_cov car_HE /planar_step /car_chol_Q {1}/cov.
by have [_ ->] := cok (car_Q_pd dt0 p1 p2).
Qed.
Lemma car_exact : exact init dyn obs (car_inputs ys) = bs.
Proof.
have e : List.map (step_of dyn obs) (List.map Z.of_nat (List.seq 1 (List.length ys)))
    = List.map (planar_step (car_F dt) (car_Q dt q1 q2) (sd_R ^+ 2)) ys.
  rewrite (List.map_ext _ _ car_step_of).
  by rewrite -(List.map_map (fun x => jax_get (const_mx None) ys (Z.pred x))) rows_in_order.
have -> : exact init dyn obs (car_inputs ys)
    = kf_beliefs (init_belief init Z0) (List.map (step_of dyn obs) (List.map Z.of_nat (List.seq 1 (List.length ys)))) by [].
rewrite e /bs /planar_beliefs; congr kf_beliefs.
rewrite /init_belief /init /car_init_params scalar_cov /planar_start; congr Belief.
by apply/matrixP => i j; rewrite [j]ord1; move: i; elim/ord4; rewrite !mxE.
Qed.
Lemma car_nondegenerate : nondegenerate init dyn obs (car_inputs ys).
Proof.
split=> [x _|t x _]; first by rewrite /= scalar_mx_is_trig unitmxE det_scalar unitrX // unitfE.
rewrite car_step_of /=; split; first by apply: pd_unit; exact: car_Q_pd.
rewrite /obsR /= obs_block_scalar' unitmxE det_scalar; apply: unitrX.
by rewrite unitfE expf_neq0.
Qed.
Lemma car_run par key : exists states,
  ScanModel.filter split (car_filter dt q1 q2 sd_P0 sd_R cholesky ys tria Key) (car_inputs ys) par key = ScanModel.Ok states /\
  List.length states = S (List.length ys) /\
  forall t s b, List.nth_error states t = Some s -> List.nth_error bs t = Some b ->
    [/\ kf_mean s = bmean b, cov (kf_chol_cov s) = bcov b & kf_log_normalizing_constant s = bell b].
Proof.
have ne : car_inputs ys <> nil by [].
have [st [E [L H]]] := filter_exact ok sok par key ne car_nondegenerate.
exists st; split=> //; split; first by rewrite L /car_inputs List.map_length List.seq_length.
by move=> t s b Es; rewrite -car_exact => Eb; have [? ? _ ? _] := H _ _ _ Es Eb.
Qed.
End Run.

(** the run is the exact filter of the continuous motion, observed after every [dt], and the belief at position [t]
    has seen the first [t] rows of the data, in both modes *)
Theorem C93_run tria cholesky (Key : Type) (split : Key -> nat -> list Key) (dt q1 q2 sd_P0 sd_R : R)
    (ys : list 'cV[option R]_2) (par : bool) (key : option Key) (F : R -> 'M[R]_4) (Q : 'M[R]_4) :
  tria_ok tria -> cholesky_ok cholesky -> DriverSpec.split_ok split ->
  0 < dt -> 0 < q1 -> 0 < q2 -> sd_P0 != 0 -> sd_R != 0 ->
  transitions drift F -> accumulated F (shake q1 q2) dt Q ->
  exists states,
  ScanModel.filter split (car_filter dt q1 q2 sd_P0 sd_R cholesky ys tria Key) (car_inputs ys) par key = ScanModel.Ok states /\
  List.length states = S (List.length ys) /\
  forall t s b, List.nth_error states t = Some s ->
    List.nth_error (planar_beliefs (F dt) Q (sd_P0 ^+ 2) (sd_R ^+ 2) ys) t = Some b ->
    [/\ kf_mean s = bmean b, cov (kf_chol_cov s) = bcov b & kf_log_normalizing_constant s = bell b].
Proof.
move=> ok cok sok dt0 p1 p2 n0 nR tF aQ; have [eF ->] := car_unique tF aQ; rewrite eF.
exact: car_run.
Qed.
Print Assumptions C93_run.

(** ** gaps in the data *)
Lemma beliefs_gap F Q r b (ys : list 'cV[option R]_2) t n c c' :
  (forall k y i, (t <= k)%coq_nat -> (k < Nat.add t n)%coq_nat -> List.nth_error ys k = Some y -> y i ord0 = None) ->
  List.nth_error (kf_beliefs b (List.map (planar_step F Q r) ys)) t = Some c ->
  List.nth_error (kf_beliefs b (List.map (planar_step F Q r) ys)) (Nat.add t n) = Some c' ->
  c' = iter n (fun a => Belief (F *m bmean a) (F *m bcov a *m F^T + Q) (bell a)) c.
Proof.
elim: n c' => [|n IH] c' gap Ec; first by rewrite Nat.add_0_r Ec => -[].
rewrite Nat.add_succ_r => Ec'.
have lt := nth_lt Ec'; rewrite kf_beliefs_length List.map_length in lt.
have [y Ey] : exists y, List.nth_error ys (Nat.add t n) = Some y by apply: nth_ex; lia.
have [d Ed] : exists d, List.nth_error (kf_beliefs b (List.map (planar_step F Q r) ys)) (Nat.add t n) = Some d.
  by apply: nth_ex; rewrite kf_beliefs_length List.map_length; lia.
have := kf_beliefs_step (s := planar_step F Q r y) _ Ed; rewrite List.nth_error_map Ey Ec' => /(_ erefl) [->].
rewrite iterS -(IH d) //; last by move=> k z i h1 h2; apply: gap => //; lia.
rewrite kf_step_unseen; first by rewrite /pred_mean /pred_cov /= addr0.
by move=> i; apply: (gap (Nat.add t n) y) => //; lia.
Qed.
Lemma iter_motion dt q1 q2 n (c : belief 4) :
  iter n (fun a => Belief (car_F dt *m bmean a) (car_F dt *m bcov a *m (car_F dt)^T + car_Q dt q1 q2) (bell a)) c
  = Belief (car_F (dt *+ n) *m bmean c) (car_F (dt *+ n) *m bcov c *m (car_F (dt *+ n))^T + car_Q (dt *+ n) q1 q2) (bell c).
Proof.
elim: n => [|n IH]; first by rewrite mulr0n car_F0 car_Q0 trmx1 !mul1mx mulmx1 addr0; case: c.
rewrite iterS {}IH /= mulrSr car_F_add car_Q_add; congr Belief; first by rewrite mulmxA.
by rewrite mulmxDr mulmxDl trmx_mul !mulmxA addrA.
Qed.
(** [n] rows without any measurement are one prediction over the time [n dt] *)
Theorem C93_gap tria cholesky (Key : Type) (split : Key -> nat -> list Key) (dt q1 q2 sd_P0 sd_R : R)
    (ys : list 'cV[option R]_2) (par : bool) (key : option Key) (F : R -> 'M[R]_4) (Q : 'M[R]_4) states t n s s' :
  tria_ok tria -> cholesky_ok cholesky -> DriverSpec.split_ok split ->
  0 < dt -> 0 < q1 -> 0 < q2 -> sd_P0 != 0 -> sd_R != 0 ->
  transitions drift F -> accumulated F (shake q1 q2) (dt *+ n) Q ->
  ScanModel.filter split (car_filter dt q1 q2 sd_P0 sd_R cholesky ys tria Key) (car_inputs ys) par key = ScanModel.Ok states ->
  (forall k y i, (t <= k)%coq_nat -> (k < Nat.add t n)%coq_nat -> List.nth_error ys k = Some y -> y i ord0 = None) ->
  List.nth_error states t = Some s -> List.nth_error states (Nat.add t n) = Some s' ->
  [/\ kf_mean s' = F (dt *+ n) *m kf_mean s,
      cov (kf_chol_cov s') = F (dt *+ n) *m cov (kf_chol_cov s) *m (F (dt *+ n))^T + Q &
      kf_log_normalizing_constant s' = kf_log_normalizing_constant s].
Proof.
move=> ok cok sok dt0 p1 p2 n0 nR tF aQ E gap Es Es'; have [eF ->] := car_unique tF aQ; rewrite eF.
have [st [E' [L H]]] := car_run ys ok cok sok dt0 p1 p2 n0 nR par key.
move: E'; rewrite E => -[] e; subst st.
have [c Ec] : exists c, List.nth_error (planar_beliefs (car_F dt) (car_Q dt q1 q2) (sd_P0 ^+ 2) (sd_R ^+ 2) ys) t = Some c.
  by apply: nth_ex; rewrite kf_beliefs_length List.map_length -L; exact: nth_lt Es.
have [c' Ec'] : exists c, List.nth_error (planar_beliefs (car_F dt) (car_Q dt q1 q2) (sd_P0 ^+ 2) (sd_R ^+ 2) ys) (Nat.add t n) = Some c.
  by apply: nth_ex; rewrite kf_beliefs_length List.map_length -L; exact: nth_lt Es'.
have [-> -> ->] := H _ _ _ Es Ec; have [-> -> ->] := H _ _ _ Es' Ec'.
by rewrite (beliefs_gap gap Ec Ec') iter_motion.
Qed.
Print Assumptions C93_gap.

(** ** the axes *)
Lemma ord2 (P : 'I_2 -> Prop) : P ord0 -> P (lift ord0 ord0) -> forall i, P i.
Proof.
move=> h0 h1 [[|[|i]] lt] //.
- by have -> : Ordinal lt = ord0 by exact: val_inj.
- by have -> : Ordinal lt = lift ord0 ord0 by exact: val_inj.
Qed.
Notation "'i1'" := (lift ord0 ord0) (only parsing).
Lemma diag_array (A B : 'M[R]_2) : diag_block A B =
  array 4 4 [:: [:: A ord0 ord0; A ord0 i1; 0; 0]; [:: A i1 ord0; A i1 i1; 0; 0];
                [:: 0; 0; B ord0 ord0; B ord0 i1]; [:: 0; 0; B i1 ord0; B i1 i1]].
Proof.
rewrite -[RHS](submxK (m1 := 2) (m2 := 2) (n1 := 2) (n2 := 2)) /diag_block.
by congr block_mx; apply/matrixP; elim/ord2; elim/ord2; rewrite !mxE.
Qed.
Lemma col_array (a b : 'cV[R]_2) : col_mx a b =
  array 4 1 [:: [:: a ord0 ord0]; [:: a i1 ord0]; [:: b ord0 ord0]; [:: b i1 ord0]].
Proof.
rewrite -[RHS](vsubmxK (m1 := 2) (m2 := 2)).
by congr col_mx; apply/matrixP => i j; rewrite [j]ord1; move: i; elim/ord2; rewrite !mxE.
Qed.
Definition swap : 'M[R]_4 := array 4 4 [:: [:: 1; 0; 0; 0]; [:: 0; 0; 1; 0]; [:: 0; 1; 0; 0]; [:: 0; 0; 0; 1]].
Lemma swapT : swap^T = swap.
Proof. by apply/matrixP; elim/ord4; elim/ord4; rewrite !mxE. Qed.
Lemma swap2 : swap *m swap = 1%:M.
Proof. by apply/matrixP; elim/ord4; elim/ord4; ent; ring. Qed.
Lemma swap_unit : swap \in unitmx.
Proof. by case: (mulmx1_unit swap2). Qed.
Lemma swapV : invmx swap = swap.
Proof. by rewrite -[invmx swap]mulmx1 -swap2 mulmxA mulVmx ?swap_unit // mul1mx. Qed.
Lemma axes_step dt q1 q2 r (y : 'cV[option R]_2) :
  rewritten_step swap (const_mx 1) (planar_step (car_F dt) (car_Q dt q1 q2) r y)
  = both_step (axis_step dt q1 r (const_mx (y ord0 ord0))) (axis_step dt q2 r (const_mx (y i1 ord0))) :> lgstep (2 + 2) (1 + 1).
Proof.
have u1 : units (const_mx 1 : 'cV[R]_2) = 1%:M by apply/matrixP => i j; rewrite !mxE.
rewrite /rewritten_step /both_step swapV swapT u1 !mul1mx mulmx1 mulmx0 !col_mx0 /=; congr LgStep.
- by rewrite diag_array; apply/matrixP; elim/ord4; elim/ord4; ent; ring.
- by rewrite diag_array; apply/matrixP; elim/ord4; elim/ord4;
  rewrite !(mxE, big_ord_recl, big_ord0) /= ?subn0 ?subn1 /= ?divr1 ?RthirdE ?exprS ?expr0; toR; field.
- rewrite -[LHS](submxK (m1 := 1) (m2 := 1) (n1 := 2) (n2 := 2)).
  by congr block_mx; apply/matrixP => i j; rewrite [i]ord1; move: j; elim/ord2; ent; ring.
- by rewrite /diag_block -scalar_mx_block.
- rewrite -[LHS](vsubmxK (m1 := 1) (m2 := 1)); congr col_mx; apply/matrixP => i j; rewrite [i]ord1 [j]ord1 !mxE.
  + have -> : lshift 1 (ord0 : 'I_1) = (ord0 : 'I_(1 + 1)) by exact: val_inj.
    by case: (y _ _) => [v|] //=; rewrite mul1r.
  + have -> : rshift 1 (ord0 : 'I_1) = (i1 : 'I_(1 + 1)) by exact: val_inj.
    by case: (y _ _) => [v|] //=; rewrite mul1r.
Qed.
Lemma scalar_pd n (a : R) : a != 0 -> pd ((a ^+ 2)%:M : 'M[R]_n).
Proof. by move=> h; rewrite -scalar_cov; apply: unit_pd; rewrite unitmxE det_scalar unitrX // unitfE. Qed.
Lemma step_ok_noise n k (s : lgstep n k) (a : R) : psd (lQ s) -> lR s = (a ^+ 2)%:M -> a != 0 -> step_ok s.
Proof.
move=> pQ eR n0; have pR : pd (obsR s) by rewrite /obsR eR obs_block_scalar'; exact: scalar_pd.
by split=> //; [exact: pd_psd|apply: pd_unit; apply: pdDr => //; exact: psd_conj].
Qed.
Lemma axis_psd (dt q r : R) y : 0 < dt -> 0 < q -> psd (lQ (axis_step dt q r y)).
Proof.
move=> d0 q0; pose U : 'M[R]_(2, 4) := array 2 4 [:: [:: 1; 0; 0; 0]; [:: 0; 0; 1; 0]].
have -> : lQ (axis_step dt q r y) = U *m car_Q dt q q *m U^T.
  by apply/matrixP; elim/ord2; elim/ord2;
  rewrite !(mxE, big_ord_recl, big_ord0) /= ?subn0 ?subn1 /= ?divr1 ?RthirdE ?exprS ?expr0; toR; field.
by apply: psd_conj; apply: pd_psd; exact: car_Q_pd.
Qed.
Lemma axes_beliefs (dt q1 q2 a r : R) (ys : list 'cV[option R]_2) t c c1 c2 :
  0 < dt -> 0 < q1 -> 0 < q2 -> r != 0 ->
  List.nth_error (planar_beliefs (car_F dt) (car_Q dt q1 q2) (a ^+ 2) (r ^+ 2) ys) t = Some c ->
  List.nth_error (axis_beliefs dt q1 1 (a ^+ 2) (r ^+ 2) (coordinate ord0 ys)) t = Some c1 ->
  List.nth_error (axis_beliefs dt q2 (-1) (a ^+ 2) (r ^+ 2) (coordinate i1 ys)) t = Some c2 ->
  rewritten swap 0 c = both c1 c2.
Proof.
move=> d0 p1 p2 n0 Ec Ec1 Ec2.
pose f (y : 'cV[option R]_2) := planar_step (car_F dt) (car_Q dt q1 q2) (r ^+ 2) y.
pose f1 (y : 'cV[option R]_2) := axis_step dt q1 (r ^+ 2) (const_mx (y ord0 ord0)).
pose f2 (y : 'cV[option R]_2) := axis_step dt q2 (r ^+ 2) (const_mx (y i1 ord0)).
pose f' (y : 'cV[option R]_2) : lgstep (2 + 2) (1 + 1) := rewritten_step swap (const_mx 1) (f y).
have s0 n : psd ((a ^+ 2)%:M : 'M[R]_n) by rewrite -scalar_cov; exact: gram_psd.
have un (y : 'cV[option R]_2) (i : 'I_2) : (const_mx 1 : 'cV[R]_2) i ord0 != 0 by rewrite mxE oner_neq0.
have okf (y : 'cV[option R]_2) : List.In y ys -> step_ok (f y).
  by move=> _; apply: (step_ok_noise (a := r)) => //; apply: pd_psd; exact: car_Q_pd.
have okb (y : 'cV[option R]_2) : List.In y ys -> step_ok (f1 y) /\ step_ok (f2 y).
  by move=> _; split; apply: (step_ok_noise (a := r)) => //; exact: axis_psd.
have sp : psd (bcov (planar_start (a ^+ 2))) by exact: s0.
have sa (v : R) : psd (bcov (axis_start 0 v (a ^+ 2))) by exact: s0.
have := beliefs_rewritten (u := fun=> const_mx 1) (f := f) (f' := f') swap_unit un (fun=> erefl) 0 sp okf Ec.
rewrite add0r big1 => [E'|y _]; last by rewrite /log_volume big1 // => i _; rewrite mxE normr1 ln_1.
have e0 : rewritten swap 0 (planar_start (a ^+ 2)) = both (axis_start 0 1 (a ^+ 2)) (axis_start 0 (-1) (a ^+ 2)).
  rewrite /rewritten /both /= swapT subr0 addr0 /diag_block -scalar_mx_block mul_mx_scalar -scalemxAl swap2 scalemx1; congr Belief.
  by rewrite col_array; apply/matrixP => i j; rewrite [j]ord1; move: i; elim/ord4; ent; ring.
rewrite e0 in E'.
rewrite /axis_beliefs /coordinate List.map_map in Ec1; rewrite /axis_beliefs /coordinate List.map_map in Ec2.
have := beliefs_both (f1 := f1) (f2 := f2) (f := f') (axes_step dt q1 q2 (r ^+ 2)) (sa 1) (sa (-1)) okb Ec1 Ec2.
by move=> H; exact: (f_equal (odflt (rewritten swap 0 c)) (etrans (esym E') H)).
Qed.
(** the two axes are filtered independently: each belief of the run is the two beliefs of one-dimensional runs on the
    two coordinates of the data *)
Theorem C93_axes tria cholesky (Key : Type) (split : Key -> nat -> list Key) (dt q1 q2 sd_P0 sd_R : R)
    (ys : list 'cV[option R]_2) (par : bool) (key : option Key) states t s c1 c2 :
  tria_ok tria -> cholesky_ok cholesky -> DriverSpec.split_ok split ->
  0 < dt -> 0 < q1 -> 0 < q2 -> sd_P0 != 0 -> sd_R != 0 ->
  ScanModel.filter split (car_filter dt q1 q2 sd_P0 sd_R cholesky ys tria Key) (car_inputs ys) par key = ScanModel.Ok states ->
  List.nth_error states t = Some s ->
  List.nth_error (axis_beliefs dt q1 1 (sd_P0 ^+ 2) (sd_R ^+ 2) (coordinate ord0 ys)) t = Some c1 ->
  List.nth_error (axis_beliefs dt q2 (-1) (sd_P0 ^+ 2) (sd_R ^+ 2) (coordinate (lift ord0 ord0) ys)) t = Some c2 ->
  [/\ kf_mean s = planar_mean (bmean c1) (bmean c2), cov (kf_chol_cov s) = planar_cov (bcov c1) (bcov c2) &
      kf_log_normalizing_constant s = bell c1 + bell c2].
Proof.
move=> ok cok sok dt0 p1 p2 n0 nR E Es Ec1 Ec2.
have [st [E' [L H]]] := car_run ys ok cok sok dt0 p1 p2 n0 nR par key.
move: E'; rewrite E => -[] e; subst st.
have [c Ec] : exists c, List.nth_error (planar_beliefs (car_F dt) (car_Q dt q1 q2) (sd_P0 ^+ 2) (sd_R ^+ 2) ys) t = Some c.
  by apply: nth_ex; rewrite kf_beliefs_length List.map_length -L; exact: nth_lt Es.
have [-> -> ->] := H _ _ _ Es Ec.
have [em eP el] := axes_beliefs dt0 p1 p2 nR Ec Ec1 Ec2.
rewrite subr0 in el; rewrite -el; rewrite swapT in eP.
have h0 : inord 0 = ord0 :> 'I_2 by apply: val_inj; rewrite /= inordK.
have h1 : inord 1 = lift ord0 ord0 :> 'I_2 by apply: val_inj; rewrite /= inordK.
have -> : bmean c = swap *m (swap *m bmean c) by rewrite mulmxA swap2 mul1mx.
have -> : bcov c = swap *m (swap *m bcov c *m swap) *m swap by rewrite !mulmxA swap2 mul1mx -mulmxA swap2 mulmx1.
split=> //.
  rewrite em col_array; apply/matrixP => i j; rewrite [j]ord1; move: i.
  by elim/ord4; rewrite !(mxE, big_ord_recl, big_ord0) /= ?h0 ?h1; toR; ring.
rewrite eP -/(diag_block _ _) diag_array; apply/matrixP.
by elim/ord4; elim/ord4; rewrite !(mxE, big_ord_recl, big_ord0) /= ?h0 ?h1; toR; ring.
Qed.
Print Assumptions C93_axes.

(** the parameters of the script (variances 1, dt 0.1, deviations 0.05 and 0.5), data with a gap and a row of which
    only one entry was measured *)
Example C93_hypotheses_met (par : bool) :
  let dt := 10%:R^-1 in let a := 20%:R^-1 in let r := 2%:R^-1 in
  let ys := [:: const_mx (Some 1); const_mx None; const_mx None; \col_i (if i == 0 then Some 1 else None)] in
  [/\ [/\ tria_ok some_tria, cholesky_ok some_cholesky, DriverSpec.split_ok kal_split & 0 < dt],
      [/\ a != 0, r != 0, transitions drift car_F & accumulated car_F (shake 1 1) dt (car_Q dt 1 1)],
      forall k y i, (1 <= k)%coq_nat -> (k < Nat.add 1 2)%coq_nat -> List.nth_error ys k = Some y -> y i ord0 = None &
      exists states, ScanModel.filter kal_split (car_filter dt 1 1 a r some_cholesky ys some_tria nat) (car_inputs ys) par None
        = ScanModel.Ok states /\ List.length states = 5%N].
Proof.
move=> dt a r ys; have inv n : 0 < (n.+1%:R^-1 : R) by rewrite invr_gt0 ltr0Sn.
have d0 : 0 < dt by exact: inv.
have a0 : a != 0 by rewrite gt_eqF // inv.
have r0 : r != 0 by rewrite gt_eqF // inv.
have [tF aF] := C93_motion 1 1.
split; [split=> //; [exact: some_tria_ok|exact: some_cholesky_ok|exact: kal_split_ok]|by split| |].
- by case=> [|[|[|k]]] y i; try lia; move=> _ _ [<-]; rewrite mxE.
- have [st [E [L _]]] := car_run ys some_tria_ok some_cholesky_ok kal_split_ok d0 ltr01 ltr01 a0 r0 par None.
  by exists st.
Qed.
