(** C61 for scalar states, exactly: the parallel log normalizing constant at time t is NaN if and only if some
    even time 0 < e < t was reached by a noiseless transition; otherwise it is the exact evidence. *)
From Coq Require Import Reals Lra Lia List Classical.
From mathcomp Require Import all_ssreflect all_algebra.
From Verif Require Import RStruct MxBase ZmodTac Ext MvnExt KalmanModel GaussExt GaussSpec KalmanSpec MvnProofs MvnProofs2
  KalmanProofs BayesProofs OpAlgebra FilterOp ScanStep KalmanRuns GaussExtProofs TriaExist ScanEven DriverEven Trajectory
  PropKalman PropLinKalman PropSingular ParityRuns.
From Verif Require ScanModel ScanProofs DriverSpec DriverProofs.
Set Implicit Arguments.
Unset Strict Implicit.
Unset Printing Implicit Defensive.
Local Open Scope ring_scope.
Import GRing.Theory Num.Theory Order.Theory.

Section Scalar.
Variable tria : forall m l : nat, 'M[R]_(m, l) -> 'M[R]_m.
Hypothesis tria_spec : tria_ok tria.
Variable ny : nat.
Variables Inp Key : Type.
Variable get_init_params : Inp -> 'cV[R]_1 * 'M[R]_1.
Variable get_dynamics_params : Inp -> 'M[R]_1 * 'cV[R]_1 * 'M[R]_1.
Variable get_observation_params : Inp -> 'M[R]_(ny, 1) * 'cV[R]_ny * 'M[R]_ny * 'cV[option R]_ny.
Variable split : Key -> nat -> list Key.
Hypothesis split_spec : DriverSpec.split_ok split.
Let flt := kalman_build_filter tria (Key := Key) get_init_params get_dynamics_params get_observation_params.
Let eflt := kalman_ext_filter tria (Key := Key) get_init_params get_dynamics_params get_observation_params.
Let step := step_of get_dynamics_params get_observation_params.
Notation el := (element tria Key get_init_params get_dynamics_params get_observation_params).

Definition well_posed (inputs : list Inp) :=
  (forall x, List.nth_error inputs 0 = Some x -> (get_init_params x).2 \in unitmx) /\
  (forall t x, List.nth_error inputs (S t) = Some x ->
     obsR (step x) \in unitmx /\ (lQ (step x) \in unitmx \/ lF (step x) \in unitmx)).
(** some even time e > 0 with i <= e and e + 1 < j was reached without noise *)
Definition noiseless_even (inputs : list Inp) (i j : nat) :=
  exists e x, [/\ ~~ odd e, (0 < e)%N, (i <= e)%N, (e.+1 < j)%N & List.nth_error inputs e = Some x /\ lQ (step x) = 0].

Lemma trig1 (A : 'M[R]_1) : is_trig_mx A.
Proof. by apply/is_trig_mxP => i j; rewrite (ord1 i) (ord1 j) ltnn. Qed.
Lemma unit1_or0 (A : 'M[R]_1) : A \in unitmx \/ A = 0.
Proof.
rewrite unitmxE det_mx11 unitfE; case: eqP => [h|h]; last by left.
by right; apply/matrixP => i j; rewrite (ord1 i) (ord1 j) mxE.
Qed.
Lemma ell_nan_left e1 e2 l2 : operator_ell_ext tria e1 e2 NaN l2 = NaN.
Proof. by case: e1 e2 => A1 b1 U1 h1 Z1 m1 [A2 b2 U2 h2 Z2 m2]; rewrite /operator_ell_ext; case: l2. Qed.
Lemma good_ent (e : FilterScanElement 1) : good e -> ent (fU e) <> R0.
Proof. by move=> [_]; rewrite unitmxE det_mx11 unitfE => /eqP. Qed.

(** sequential runs *)
Lemma sequential_elements inputs key : inputs <> nil -> well_posed inputs ->
  exists states, ScanModel.filter split flt inputs false key = ScanModel.Ok states /\
    List.length states = List.length inputs /\
    forall t s, List.nth_error states t = Some s -> dec (kf_elem s) = prod (el inputs) 0 t /\ good (kf_elem s).
Proof.
move=> ne [w0 wS]; have [st [E [L [R0' RS]]]] := DriverProofs.filter_sequential _ split_spec flt inputs key ne.
exists st; split=> //; split=> //; elim=> [|t IH] s Es.
  have [x Ex] : exists x, List.nth_error inputs 0 = Some x by apply: nth_ex; rewrite -L; exact: nth_lt Es.
  move: Es; rewrite (R0' _ Ex) => -[<-]; rewrite (key_free0 tria get_init_params get_dynamics_params get_observation_params) /= /element Ex; split=> //.
  by have := w0 _ Ex; rewrite /kalman_init_prepare /good; case: (get_init_params x) => m0 L0 /= u; split=> //; exact: trig1.
have lt := nth_lt Es.
have [x Ex] : exists x, List.nth_error inputs t.+1 = Some x by apply: nth_ex; rewrite -L.
have [s0 Es0] : exists s0, List.nth_error st t = Some s0 by apply: nth_ex; lia.
have [d0 g0] := IH _ Es0; have [uR uQF] := wS _ _ Ex.
move: Es; rewrite (RS t x s0 Ex Es0) => -[<-].
split; last exact: op_step_good.
rewrite op_dec // d0 (key_free tria get_init_params get_dynamics_params get_observation_params) /= add0n.
by congr ce_op; rewrite /element Ex.
Qed.

(** parallel runs: the interval invariant *)
Definition inv inputs i j (s : KalmanFilterState 1 (Inp := Inp) * ext) :=
  (noiseless_even inputs i j -> s.2 = NaN) /\
  (~ noiseless_even inputs i j ->
     [/\ dec (kf_elem s.1) = prod (el inputs) i (j - i).-1, s.2 = Fin (fell (kf_elem s.1)),
         j <> i.+1 -> good (kf_elem s.1) &
         j = i.+1 -> (i = 0%N -> good (kf_elem s.1)) /\
           ((0 < i)%N -> exists x k, List.nth_error inputs i = Some x /\ s.1 = ScanModel.filter_prepare flt x k)]).
Lemma single_good x (k : option Key) : obsR (step x) \in unitmx -> lQ (step x) \in unitmx ->
  good (kf_elem (ScanModel.filter_prepare flt x k)).
Proof. by move=> uR uQ; exact: prepare_good. Qed.
Lemma inv_combine inputs i j k x y : well_posed inputs -> (i < j)%N -> (j < k)%N -> ~~ odd i ->
  ~~ odd j \/ (j = i.+1 /\ k = j.+1) -> inv inputs i j x -> inv inputs j k y ->
  inv inputs i k (ScanModel.filter_combine eflt x y).
Proof.
move=> [w0 wS] ij jk ei jE [n1 f1] [n2 f2].
have nanL : noiseless_even inputs i j -> (ScanModel.filter_combine eflt x y).2 = NaN.
  by move=> /n1 e /=; rewrite e; exact: ell_nan_left.
have nanR : noiseless_even inputs j k -> (ScanModel.filter_combine eflt x y).2 = NaN.
  by move=> /n2 e /=; rewrite e; exact: ell_nan_right.
have upL : noiseless_even inputs i j -> noiseless_even inputs i k.
  by move=> [e [z [a b c d f]]]; exists e, z; split=> //; exact: ltn_trans d jk.
have upR : noiseless_even inputs j k -> noiseless_even inputs i k.
  by move=> [e [z [a b c d f]]]; exists e, z; split=> //; exact: leq_trans (ltnW ij) c.
have [bL|gL] := classic (noiseless_even inputs i j); first by split=> [_|h]; [exact: nanL|case: h; exact: upL].
have [bR|gR] := classic (noiseless_even inputs j k); first by split=> [_|h]; [exact: nanR|case: h; exact: upR].
have {f1} [d1 e1 wide1 single1] := f1 gL; have {f2} [d2 e2 wide2 single2] := f2 gR.
have dich : good (kf_elem x.1) \/ (exists z, [/\ j = i.+1, (0 < i)%N, List.nth_error inputs i = Some z, lQ (step z) = 0 &
    fU (kf_elem x.1) = 0]).
  case: (eqVneq j i.+1) => [ji|/eqP ji]; last by left; exact: wide1.
  have [s0 s1] := single1 ji; case: (posnP i) => [i0|ip]; first by left; exact: s0.
  have [z [k' [Ez ->]]] := s1 ip.
  have [i' ii] : exists i', i = i'.+1 by exists i.-1; rewrite prednK.
  have [uR _] := wS i' z (etrans (congr1 _ (esym ii)) Ez).
  have [uQ|q0] := unit1_or0 (lQ (step z)); first by left; exact: single_good.
  right; exists z; split=> //; apply: noiseless_element => //; exact: obs_regular.
case: dich => [gx|[z [ji ip Ez q0 U0]]]; last first.
  have bad : noiseless_even inputs i k by exists i, z; split=> //; rewrite -ji.
  by split=> [_ /=|//]; apply: operator_ell_singular => //; rewrite U0 /ent mxE.
have gy : ~~ odd j \/ (0 < j)%N by right; exact: leq_ltn_trans ij.
have j0 : (0 < j)%N by exact: leq_ltn_trans ij.
have gxy : good (kf_elem (ScanModel.filter_combine eflt x y).1).
  case: (eqVneq k j.+1) => [kj|/eqP kj]; last exact: (op_good tria_spec _ (wide2 kj)).
  have [_ /(_ j0) [z [k' [Ez yE]]]] := single2 kj.
  rewrite -[(ScanModel.filter_combine eflt x y).1]/(kalman_filter_combine tria x.1 y.1) yE.
  have [j' jj] : exists j', j = j'.+1 by exists j.-1; rewrite prednK.
  have [uR uQF] := wS j' z (etrans (congr1 _ (esym jj)) Ez).
  exact: op_step_good.
have nbad : ~ noiseless_even inputs i k.
  move=> [e [z [ev e0 ie ek [Ez q0]]]].
  case: (leqP j e) => [je|ej]; first by apply: gR; exists e, z.
  case: jE => [evj|[ji kj]].
    apply: gL; exists e, z; split=> //; rewrite ltn_neqAle ej andbT.
    by apply/eqP => h; move: evj; rewrite -h /= ev.
  have ei' : e = i by apply/eqP; rewrite eqn_leq ie andbT -ltnS -ji.
  move: gx; rewrite /good.
  have [_ s1] := single1 ji; have [z' [k' [Ez' ->]]] : exists z' k', List.nth_error inputs i = Some z' /\ x.1 = ScanModel.filter_prepare flt z' k'.
    by apply: s1; rewrite -ei'.
  have zz : z' = z by move: Ez'; rewrite -ei' Ez => -[].
  have [i' ii] : exists i', i = i'.+1 by exists i.-1; rewrite prednK // -ei'.
  have [uR _] := wS i' z (etrans (congr1 _ (etrans (esym ii) (esym ei'))) Ez).
  rewrite zz noiseless_element //; last exact: obs_regular.
  by move=> [_]; rewrite unitmxE det_mx11 mxE unitr0.
split=> [//|_]; split=> //.
- rewrite /= op_dec // d1 d2.
  have := prod_cat tria_spec (element_factored tria Key get_init_params get_dynamics_params get_observation_params inputs)
    i (j - i).-1 (k - j).-1.
  have -> : (i + (j - i).-1).+1 = j by move/ssrnat.ltP: (ij); rewrite -plusE -minusE; lia.
  have -> : ((j - i).-1 + (k - j).-1).+1 = (k - i).-1 by move/ssrnat.ltP: (ij); move/ssrnat.ltP: (jk); rewrite -plusE -!minusE; lia.
  by [].
- by rewrite /= e1 e2; apply: operator_ell_fin => //; exact: good_ent.
- by move=> ki; move: jk; rewrite ki ltnS leqNgt ij.
Qed.
Lemma parallel_inv inputs key : inputs <> nil -> well_posed inputs ->
  exists states, ScanModel.filter split eflt inputs true key = ScanModel.Ok states /\
    List.length states = List.length inputs /\
    forall t s, List.nth_error states t = Some s -> inv inputs 0 t.+1 s.
Proof.
move=> ne wp; have [w0 wS] := wp.
have ev i : Nat.Even i -> ~~ odd i by move=> [k ->]; rewrite multE mul2n odd_double.
have nb i : ~ noiseless_even inputs i i.+1.
  by move=> [e [z [_ _ ie ei _]]]; move: ei; rewrite ltnS ltnNge ie.
apply: (filter_interval_pairs split eflt (inv inputs)) => //.
- move=> i j k x y ij jk kl /ev ei jE; apply: inv_combine => //.
  + exact/ssrnat.ltP.
  + exact/ssrnat.ltP.
  + by case: jE => [/ev|]; [left|right].
- move=> x k Ex; split=> [/nb//|_].
  rewrite /= (key_free0 tria get_init_params get_dynamics_params get_observation_params); split=> //.
    by rewrite /= /element Ex.
  move=> _; split=> // _.
  by have := w0 _ Ex; rewrite /kalman_init_prepare /good; case: (get_init_params x) => m0 L0 /= u; split=> //; exact: trig1.
- move=> t x k Ex; split=> [/nb//|_].
  rewrite [in dec _]/= (key_free tria get_init_params get_dynamics_params get_observation_params); split=> //.
    by rewrite subSnn /= /element Ex.
  by move=> _; split=> // _; exists x, k.
Qed.
End Scalar.

(** For every scalar model with an uncertain initial state, observation noise and transitions that do not
    destroy the state completely: means and covariances are exact in both modes, the sequential evidence is
    exact, and the parallel evidence at time t is exact unless some even time 0 < e < t was reached without
    noise, when it is NaN. *)
Theorem C61_scalar_exact tria ny Inp Key (split : Key -> nat -> list Key)
    (get_init_params : Inp -> 'cV[R]_1 * 'M[R]_1) (get_dynamics_params : Inp -> 'M[R]_1 * 'cV[R]_1 * 'M[R]_1)
    (get_observation_params : Inp -> 'M[R]_(ny, 1) * 'cV[R]_ny * 'M[R]_ny * 'cV[option R]_ny)
    (inputs : list Inp) key :
  tria_ok tria -> DriverSpec.split_ok split -> inputs <> nil ->
  let flt := kalman_ext_filter tria (Key := Key) get_init_params get_dynamics_params get_observation_params in
  let step := step_of get_dynamics_params get_observation_params in
  (forall x, List.nth_error inputs 0 = Some x -> (get_init_params x).2 \in unitmx) ->
  (forall t x, List.nth_error inputs (S t) = Some x ->
     obsR (step x) \in unitmx /\ (lQ (step x) \in unitmx \/ lF (step x) \in unitmx)) ->
  exists states,
    ScanModel.filter split flt inputs true key = ScanModel.Ok states /\ List.length states = List.length inputs /\
    forall t s b, List.nth_error states t = Some s ->
      List.nth_error (exact get_init_params get_dynamics_params get_observation_params inputs) t = Some b ->
      ((exists e x, [/\ ~~ odd e, (0 < e)%N, (e < t)%N & List.nth_error inputs e = Some x /\ lQ (step x) = 0]) ->
         s.2 = NaN) /\
      (~ (exists e x, [/\ ~~ odd e, (0 < e)%N, (e < t)%N & List.nth_error inputs e = Some x /\ lQ (step x) = 0]) ->
         [/\ kf_mean s.1 = bmean b, cov (kf_chol_cov s.1) = bcov b & s.2 = Fin (bell b)]).
Proof.
move=> ok sok ne flt step w0 wS.
have wp : well_posed get_init_params get_dynamics_params get_observation_params inputs by split.
have [st [E [L H]]] := @parallel_inv tria ok ny Inp Key get_init_params _ _ split sok inputs key ne wp.
have regs t x : List.nth_error inputs t.+1 = Some x -> regular get_dynamics_params get_observation_params x.
  by move=> /wS [uR _]; exact: obs_regular.
have [ss [Es [Ls Hs]]] := filter_seq_exact ok get_init_params sok key ne regs.
have [ss' [Es' [_ Gs]]] := @sequential_elements tria ok ny Inp Key get_init_params _ _ split sok inputs key ne wp.
have {Es'} Ess : ss = ss' by move: Es'; rewrite [ScanModel.filter _ _ _ _ _]Es => -[].
rewrite -{}Ess {ss'} in Gs.
exists st; split=> //; split=> // t p b Et Eb; have [nan fin] := H _ _ Et; split.
  by move=> [e [x [a1 a2 a3 a4]]]; apply: nan; exists e, x; split.
move=> h; have {fin} [|d1 e1 _ _] := fin.
  by move=> [e [x [a1 a2 _ a3 a4]]]; apply: h; exists e, x; split.
have [s Eu] : exists s, List.nth_error ss t = Some s by apply: nth_ex; rewrite Ls -L; exact: nth_lt Et.
have [h1 h2 h3 _ h7] := Hs _ _ _ Eu Eb; have [d2 _] := Gs _ _ Eu.
have {h7} h7 : kf_log_normalizing_constant s = bell b.
  apply: h7 => [x _|]; first exact: trig1.
  move=> u b' lt Eb'; have [s' Eu'] : exists s', List.nth_error ss u = Some s'.
    by apply: nth_ex; have := nth_lt Eu; lia.
  have [_ <- _ _ _] := Hs _ _ _ Eu' Eb'; rewrite gram_unit; by have [_ []] := Gs _ _ Eu'.
have : dec (kf_elem p.1) = dec (kf_elem s) by rewrite d1 d2 subn0.
rewrite e1 /dec => -[_ eb eU _ _ el]; split.
- by rewrite /kf_mean eb.
- by rewrite /kf_chol_cov eU.
- by congr Fin; rewrite el.
Qed.
Print Assumptions C61_scalar_exact.

(** the random walk of C61_refuted meets the hypotheses; its time 2 is reached without noise *)
Example C61_scalar_case : exists states,
  ScanModel.filter tt_split (kalman_ext_filter some_tria (Key := unit) pause_init pause_dyn pause_obs) pause_inputs true None
    = ScanModel.Ok states /\
  (forall s, List.nth_error states 2 = Some s -> exists v, s.2 = Fin v) /\
  (forall s, List.nth_error states 3 = Some s -> s.2 = NaN).
Proof.
have [||//|||st [E [L H]]] := @C61_scalar_exact some_tria 1 nat unit tt_split pause_init pause_dyn pause_obs pause_inputs None.
- exact: some_tria_ok.
- exact: tt_split_ok.
- by move=> x _; rewrite unitmx1.
- move=> t x _; rewrite /step_of /= /obsR /= obs_block1 unitmx1; split=> //; by right; rewrite unitmx1.
have ex t : (t < 4)%coq_nat -> exists b, List.nth_error (exact pause_init pause_dyn pause_obs pause_inputs) t = Some b.
  by move=> lt; apply: nth_ex; exact: lt.
exists st; split=> //; split=> s Es.
  have [|b Eb] := ex 2%N; first by lia.
  have [_ fin] := H _ _ _ Es Eb; exists (bell b); have [|_ _ //] := fin.
  by move=> [[|[|e]] [x []]].
have [|b Eb] := ex 3%N; first by lia.
have [nan _] := H _ _ _ Es Eb; apply: nan; exists 2%N, 2%N; split=> //; split=> //.
by rewrite /step_of /= /cov mul0mx.
Qed.
