(** Runs of the Kalman filter with singular process noise at odd times: the even/odd scan never needs the
    factor of such an element on the left. *)
From Coq Require Import Reals Lra Lia List.
From mathcomp Require Import all_ssreflect all_algebra.
From Verif Require Import RStruct MxBase ZmodTac KalmanModel GaussSpec KalmanSpec MvnProofs MvnProofs2
  KalmanProofs BayesProofs OpAlgebra FilterOp ScanStep KalmanRuns ScanEven DriverEven Trajectory.
From Verif Require ScanModel ScanProofs DriverSpec DriverProofs.
Set Implicit Arguments.
Unset Strict Implicit.
Unset Printing Implicit Defensive.
Local Open Scope ring_scope.
Import GRing.Theory Num.Theory Order.Theory.

(** ** products of covariance-form elements *)
Section Prod.
Variable tria : forall m l : nat, 'M[R]_(m, l) -> 'M[R]_m.
Hypothesis tria_spec : tria_ok tria.
Variable n : nat.
Definition factored (c : ce n) := exists U Z : 'M[R]_n, cC c = cov U /\ cJ c = cov Z.
Lemma dec_factored (e : FilterScanElement n) : factored (dec e).
Proof. by exists (fU e), (fZ e). Qed.
Lemma factored_dec (c : ce n) : factored c -> exists e : FilterScanElement n, dec e = c.
Proof.
case: c => A b C h J l [U [Z [/= -> ->]]]; exists (MkFSE A b U h Z l); by [].
Qed.
Lemma factored_op (c d : ce n) : factored c -> factored d -> factored (ce_op c d).
Proof.
move=> /factored_dec [e <-] /factored_dec [f <-].
have [[_ _ a3 _ a5] _] := opE tria_spec e f.
by exists (fU (filtering_operator tria e f)), (fZ (filtering_operator tria e f)); rewrite -a3 -a5.
Qed.
Lemma factored_unit (c d : ce n) : factored c -> factored d -> 1%:M + cC c *m cJ d \in unitmx.
Proof. by move=> [U [_ [-> _]]] [_ [Z [_ ->]]]; exact: unit_CJ. Qed.
Lemma factored_symC (c : ce n) : factored c -> (cC c)^T = cC c.
Proof. by move=> [U [_ [-> _]]]; exact: covT. Qed.
Lemma factored_symJ (c : ce n) : factored c -> (cJ c)^T = cJ c.
Proof. by move=> [_ [Z [_ ->]]]; exact: covT. Qed.
Lemma factored_assoc (c d e : ce n) : factored c -> factored d -> factored e ->
  ce_op (ce_op c d) e = ce_op c (ce_op d e).
Proof.
move=> fc fd fe; apply: ce_assoc; try exact: factored_symC; try exact: factored_symJ; apply: factored_unit => //;
  exact: factored_op.
Qed.
Variable elem : nat -> ce n.
Hypothesis elem_factored : forall t, factored (elem t).
(** elem i * ... * elem (i + m) *)
Fixpoint prod (i m : nat) : ce n := if m is m'.+1 then ce_op (prod i m') (elem (i + m)) else elem i.
Lemma prod_factored i m : factored (prod i m).
Proof. by elim: m => [|m IH] //=; apply: factored_op. Qed.
Lemma prod_cat i a b : ce_op (prod i a) (prod (i + a).+1 b) = prod i (a + b).+1.
Proof.
elim: b => [|b IH] /=; first by rewrite addn0 addnS.
rewrite -factored_assoc //; try exact: prod_factored.
by rewrite IH; rewrite /= [in RHS]addnS /=; congr (ce_op (ce_op _ (elem _)) (elem _)); rewrite -!plusE; lia.
Qed.
End Prod.

Section Runs.
Variable tria : forall m l : nat, 'M[R]_(m, l) -> 'M[R]_m.
Hypothesis tria_spec : tria_ok tria.
Variables nx ny : nat.
Variables Inp Key : Type.
Variable get_init_params : Inp -> 'cV[R]_nx * 'M[R]_nx.
Variable get_dynamics_params : Inp -> 'M[R]_nx * 'cV[R]_nx * 'M[R]_nx.
Variable get_observation_params : Inp -> 'M[R]_(ny, nx) * 'cV[R]_ny * 'M[R]_ny * 'cV[option R]_ny.
Variable split : Key -> nat -> list Key.
Hypothesis split_spec : DriverSpec.split_ok split.
Let flt := kalman_build_filter tria (Key := Key) get_init_params get_dynamics_params get_observation_params.
Let step := step_of get_dynamics_params get_observation_params.
Let reg := regular get_dynamics_params get_observation_params.

(** the initial factor is triangular and invertible, the observation noise invertible on the observed
    coordinates; the process noise is invertible at even times, and at odd times it is invertible or the
    transition matrix is *)
Definition odd_noiseless (inputs : list Inp) :=
  (forall x, List.nth_error inputs 0 = Some x ->
     is_trig_mx (get_init_params x).2 /\ (get_init_params x).2 \in unitmx) /\
  (forall t x, List.nth_error inputs (S t) = Some x ->
     obsR (step x) \in unitmx /\ (lQ (step x) \in unitmx \/ lF (step x) \in unitmx /\ ~~ odd t)).

Lemma obs_regular x : obsR (step x) \in unitmx -> reg x.
Proof.
rewrite /reg /regular /step /step_of.
case: (get_dynamics_params x) => [[F c] Lq]; case: (get_observation_params x) => [[[H d] X] y] /=.
rewrite /obsH /obsR /= => uR.
apply: pd_unit; apply: pdDr; first by apply: psd_conj; exact: gram_psd.
by move: uR; rewrite /cov obs_block_gram => uR; exact: gram_pd.
Qed.
(** a good element followed by a single step is good as soon as the predicted covariance is positive definite *)
Lemma op_step_good (e : FilterScanElement nx) x (k : option Key) : good e -> obsR (step x) \in unitmx ->
  lQ (step x) \in unitmx \/ lF (step x) \in unitmx ->
  good (filtering_operator tria e (kf_elem (kalman_filter_prepare tria get_dynamics_params get_observation_params x k))).
Proof.
move=> [te ue] uR uQF; set p := kf_elem _.
pose e0 : FilterScanElement nx := MkFSE 0 (fb e) (fU e) 0 0 0.
pose b0 : belief nx := Belief (fb e) (cov (fU e)) 0.
have tr : tracks e0 b0 by split.
have [[_ _ _ _ t5] t6 _] := @step_tracks tria tria_spec nx ny Inp Key _ _ _ _ x _ (obs_regular uR) tr
  (erefl (filtering_operator tria e0 p)).
have [[_ _ q3 _ _] _] := opE tria_spec e0 p.
have [[_ _ r3 _ _] _] := opE tria_spec e p.
split.
  case: (e) => A1 b1 U1 h1 Z1 l1; case: (p) => A2 b2 U2 h2 Z2 l2 /=.
  by apply: tria_trig => //; exact: leq_addl.
have h : cov (fU (filtering_operator tria e p)) = cov (fU (filtering_operator tria e0 p)).
  by move: q3 r3; move: (filtering_operator _ _ _) (filtering_operator _ _ _) => f g /= -> ->.
rewrite -gram_unit -/(cov _) h t5; apply: pd_unit; rewrite /kf_step /=; apply: cond_pd.
  rewrite /pred_cov /=; case: uQF => u.
    apply: pdDr; first by apply: psd_conj; exact: gram_psd.
    move: u; rewrite /step /step_of; case: (get_dynamics_params x) => [[F c] Lq].
    by case: (get_observation_params x) => [[[H d] X] y] /=; rewrite /cov => u; exact: gram_pd.
  rewrite addrC; apply: pdDr.
    rewrite /step /step_of; case: (get_dynamics_params x) => [[F c] Lq].
    by case: (get_observation_params x) => [[[H d] X] y] /=; exact: gram_psd.
  have -> : lF (step x) *m cov (fU e) *m (lF (step x))^T = cov (lF (step x) *m fU e).
    by rewrite /cov trmx_mul !mulmxA.
  by apply: gram_pd; rewrite gram_unit unitmx_mul u ue.
move: uR; rewrite /step /step_of; case: (get_dynamics_params x) => [[F c] Lq].
case: (get_observation_params x) => [[[H d] X] y]; rewrite /obsR /= /cov obs_block_gram => uR.
exact: gram_pd.
Qed.

(** the covariance form of the t-th element *)
Definition element (inputs : list Inp) (t : nat) : ce nx :=
  match List.nth_error inputs t, t with
  | Some x, 0%N => dec (kf_elem (ScanModel.init_prepare flt x None))
  | Some x, _ => dec (kf_elem (ScanModel.filter_prepare flt x None))
  | None, _ => MkCE 0 0 0 0 0 0
  end.
Lemma element_factored inputs t : factored (element inputs t).
Proof.
rewrite /element; case: (List.nth_error _ _) => [x|]; last by exists 0, 0; rewrite /cov mul0mx.
case: t => [|t]; exact: dec_factored.
Qed.
Lemma key_free x (k : option Key) : dec (kf_elem (ScanModel.filter_prepare flt x k)) = dec (kf_elem (ScanModel.filter_prepare flt x None)).
Proof. by rewrite /= /kalman_filter_prepare; case: (get_dynamics_params x) => [[? ?] ?]; case: (get_observation_params x) => [[[? ?] ?] ?]. Qed.
Lemma key_free0 x (k : option Key) : dec (kf_elem (ScanModel.init_prepare flt x k)) = dec (kf_elem (ScanModel.init_prepare flt x None)).
Proof. by rewrite /= /kalman_init_prepare; case: (get_init_params x) => [? ?]. Qed.
Lemma filter_elements inputs (parallel : bool) key : inputs <> nil -> odd_noiseless inputs ->
  exists states, ScanModel.filter split flt inputs parallel key = ScanModel.Ok states /\
    List.length states = List.length inputs /\
    forall t s, List.nth_error states t = Some s ->
      dec (kf_elem s) = prod (element inputs) 0 t /\ good (kf_elem s).
Proof.
move=> ne [nd0 ndS].
pose P i j (s : KalmanFilterState nx (Inp := Inp)) := [/\ dec (kf_elem s) = prod (element inputs) i (j - i).-1,
  ~~ odd i -> good (kf_elem s) &
  j = i.+1 -> odd i -> exists x k, List.nth_error inputs i = Some x /\ s = ScanModel.filter_prepare flt x k].
have ev i : Nat.Even i -> ~~ odd i by move=> [k ->]; rewrite multE mul2n odd_double.
have [| | |st [E [L H]]] := filter_interval_even split flt P inputs parallel key split_spec ne.
- move=> i j k x y ij jk kl /ev ei jE [d1 g1 _] [d2 g2 o2].
  have {g1} g1 := g1 ei; split; last by move=> e; lia.
    rewrite /= op_dec // d1 d2.
    have := prod_cat tria_spec (element_factored inputs) i (j - i).-1 (k - j).-1.
    have -> : (i + (j - i).-1).+1 = j by move: (ij); rewrite -plusE -minusE; lia.
    have -> : ((j - i).-1 + (k - j).-1).+1 = (k - i).-1 by move: (ij) (jk); rewrite -plusE -!minusE; lia.
    by [].
  move=> _; case: (boolP (odd j)) => [oj|ej]; last exact: (op_good tria_spec _ (g2 ej)).
  have kj : k = j.+1 by case: jE => // /ev; rewrite oj.
  have [x' [k' [Ex ->]]] := o2 kj oj.
  have [j' ej] : exists j', j = j'.+1 by exists j.-1; lia.
  rewrite ej in Ex; have [uR uQF] := ndS _ _ Ex.
  by apply: op_step_good => //; case: uQF => [|[]]; [left|right].
- move=> x k Ex; split=> //; first by rewrite key_free0 /= /element Ex.
  by move=> _; have := nd0 _ Ex; rewrite /= /kalman_init_prepare /good; case: (get_init_params x).
- move=> t x k Ex; split.
  + by rewrite key_free subSnn /= /element Ex.
  + move=> et; have [uR [uQ|[_ ot]]] := ndS _ _ Ex; first exact: prepare_good.
    by move: et ot => /=; rewrite negbK => ->.
  + by move=> _ _; exists x, k.
exists st; split=> //; split=> // t s /H [d g _]; split; last exact: g.
by rewrite d subn0.
Qed.
Lemma filter_exact_odd inputs (parallel : bool) key : inputs <> nil -> odd_noiseless inputs ->
  exists states, ScanModel.filter split flt inputs parallel key = ScanModel.Ok states /\
    List.length states = List.length inputs /\
    forall t s b, List.nth_error states t = Some s ->
      List.nth_error (exact get_init_params get_dynamics_params get_observation_params inputs) t = Some b ->
      [/\ kf_mean s = bmean b, cov (kf_chol_cov s) = bcov b, is_trig_mx (kf_chol_cov s) &
          kf_log_normalizing_constant s = bell b].
Proof.
move=> ne nd; have [nd0 ndS] := nd.
have regs t x : List.nth_error inputs t.+1 = Some x -> reg x by move=> /ndS [uR _]; exact: obs_regular.
have tr0 x : List.nth_error inputs 0 = Some x -> is_trig_mx (get_init_params x).2 by move=> /nd0 [].
have [ss [Es [Ls Hs]]] := filter_seq_exact tria_spec get_init_params split_spec key ne regs.
have [ss' [Es' [_ Gs]]] := filter_elements false key ne nd.
have {Es'} Ess : ss = ss' by move: Es'; rewrite [ScanModel.filter _ _ _ _ _]Es => -[].
rewrite -{}Ess {ss'} in Gs.
have main t s b : List.nth_error ss t = Some s ->
    List.nth_error (exact get_init_params get_dynamics_params get_observation_params inputs) t = Some b ->
    [/\ kf_mean s = bmean b, cov (kf_chol_cov s) = bcov b & kf_log_normalizing_constant s = bell b].
  move=> Et Eb; have [h1 h2 h3 _ h7] := Hs _ _ _ Et Eb; split=> //.
  apply: h7 => // u b' lt Eb'; have [s' Eu] : exists s', List.nth_error ss u = Some s'.
    by apply: nth_ex; have := nth_lt Et; lia.
  have [_ <- _ _ _] := Hs _ _ _ Eu Eb'; rewrite gram_unit; by have [_ []] := Gs _ _ Eu.
have [ps [Ep [Lp Gp]]] := filter_elements parallel key ne nd.
exists ps; split=> //; split=> // t p b Et Eb.
have [s Eu] : exists s, List.nth_error ss t = Some s by apply: nth_ex; rewrite Ls -Lp; exact: nth_lt Et.
have [h1 h2 h3] := main _ _ _ Eu Eb; have [d1 [g1 _]] := Gp _ _ Et; have [d2 _] := Gs _ _ Eu.
have : dec (kf_elem p) = dec (kf_elem s) by rewrite d1 d2.
rewrite /dec => -[_ eb eU _ _ el]; split=> //.
- by rewrite /kf_mean eb.
- by rewrite /kf_chol_cov eU.
- by rewrite /kf_log_normalizing_constant el.
Qed.
End Runs.
