(** C81, continued: a linearisation point with missing entries is never used silently. *)
From Coq Require Import Reals Lra Lia List.
From mathcomp Require Import all_ssreflect all_algebra.
From Verif Require Import RStruct MxBase KalmanModel LinalgModel LinearizeModel LinKalmanModel GaussSpec KalmanSpec
  LinalgSpec LinearizeSpec LinSpec LinearizeProofs PropLinKalman.
From Verif Require ScanModel DriverSpec DriverProofs.
Set Implicit Arguments.
Unset Strict Implicit.
Unset Printing Implicit Defensive.
Local Open Scope ring_scope.
Import GRing.Theory Num.Theory Order.Theory.

Section Main.
Variable tria : forall m k : nat, 'M[R]_(m, k) -> 'M[R]_m.
Variable svd : forall n, 'M[R]_n -> 'M[R]_n * 'rV[R]_n.
Variable grad : forall n, ('cV[option R]_n -> option R) -> 'cV[option R]_n -> 'cV[option R]_n.
Variable jacobian : forall n p, ('cV[option R]_n -> 'cV[option R]_p) -> 'cV[option R]_n -> 'M[option R]_(p, n).
Variables (rtol : R) (ignore : bool) (nx : nat).
Variables Inp Key : Type.
Variable split : Key -> nat -> list Key.
Variables (dummy_mean : 'cV[R]_nx) (dummy_mx : 'M[R]_nx).
Notation St := (@LinState nx Inp).
Variable get_init_log_density : Inp -> log_pot nx * 'cV[option R]_nx.
Variable get_dynamics_log_density : St -> Inp -> log_cond nx nx * 'cV[option R]_nx * 'cV[option R]_nx.
Variable get_observation_func : St -> Inp -> ObservationOutput nx.
Notation flt := (taylor_build_filter (Key := Key) dummy_mean dummy_mx tria jacobian svd grad rtol ignore
  get_init_log_density get_dynamics_log_density get_observation_func).

(** some entry of the two points is missing; some entry is not *)
Definition some_missing (prev curr : 'cV[option R]_nx) : Prop := exists i, prev i ord0 = None \/ curr i ord0 = None.
Definition some_present (prev curr : 'cV[option R]_nx) : Prop := exists i, prev i ord0 <> None \/ curr i ord0 <> None.
(** the points the dynamics callback returns for input [x], whatever the state *)
Definition points_for (s : St) (x : Inp) (Q : 'cV[option R]_nx -> 'cV[option R]_nx -> Prop) : Prop :=
  let: (_, prev, curr) := get_dynamics_log_density s x in Q prev curr.
Definition partly_missing prev curr := some_missing prev curr /\ some_present prev curr.

Hypothesis split_spec : DriverSpec.split_ok split.

Lemma nan_free_none m n (A : 'M[option R]_(m, n)) i j : A i j = None -> nan_free A = None.
Proof. by move=> E; rewrite /nan_free ifF //; apply/negbTE/forallPn; exists i; apply/forallPn; exists j; rewrite E. Qed.
Lemma missing_params (f : log_cond nx nx) prev curr : some_missing prev curr ->
  real_params (linearize_log_density tria svd grad jacobian f prev curr rtol ignore) = None.
Proof.
move=> [i mi]; rewrite /linearize_log_density /linearize_log_density_given_chol_cov /=.
case: (nan_free _) => // F1; set c := nan_add _ _.
suff E : c i ord0 = None by rewrite (nan_free_none E).
rewrite /c !mxE; case: mi => [E|->] //; rewrite ifT; first by case: (curr i ord0).
by apply/existsP; exists i; rewrite E orbT.
Qed.
Lemma missing_dynamics s x : points_for s x partly_missing ->
  taylor_dynamics tria jacobian svd grad rtol ignore get_dynamics_log_density s x = None.
Proof.
rewrite /points_for /taylor_dynamics; case: (get_dynamics_log_density s x) => [[f prev] curr] [mi [j pj]].
have := missing_params f mi; case: (linearize_log_density _ _ _ _ _ _ _ _ _) => [[F c] L] E.
have -> : [forall i, isnan (curr i ord0)] && [forall i, isnan (prev i ord0)] = false.
  by apply/negP => /andP [/forallP a /forallP b]; move: (a j) (b j); case: pj; case: (prev j ord0); case: (curr j ord0).
exact: E.
Qed.

(** filtering: points that are missing in part make the state at that step and every later one NaN *)
Theorem C81_partial_points_sequential inputs key (t : nat) x :
  List.nth_error inputs (S t) = Some x -> (forall s, points_for s x partly_missing) ->
  exists states, ScanModel.filter split (flt false) inputs false key = ScanModel.Ok states /\
    List.length states = List.length inputs /\
    forall u s, List.nth_error states u = Some s -> (t < u)%N -> s = None.
Proof.
move=> Ex H; have ne : inputs <> nil by case: inputs Ex.
have [st [E [L [_ RS]]]] := DriverProofs.filter_sequential _ split_spec (flt false) inputs key ne.
exists st; split=> //; split=> // u; elim: u => [|u IH] s Es //; rewrite ltnS leq_eqVlt => /orP tu.
have lu : (S u < List.length inputs)%coq_nat by rewrite -L; apply/List.nth_error_Some; rewrite Es.
case Ei: (List.nth_error inputs (S u)) => [xu|]; last by move/List.nth_error_None: Ei; lia.
case Ep: (List.nth_error st u) => [p|]; last by move/List.nth_error_None: Ep; lia.
have := RS u xu p Ei Ep; rewrite Es => -[->].
case: tu => [/eqP e|/(IH _ Ep) -> //].
move: Ei; rewrite -e Ex => -[<-]; case: p {Ep} => [p|//].
by rewrite /= /taylor_combine /lin_pass_prepare [lin_inputs _]/= missing_dynamics.
Qed.
Theorem C81_partial_points_associative (parallel : bool) inputs key (t : nat) x :
  List.nth_error inputs (S t) = Some x -> (forall s, points_for s x partly_missing) ->
  exists states, ScanModel.filter split (flt true) inputs parallel key = ScanModel.Ok states /\
    List.length states = List.length inputs /\
    forall u s, List.nth_error states u = Some s -> (t < u)%N -> s = None.
Proof.
move=> Ex H; have ne : inputs <> nil by case: inputs Ex.
have [| | |st [E [L K]]] := DriverProofs.filter_interval split (flt true)
  (fun a b s => (a <= t.+1)%N -> (t.+1 < b)%N -> s = None) inputs parallel key split_spec ne.
- move=> a b c y z /ssrnat.ltP ab /ssrnat.ltP bc _ hy hz le lt; have [tb|bt] := ltnP t.+1 b; first by rewrite hy.
  by rewrite hz //; case: y {hy}.
- by [].
- move=> u xu k Eu le1 le2; have e : u = t by apply/eqP; move: le1 le2; rewrite !ltnS eqn_leq => -> ->.
  move: Eu; rewrite e Ex => -[<-]; rewrite /= /taylor_assoc_prepare missing_dynamics //.
  by case: (process_observation _ _ _ _ _ _ _).
by exists st; split=> //; split=> // u s Es tu; apply: (K _ _ Es).
Qed.
End Main.
Print Assumptions C81_partial_points_sequential.
Print Assumptions C81_partial_points_associative.

(** a case: two states, the second entry of the current point missing at every third step *)
Example C81_partial_points_case (dyn : log_cond 2 2) (t : nat) (s : @LinState 2 nat) :
  points_for (fun s t => (dyn, map_mx Some (lin_mean s),
    if (t %% 3 == 2)%N then \col_i (if i == ord0 then Some (lin_mean s i ord0) else None) else map_mx Some (lin_mean s)))
  s (3 * t + 2)%N (@partly_missing 2).
Proof.
rewrite /points_for mulnC modnMDl /=; split.
  by exists ord_max; right; rewrite mxE.
by exists ord0; left; rewrite mxE.
Qed.
