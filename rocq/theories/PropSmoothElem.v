(** Property C17, the remaining field of the scan element: every element returned by a smoothing pass is
    unconditional, i.e. its [E] (the dependence on a state after the last one) vanishes. *)
From Coq Require Import Reals Lia List.
From mathcomp Require Import all_ssreflect all_algebra.
From Verif Require Import RStruct MxBase KalmanModel KalmanSpec MvnProofs KalmanRuns SmootherProofs.
From Verif Require ScanModel DriverSpec DriverProofs.
Set Implicit Arguments.
Unset Strict Implicit.
Unset Printing Implicit Defensive.
Local Open Scope ring_scope.
Import GRing.Theory.

Theorem C17_elements_unconditional tria (nx : nat) (Inp Key : Type)
    (get_dynamics_params : Inp -> 'M[R]_nx * 'cV[R]_nx * 'M[R]_nx)
    (split : Key -> nat -> list Key) (dummy_like : Inp -> Inp)
    (inputs_of : @KalmanFilterState nx Inp -> Inp) (dummy_mx : 'M[R]_nx) (store_gain store_cov : bool)
    (fs : list (@KalmanFilterState nx Inp)) (trans : list Inp) (parallel : bool) (key : option Key) :
  DriverSpec.split_ok split -> trans <> nil -> List.length fs = S (List.length trans) ->
  let sm := kalman_build_smoother tria (Key := Key) get_dynamics_params dummy_like dummy_mx store_gain store_cov in
  exists states,
    ScanModel.smoother split dummy_like inputs_of sm fs (Some trans) parallel key = ScanModel.Ok states /\
    List.length states = S (List.length trans) /\
    forall t s, List.nth_error states t = Some s -> sE (ks_elem s) = 0.
Proof.
move=> sok ne len sm.
pose P (i j : nat) (s : @KalmanSmootherState nx Inp) := j = S (List.length trans) -> sE (ks_elem s) = 0.
have Pc i j k x y : (i < j)%coq_nat -> (j < k)%coq_nat -> (k <= S (List.length trans))%coq_nat ->
    P i j x -> P j k y -> P i k (ScanModel.smoother_combine sm x y).
  move=> _ _ _ _ Hy /Hy e; rewrite /= /smoothing_operator /=.
  by case: (ks_elem y) e => g' E' D' /= ->; case: (ks_elem x) => *; rewrite /= mulmx0.
have Pl f x k : List.nth_error fs (List.length trans) = Some f ->
    P (List.length trans) (S (List.length trans)) (ScanModel.convert_filter_to_smoother_state sm f x k) by [].
have Pp t f x k : List.nth_error fs t = Some f -> List.nth_error trans t = Some x ->
    P t (S t) (ScanModel.smoother_prepare sm f x k).
  by move=> _ Ex [e]; have := nth_lt Ex; lia.
have [st [E [L H]]] := DriverProofs.smoother_interval _ dummy_like inputs_of sm P fs trans parallel key sok ne len Pc Pl Pp.
by exists st; split=> //; split=> // t s Et; exact: (H t s Et).
Qed.
Print Assumptions C17_elements_unconditional.
Example C17_elements_hypotheses_met : (cons 0%N nil) <> nil /\ List.length (cons 0%N (cons 1%N nil)) = S (List.length (cons 0%N nil)).
Proof. by []. Qed.
