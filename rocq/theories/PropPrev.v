(** C50, exact form for parallel runs: which state [mean_prev] belongs to.

    C50_parallel_even_partial and C50_parallel_refuted (PropLinKalman.v) show that in parallel mode
    [mean_prev] is the previous mean at even times and not at time 3.  Here the answer is given for every
    time: write t + 1 = 2^v (2 m + 1).  If m > 0, [mean_prev] of state t is the mean of state t - 2^v; if
    m = 0 (t + 1 is the power 2^v, v > 0), it is the mean of state 2^(v-1) - 1. *)
From Coq Require Import Reals Lra List.
From mathcomp Require Import all_ssreflect all_algebra.
From Verif Require Import RStruct MxBase KalmanModel LinKalmanModel LinearizeModel KalmanRuns PropLinKalman ScanEven.
From Verif Require ScanModel DriverSpec DriverProofs ScanProofs.
Set Implicit Arguments. Unset Strict Implicit. Unset Printing Implicit Defensive.

Lemma keeps_prev_parallel_exact nx Inp Key (split : Key -> nat -> list Key)
    (obj : ScanModel.Filter Inp Key (option (@LinState nx Inp))) inputs key states t s :
  DriverSpec.split_ok split -> keeps_prev obj ->
  ScanModel.filter split obj inputs true key = ScanModel.Ok states ->
  List.nth_error states t.+1 = Some (Some s) ->
  exists v m s0, [/\ t.+1 = ScanEven.time_of v m, (ScanEven.prev_of v m < t.+1)%coq_nat,
    List.nth_error states (ScanEven.prev_of v m) = Some (Some s0) & lin_mean_prev s = lin_mean s0].
Proof.
move=> ok kp; case: inputs => [//|x xs]; rewrite /ScanModel.filter.
case: (ScanModel.prepare_keys _ _ _) => [//|k0 ks] [<-] Es.
have := nth_lt Es; rewrite ScanProofs.assoc_scan_length => lt.
have [|v [m [p [e [E1 [E2 [E3 E4]]]]]]] := assoc_scan_prev (ScanModel.filter_combine obj) _ t.+1 _ lt.
  by apply: le_n_S; apply: PeanoNat.Nat.le_0_l.
move: Es; rewrite E4 => -[/kp [s0 [e0 h]]]; exists v, m, s0; split=> //.
by rewrite -e0.
Qed.

Theorem C50_parallel_exact tria svd grad jacobian rtol ignore nx ny Inp Key (split : Key -> nat -> list Key)
    dummy_mean dummy_mx ini (dyn : LinState nx -> Inp -> _) (obs : _ -> _ -> moments_fn nx ny * _ * _)
    linit ldyn lobs (associative : bool) (taylor : bool) inputs key states t s :
  DriverSpec.split_ok split ->
  let obj := if taylor
    then taylor_build_filter (Key := Key) dummy_mean dummy_mx tria jacobian svd grad rtol ignore linit ldyn lobs associative
    else moments_build_filter (Key := Key) dummy_mean dummy_mx tria jacobian ini dyn obs associative in
  ScanModel.filter split obj inputs true key = ScanModel.Ok states ->
  List.nth_error states t.+1 = Some (Some s) ->
  exists v m s0, [/\ t.+1 = ScanEven.time_of v m, (ScanEven.prev_of v m < t.+1)%coq_nat,
    List.nth_error states (ScanEven.prev_of v m) = Some (Some s0) & lin_mean_prev s = lin_mean s0].
Proof.
move=> ok obj; apply: keeps_prev_parallel_exact => //.
by rewrite /obj; case: taylor obj => _; [exact: taylor_keeps|exact: moments_keeps].
Qed.
Print Assumptions C50_parallel_exact.

(** non-vacuity: the random walk of C50_parallel_refuted runs, and its state 3 stores the mean of state 1:
    4 = 2^2 (2 * 0 + 1), so the time is 2^1 - 1 *)
Example C50_exact_time :
  ScanEven.time_of 2 0 = 3 /\ ScanEven.time_of 1 1 = 5 /\ ScanEven.time_of 0 3 = 6 /\
  ScanEven.prev_of 2 0 = 1 /\ ScanEven.prev_of 1 1 = 3 /\ ScanEven.prev_of 0 3 = 5.
Proof. by []. Qed.
