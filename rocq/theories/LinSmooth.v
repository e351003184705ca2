(** Whole runs of the linearised smoothers, from the form of their prepared elements. *)
From Coq Require Import Reals Lra Lia List.
From mathcomp Require Import all_ssreflect all_algebra.
From Verif Require Import RStruct MxBase ZmodTac KalmanModel LinKalmanModel GaussSpec KalmanSpec LinSpec MvnProofs
  MvnProofs2 KalmanProofs BayesProofs OpAlgebra FilterOp ScanStep KalmanRuns SmootherProofs.
From Verif Require ScanModel ScanProofs DriverSpec DriverProofs.
Set Implicit Arguments.
Unset Strict Implicit.
Unset Printing Implicit Defensive.
Local Open Scope ring_scope.
Import GRing.Theory Num.Theory Order.Theory.

(** transitions that do not depend on the filter state *)
Lemma map_combine_snd A B C (g : B -> C) (l : list A) (m : list B) : List.length l = S (List.length m) ->
  List.map (fun p => g p.2) (List.combine l m) = List.map g m.
Proof. by elim: m l => [|b m IH] [|a l] //= [e]; rewrite IH. Qed.

Section Smooth.
Variable tria : forall m l : nat, 'M[R]_(m, l) -> 'M[R]_m.
Hypothesis tria_spec : tria_ok tria.
Variable nx : nat.
Variables Inp Key : Type.
Variable split : Key -> nat -> list Key.
Hypothesis split_spec : DriverSpec.split_ok split.
Variables (dummy_like : Inp -> Inp) (dummy_mx : 'M[R]_nx) (store_gain store_cov : bool).
Notation St := (@LinState nx Inp).
Notation SSt := (@KalmanSmootherState nx Inp).
Variable inputs_of : option St -> Inp.
Variable obj : ScanModel.Smoother Inp Key (option St) (option SSt).
Hypothesis obj_combine : ScanModel.smoother_combine obj = lin_smoother_combine tria (nx := nx) (Inp := Inp).
Hypothesis obj_convert : ScanModel.convert_filter_to_smoother_state obj
  = lin_convert (Key := Key) dummy_mx dummy_like store_gain store_cov.
(** the linearised transition out of a filter state *)
Variable dyn : St -> Inp -> 'M[R]_nx * 'cV[R]_nx * 'M[R]_nx.
Definition moments_of (s : St) := (lin_mean s, cov (lin_chol_cov s)).
(** a state against smoothed moments *)
Definition agrees (s : SSt) (p : 'cV[R]_nx * 'M[R]_nx) := ks_mean s = p.1 /\ cov (ks_chol_cov s) = p.2.
(** the stored gain and conditional factor of one step *)
Definition stores (f : St) x (s : SSt) := let: (F, c, Q) := dyn f x in let P := cov (lin_chol_cov f) in
  (store_gain -> ks_gain s = Some (rts_gain P F Q)) /\
  (store_cov -> exists V, [/\ ks_chol_cov_given_next s = Some V, is_trig_mx V & cov V = rts_cond_cov P F Q]).
Definition smoothed_by (fs : list St) (trans : list Inp) states :=
  List.Forall2 agrees states (rts_pass (List.map moments_of fs) (List.map (fun p => dyn p.1 p.2) (List.combine fs trans))) /\
  forall t f x s, List.nth_error fs t = Some f -> List.nth_error trans t = Some x -> List.nth_error states t = Some s ->
    stores f x s.
Lemma nth_map_some A (l : list A) t a : List.nth_error (List.map Some l) t = Some a ->
  exists b, a = Some b /\ List.nth_error l t = Some b.
Proof. by rewrite List.nth_error_map; case: (List.nth_error l t) => //= b [<-]; exists b. Qed.
Lemma smooth_lists (fs : list St) (trans : list Inp) ss :
  List.length ss = S (List.length trans) -> List.length fs = S (List.length trans) ->
  (forall f, List.nth_error fs (List.length trans) = Some f -> exists s,
      List.nth_error ss (List.length trans) = Some (Some s) /\ agrees s (moments_of f)) ->
  (forall t f x s', List.nth_error fs t = Some f -> List.nth_error trans t = Some x ->
      List.nth_error ss t.+1 = Some (Some s') -> exists s, [/\ List.nth_error ss t = Some (Some s), stores f x s &
        let: (F, c, Q) := dyn f x in let P := cov (lin_chol_cov f) in
        agrees s (rts_mean (lin_mean f) P F c Q (ks_mean s'), rts_cov P F Q (cov (ks_chol_cov s')))]) ->
  exists states, ss = List.map Some states /\ smoothed_by fs trans states.
Proof.
elim: trans fs ss => [|x xs IH] [|f fs'] [|s ss] //=.
  case: fs' ss => [|? ?] [|? ?] //= _ _ /(_ _ erefl) [s1 [[->] a]] _; exists (s1 :: nil); split=> //.
  by split; [constructor=> //; constructor|case].
move=> [L2] [L1] hT hS.
have [//|t|st [e [Fa St]]] := IH fs' ss L2 L1; first exact: (hS t.+1).
case: st e Fa St => [|s' st] e Fa St; first by rewrite e in L2.
have [|s0 [[E0] st0 ag]] := hS 0%nat f x s' erefl erefl; first by rewrite e.
exists (s0 :: s' :: st); split; first by rewrite E0 e.
split; last by case=> [|t] g y r //=; [move=> [<-] [<-] [<-]|exact: St].
have -> : List.map (fun p => dyn p.1 p.2) (List.combine (f :: fs') (x :: xs))
  = dyn f x :: List.map (fun p => dyn p.1 p.2) (List.combine fs' xs) by [].
move: Fa ag; case: (dyn f x) => [[F c] Q] /=.
case: (rts_pass _ _) => [|[m' P'] later] Fa; inversion Fa as [|? ? ? ? aa Fr]; subst; have [/= a1 a2] := aa.
by rewrite a1 a2 => ag; do 2 constructor=> //.
Qed.
Variables (fs : list St) (trans : list Inp).
Hypothesis ne : trans <> nil.
Hypothesis len : List.length fs = S (List.length trans).
Hypothesis obj_prep : forall t f x k, List.nth_error fs t = Some f -> List.nth_error trans t = Some x ->
  exists Lq, let: (F, c, Q) := dyn f x in
    [/\ ScanModel.smoother_prepare obj (Some f) x k = lin_smoother_elem tria store_gain store_cov f (Some (F, c, Lq)) x,
        cov Lq = Q & rts_pred (cov (lin_chol_cov f)) F Q \in unitmx].

Definition some_same (o o' : option SSt) := exists s s', [/\ o = Some s, o' = Some s' & ks_equiv s s'].
Lemma lin_smooth_assoc : DriverSpec.assoc_upto (ScanModel.smoother_combine obj) (fun o => exists s, o = Some s) some_same.
Proof.
have [a1 a2 a3 a4 a5 a6] := ks_assoc tria_spec Key (fun _ : Inp => (0, 0, 0)) dummy_like dummy_mx store_gain store_cov.
rewrite obj_combine; split.
- by move=> _ [s ->]; exists s, s; split=> //; exact: a1.
- by move=> _ _ _ _ [s [s' [-> -> e]]]; exists s', s; split=> //; exact: a2.
- move=> _ _ _ _ _ _ [s [s' [-> -> e]]] [s1 [s2 [[<-] -> e']]]; exists s, s2; split=> //.
  exact: (a3 _ _ _ I I I e e').
- by move=> _ _ [s ->] [s' ->]; eexists; reflexivity.
- move=> _ _ _ _ _ _ _ _ [x [x' [-> -> ex]]] [y [y' [-> -> ey]]]; do 2 eexists; split; try reflexivity.
  exact: (a5 _ _ _ _ I I I I ex ey).
- move=> _ _ _ [x ->] [y ->] [z ->]; do 2 eexists; split; try reflexivity.
  exact: (a6 _ _ _ I I I).
Qed.
Lemma lin_smooth_seq key : exists states,
  ScanModel.smoother split dummy_like inputs_of obj (List.map Some fs) (Some trans) false key = ScanModel.Ok (List.map Some states) /\
  smoothed_by fs trans states.
Proof.
have [x0 Ex0] : exists x, List.nth_error trans 0 = Some x by apply: nth_ex; case: (trans) ne => //= *; lia.
have len' : List.length (List.map Some fs) = S (List.length trans) by rewrite List.map_length.
have [ss [-> [_ [L2 [BT BS]]]]] := DriverProofs.smoother_sequential _ split_spec dummy_like inputs_of obj (List.map Some fs)
  trans x0 trans key ne len' Ex0 (or_introl erefl).
have [states [-> H]] : exists states, ss = List.map Some states /\ smoothed_by fs trans states; last by exists states.
move: (DriverSpec.child_key _ _ _) BT BS => keys BT BS.
apply: smooth_lists => //.
  move=> f Ef.
  have Ef' : List.nth_error (List.map Some fs) (List.length trans) = Some (Some f) by rewrite List.nth_error_map Ef.
  by rewrite (BT _ Ef') obj_convert /=; eexists; split; first by reflexivity.
move=> t f x s' Ef Ex Es'.
have Ef' : List.nth_error (List.map Some fs) t = Some (Some f) by rewrite List.nth_error_map Ef.
rewrite (BS _ _ _ _ Ef' Ex Es') obj_combine.
have [Lq] := obj_prep (keys t.+1) Ef Ex; rewrite /stores; case: (dyn f x) => [[F c] Q] [-> <- u] /=.
eexists; split; first by reflexivity.
  have [p1 p2 p3 p4] := smoother_paramsE (c := c) (m := lin_mean f) tria_spec u erefl.
  by move: p1 p3 p4 => /= p1 p3 p4; split=> [->|->]; [rewrite p1|eexists; split; [reflexivity| |]].
rewrite /agrees /ks_mean /ks_chol_cov /=; case: (ks_elem s') => ms Em Ds.
have [q1 q2 q3 q4] := smoother_pair (c := c) (m := lin_mean f) tria_spec u (ms := ms) (E0 := Em) (Ls := Ds) erefl.
by split.
Qed.
Lemma lin_smooth_exact (parallel : bool) key : exists states,
  ScanModel.smoother split dummy_like inputs_of obj (List.map Some fs) (Some trans) parallel key = ScanModel.Ok (List.map Some states) /\
  smoothed_by fs trans states.
Proof.
have [ss [Es [Fs Ss]]] := lin_smooth_seq key.
case: parallel; last by exists ss.
have len' : List.length (List.map Some fs) = S (List.length trans) by rewrite List.map_length.
have [|t f x k Ef Ex|ps [ss' [Ep [Ess F]]]] := DriverProofs.smoother_parallel _ split_spec dummy_like inputs_of obj _ _ (List.map Some fs) trans key ne len'
  lin_smooth_assoc.
- by move=> f x k /nth_map_some [b [-> _]]; rewrite obj_convert; eexists.
- have [b [-> Eb]] := nth_map_some Ef.
  by have [Lq] := obj_prep k Eb Ex; case: (dyn b x) => [[F c] Q] [-> _ _]; eexists.
move: Ess; rewrite Es => -[e]; rewrite -{}e {ss'} in F; rewrite Ep.
have [ps' [-> F2]] : exists ps', ps = List.map Some ps' /\ List.Forall2 (@ks_equiv nx Inp) ps' ss.
  elim: ss ps F {Es Fs Ss Ep} => [|s ss IH] ps F; inversion F as [|a ? l ? h Fr]; subst; first by exists nil.
  have [ps' [-> F2]] := IH _ Fr; have [s1 [s2 [-> [<-] e]]] := h.
  by exists (s1 :: ps'); split=> //; constructor.
exists ps'; split=> //; split.
  elim: F2 (rts_pass _ _) Fs => [|s s' l l' [e _ _ _] _ IH] r Fs; inversion Fs as [|? ? ? ? aa Fr]; subst; first by constructor.
  have [a1 a2] := aa; constructor; last exact: IH.
  by move: e a1 a2; rewrite /agrees /sdec /ks_mean /ks_chol_cov => -[-> _ ->].
move=> t f x s Ef Ex Et.
have [s' Et'] : exists s', List.nth_error ss t = Some s' by apply: nth_ex; have := nth_lt Et; rewrite (Forall2_length' F2).
have [_ e2 e3 _] := Forall2_nth F2 Et Et'.
by have := Ss _ _ _ _ Ef Ex Et'; rewrite /stores e2 e3.
Qed.
End Smooth.
