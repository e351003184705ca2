(** Whole runs of the linearised filters, from the form of their steps. *)
From Coq Require Import Reals Lra Lia List.
From mathcomp Require Import all_ssreflect all_algebra.
From Verif Require Import RStruct MxBase ZmodTac KalmanModel LinKalmanModel GaussSpec KalmanSpec LinSpec MvnProofs
  MvnProofs2 KalmanProofs BayesProofs OpAlgebra FilterOp ScanStep KalmanRuns.
From Verif Require ScanModel ScanProofs DriverSpec DriverProofs.
Set Implicit Arguments.
Unset Strict Implicit.
Unset Printing Implicit Defensive.
Local Open Scope ring_scope.
Import GRing.Theory Num.Theory Order.Theory.

Section Runs.
Variable tria : forall m l : nat, 'M[R]_(m, l) -> 'M[R]_m.
Hypothesis tria_spec : tria_ok tria.
Variable nx : nat.
Variables Inp Key : Type.
Variable split : Key -> nat -> list Key.
Hypothesis split_spec : DriverSpec.split_ok split.
Notation St := (@LinState nx Inp).
Variables (init_b : Inp -> belief nx) (step_s : Inp -> anystep nx).
Definition lin_exact (inputs : list Inp) : list (belief nx) :=
  match inputs with nil => nil | x :: rest => any_beliefs (init_b x) (List.map step_s rest) end.
Lemma any_beliefs_step b (ss : list (anystep nx)) t s p :
  List.nth_error ss t = Some s -> List.nth_error (any_beliefs b ss) t = Some p ->
  List.nth_error (any_beliefs b ss) (S t) = Some (any_kf_step p s).
Proof.
elim: t b ss => [|t IH] b [|a ss] //=; first by move=> [->] [->]; case: ss.
exact: IH.
Qed.
Lemma any_beliefs_length b (ss : list (anystep nx)) : List.length (any_beliefs b ss) = S (List.length ss).
Proof. by elim: ss b => //= s ss IH b; rewrite IH. Qed.
Lemma lin_exact_length inputs : List.length (lin_exact inputs) = List.length inputs.
Proof. by case: inputs => //= x xs; rewrite any_beliefs_length List.map_length. Qed.

(** agreement of a state with a belief *)
Definition follows (s : St) (b : belief nx) :=
  [/\ lin_mean s = bmean b, cov (lin_chol_cov s) = bcov b & lin_ell s = bell b].

(** ** sequential runs *)
Lemma lin_sequential (obj : ScanModel.Filter Inp Key (option St)) (P : St -> belief nx -> Prop) inputs key :
  inputs <> nil ->
  (forall x k, List.nth_error inputs 0 = Some x ->
     exists s, ScanModel.init_prepare obj x k = Some s /\ P s (init_b x)) ->
  (forall t x k s b, List.nth_error inputs t.+1 = Some x -> P s b ->
     exists s', ScanModel.filter_combine obj (Some s) (ScanModel.filter_prepare obj x k) = Some s' /\
       P s' (any_kf_step b (step_s x))) ->
  exists states, ScanModel.filter split obj inputs false key = ScanModel.Ok (List.map Some states) /\
    List.Forall2 P states (lin_exact inputs).
Proof.
move=> ne h0 hS; have [st [E [L [R0 RS]]]] := DriverProofs.filter_sequential _ split_spec obj inputs key ne.
have main t o b : List.nth_error st t = Some o -> List.nth_error (lin_exact inputs) t = Some b ->
    exists s, o = Some s /\ P s b.
  case: inputs ne h0 hS E L R0 RS => [//|x0 xs] _ h0 hS E L R0 RS.
  elim: t o b => [|t IH] o b.
    rewrite (R0 x0 erefl) => -[<-]; have -> : List.nth_error (lin_exact (x0 :: xs)) 0 = Some (init_b x0).
      by rewrite /=; case: (List.map _ _).
    by move=> [<-]; exact: h0.
  move=> Es Eb; have lt := nth_lt Es; rewrite L /= in lt.
  have [x Ex] : exists x, List.nth_error xs t = Some x by apply: nth_ex; lia.
  have [s0 Es0] : exists s0, List.nth_error st t = Some s0 by apply: nth_ex; rewrite L /=; lia.
  have [b0 Eb0] : exists b0, List.nth_error (lin_exact (x0 :: xs)) t = Some b0.
    by apply: nth_ex; rewrite lin_exact_length /=; lia.
  have [s [e Ps]] := IH _ _ Es0 Eb0; subst s0.
  move: Eb; rewrite /lin_exact (any_beliefs_step (s := step_s x) _ Eb0); last by rewrite List.nth_error_map Ex.
  by move=> [<-]; move: Es; rewrite (RS t x _ Ex Es0) => -[<-]; exact: (hS t).
have {main} F : List.Forall2 (fun o b => exists s, o = Some s /\ P s b) st (lin_exact inputs).
  have ll : List.length st = List.length (lin_exact inputs) by rewrite lin_exact_length L.
  elim: st (lin_exact inputs) ll main {E L R0 RS} => [|o st IH] [|b bs] //= [ll] main; constructor.
    exact: (main 0%nat).
  by apply: IH => // t; exact: (main t.+1).
have [ss [e F2]] : exists ss, st = List.map Some ss /\ List.Forall2 P ss (lin_exact inputs).
  elim: F => [|o b os bs [s [-> Ps]] _ [ss [-> F2]]]; first by exists nil.
  by exists (s :: ss); split=> //; constructor.
by exists ss; split=> //; rewrite E e.
Qed.

(** ** associative filters *)
Section Assoc.
Variables (obj : ScanModel.Filter Inp Key (option St)) (inputs : list Inp).
Hypothesis ne : inputs <> nil.
Hypothesis obj_init : forall x k, List.nth_error inputs 0 = Some x -> exists m0 L0 mp,
  [/\ ScanModel.init_prepare obj x k = Some (MkLin (MkFSE 0 m0 L0 0 0 0) x mp),
      init_b x = Belief m0 (cov L0) 0, is_trig_mx L0 & L0 \in unitmx].
Hypothesis obj_prep : forall t x k, List.nth_error inputs t.+1 = Some x ->
  exists ny F c Lq (H : 'M[R]_(ny, nx)) d X y mp,
  [/\ ScanModel.filter_prepare obj x k = Some (MkLin (associative_params_single tria F c Lq H d X y) x mp),
      Lq \in unitmx, obs_block y (cov X) \in unitmx &
      forall b, kf_step b (LgStep F c (cov Lq) H d (cov X) y) = any_kf_step b (step_s x)].
Hypothesis obj_combine : ScanModel.filter_combine obj = lin_assoc_combine tria.

Definition lin_good (o : option St) := exists s, o = Some s /\ good (lin_elem s).
Definition lin_same (o o' : option St) := exists s s', [/\ o = Some s, o' = Some s', dec (lin_elem s) = dec (lin_elem s') &
  lin_inputs s = lin_inputs s'].
Lemma lin_assoc_upto : DriverSpec.assoc_upto (ScanModel.filter_combine obj) lin_good lin_same.
Proof.
rewrite obj_combine; split.
- by move=> _ [s [-> g]]; exists s, s.
- by move=> _ _ _ _ [s [s' [-> -> e i]]]; exists s', s.
- by move=> _ _ _ _ _ _ [s [s' [-> -> e i]]] [s1 [s2 [[<-] -> e' i']]]; exists s, s2; split=> //; rewrite ?e ?i.
- move=> _ _ [s [-> g]] [s' [-> g']]; eexists; split; first by reflexivity.
  exact: op_good.
- move=> _ _ _ _ [x [-> gx]] [x' [-> gx']] [y [-> gy]] [y' [-> gy']].
  move=> [_ [_ [[<-] [<-] ex ix]]] [_ [_ [[<-] [<-] ey iy]]].
  do 2 eexists; split; try reflexivity; last by [].
  by rewrite /= !op_dec // ex ey.
- move=> _ _ _ [x [-> gx]] [y [-> gy]] [z [-> gz]].
  do 2 eexists; split; try reflexivity.
  exact: op_assoc.
Qed.
Definition lin_tracks (s : St) (b : belief nx) :=
  [/\ follows s b, good (lin_elem s), fA (lin_elem s) = 0, feta (lin_elem s) = 0 & fZ (lin_elem s) = 0].
Lemma noise_regular ny (Lq : 'M[R]_nx) (H : 'M[R]_(ny, nx)) (X : 'M[R]_ny) (y : 'cV[option R]_ny) :
  obs_block y (cov X) \in unitmx ->
  innovation_cov (cov Lq) (obs_rows y H) (obs_block y (cov X)) \in unitmx.
Proof.
move=> uR; apply: pd_unit; apply: pdDr; first by apply: psd_conj; exact: gram_psd.
by move: uR; rewrite /cov obs_block_gram => uR; exact: gram_pd.
Qed.
Lemma assoc_init x k : List.nth_error inputs 0 = Some x ->
  exists s, ScanModel.init_prepare obj x k = Some s /\ lin_tracks s (init_b x).
Proof.
move=> E; have [m0 [L0 [mp [-> -> t u]]]] := obj_init k E; eexists; split; first by reflexivity.
by split.
Qed.
Lemma assoc_step t x k s b : List.nth_error inputs t.+1 = Some x -> lin_tracks s b ->
  exists s', ScanModel.filter_combine obj (Some s) (ScanModel.filter_prepare obj x k) = Some s' /\
    lin_tracks s' (any_kf_step b (step_s x)).
Proof.
move=> E [[em ec el] g eA eh eZ].
have [ny [F [c [Lq [H [d [X [y [mp [-> uQ uR st]]]]]]]]]] := obj_prep k E.
rewrite obj_combine /=; eexists; split; first by reflexivity.
have reg := noise_regular Lq H uR.
have tr : tracks (lin_elem s) b by split.
have [[r1 r2 r3 r4 r5] q2 q3] := @step_tracks tria tria_spec nx ny unit Key (fun=> (F, c, Lq)) (fun=> (H, d, X, y))
  (lin_elem s) b tt _ reg tr erefl.
rewrite -st; split=> //; last exact: (op_good tria_spec _ (params_good tria_spec F c d reg uQ uR)).
split=> //; have [tg ug] := g; apply: q3 => //.
by rewrite -ec gram_unit.
Qed.
Lemma lin_assoc_exact (parallel : bool) key :
  exists states, ScanModel.filter split obj inputs parallel key = ScanModel.Ok (List.map Some states) /\
    List.Forall2 follows states (lin_exact inputs).
Proof.
have [ss [Es Fs]] := lin_sequential key ne assoc_init assoc_step.
have D0 x (k : option Key) : List.nth_error inputs 0 = Some x -> lin_good (ScanModel.init_prepare obj x k).
  by move=> /(assoc_init k) [s [-> [_ g _ _ _]]]; exists s.
have DS t x (k : option Key) : List.nth_error inputs t.+1 = Some x -> lin_good (ScanModel.filter_prepare obj x k).
  move=> E; have [ny [F [c [Lq [H [d [X [y [mp [-> uQ uR st]]]]]]]]]] := obj_prep k E.
  eexists; split; first by reflexivity.
  exact: (params_good tria_spec F c d (noise_regular Lq H uR) uQ uR).
case: parallel; last first.
  exists ss; split=> //; elim: Fs => [|s b ss' bs [f _ _ _ _] _ IH]; first by constructor.
  by constructor.
have [ps [ss' [Ep [Ess F]]]] := DriverProofs.filter_parallel _ split_spec obj _ _ inputs key ne lin_assoc_upto D0 DS.
move: Ess; rewrite Es => -[e]; rewrite -{}e {ss'} in F.
rewrite Ep => {Ep Es}; elim: Fs ps F => [|s b ss' bs [[f1 f2 f3] _ _ _ _] _ IH] ps F.
  by inversion F; exists nil.
inversion F as [|o o' ps' l' h F' e1 e2]; subst.
have [ps2 [[e] F2]] := IH _ F'.
have [s1 [s2 [-> [<-] ee _]]] := h; exists (s1 :: ps2); split; first by rewrite /= e.
constructor=> //; move: ee => [eA eb eU eeta eZ el].
by split; rewrite /lin_mean /lin_chol_cov /lin_ell ?eb ?eU ?el.
Qed.
End Assoc.

(** ** filters that linearise in filter_combine *)
Section Sequential.
Variables (obj : ScanModel.Filter Inp Key (option St)) (inputs : list Inp).
Hypothesis ne : inputs <> nil.
Hypothesis obj_init : forall x k, List.nth_error inputs 0 = Some x ->
  exists s, ScanModel.init_prepare obj x k = Some s /\ follows s (init_b x).
Hypothesis obj_step : forall t x k s, List.nth_error inputs t.+1 = Some x ->
  exists ny F c Lq (H : 'M[R]_(ny, nx)) d X y,
  [/\ forall mp Lp m L ell, predict tria (lin_mean s) (lin_chol_cov s) F c Lq = (mp, Lp) ->
        update tria mp Lp H d X y 0 = (m, L, ell) ->
        exists s', ScanModel.filter_combine obj (Some s) (ScanModel.filter_prepare obj x k) = Some s' /\
          [/\ lin_mean s' = m, lin_chol_cov s' = L & lin_ell s' = lin_ell s + ell],
      obs_block y (cov X) \in unitmx &
      forall b, kf_step b (LgStep F c (cov Lq) H d (cov X) y) = any_kf_step b (step_s x)].
Lemma lin_seq_exact key :
  exists states, ScanModel.filter split obj inputs false key = ScanModel.Ok (List.map Some states) /\
    List.Forall2 follows states (lin_exact inputs).
Proof.
apply: lin_sequential => // t x k s b E [em ec el].
have [ny [F [c [Lq [H [d [X [y [cmb uR st]]]]]]]]] := obj_step k s E.
case Ep: (predict tria (lin_mean s) (lin_chol_cov s) F c Lq) => [mp Lp].
case Eu: (update tria mp Lp H d X y 0) => [[mu Lu] lu].
have [s' [-> [e1 e2 e3]]] := cmb _ _ _ _ _ Ep Eu; exists s'; split=> //.
have [p1 p2 p3] := predict_spec tria_spec Ep.
have [u1 u2 u3 u4] := update_nan tria_spec (noise_regular Lp H uR) Eu.
rewrite -st /follows e1 e2 e3 /kf_step /= /pred_mean /pred_cov /obsH /obsd /obsR /= -em -ec -p1 -p3 u1 u3 u4 el.
by split=> //; rewrite addr0 addrC.
Qed.
End Sequential.
End Runs.
