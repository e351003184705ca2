(** Whole runs of the Kalman filter. *)
From Coq Require Import Reals Lra Lia List.
From mathcomp Require Import all_ssreflect all_algebra.
From Verif Require Import RStruct MxBase ZmodTac KalmanModel GaussSpec KalmanSpec MvnProofs MvnProofs2
  KalmanProofs BayesProofs OpAlgebra FilterOp ScanStep.
From Verif Require ScanModel ScanProofs DriverSpec DriverProofs.
Set Implicit Arguments.
Unset Strict Implicit.
Unset Printing Implicit Defensive.
Local Open Scope ring_scope.
Import GRing.Theory Num.Theory Order.Theory.

Lemma nth_ex A (l : list A) t : (t < List.length l)%coq_nat -> exists x, List.nth_error l t = Some x.
Proof.
move=> h; case E: (List.nth_error l t) => [x|]; first by exists x.
by move/List.nth_error_None: E => E; lia.
Qed.
Lemma nth_lt A (l : list A) t x : List.nth_error l t = Some x -> (t < List.length l)%coq_nat.
Proof. by move=> E; apply/List.nth_error_Some; rewrite E. Qed.

Lemma Forall2_nth A B (r : A -> B -> Prop) l m t x y : List.Forall2 r l m ->
  List.nth_error l t = Some x -> List.nth_error m t = Some y -> r x y.
Proof.
by move=> F; elim: F t => [|a b l' m' h _ IH] [|t] //=; [move=> [<-] [<-]|exact: IH].
Qed.

Lemma Forall2_length' A B (r : A -> B -> Prop) l m : List.Forall2 r l m -> List.length l = List.length m.
Proof. by elim=> //= *; congr S. Qed.

Section Runs.
Variable tria : forall m l : nat, 'M[R]_(m, l) -> 'M[R]_m.
Hypothesis tria_spec : tria_ok tria.
Variables nx ny : nat.
Variables Inp Key : Type.
Variable get_init_params : Inp -> 'cV[R]_nx * 'M[R]_nx.
Variable get_dynamics_params : Inp -> 'M[R]_nx * 'cV[R]_nx * 'M[R]_nx.
Variable get_observation_params : Inp -> 'M[R]_(ny, nx) * 'cV[R]_ny * 'M[R]_ny * 'cV[option R]_ny.
Variable split : Key -> nat -> list Key.
Hypothesis split_spec : DriverSpec.split_ok split.

(** the parameters a step refers to, with covariances instead of factors *)
Definition init_belief x : belief nx :=
  let: (m0, L0) := get_init_params x in Belief m0 (cov L0) 0.
Definition step_of x : lgstep nx ny :=
  let: (F, c, Lq) := get_dynamics_params x in
  let: (H, d, X, y) := get_observation_params x in
  LgStep F c (cov Lq) H d (cov X) y.
Definition exact inputs : list (belief nx) :=
  match inputs with nil => nil | x :: rest => kf_beliefs (init_belief x) (List.map step_of rest) end.

(** the noise covariance of a step is invertible on the observed coordinates *)
Definition regular x := innovation_cov (lQ (step_of x)) (obsH (step_of x)) (obsR (step_of x)) \in unitmx.
Let flt := kalman_build_filter tria (Key := Key) get_init_params get_dynamics_params get_observation_params.

Lemma kf_beliefs_step b (ss : list (lgstep nx ny)) t s p :
  List.nth_error ss t = Some s -> List.nth_error (kf_beliefs b ss) t = Some p ->
  List.nth_error (kf_beliefs b ss) (S t) = Some (kf_step p s).
Proof.
elim: t b ss => [|t IH] b [|a ss] //=; first by move=> [->] [->]; case: ss.
exact: IH.
Qed.
Lemma kf_beliefs_length b (ss : list (lgstep nx ny)) : List.length (kf_beliefs b ss) = S (List.length ss).
Proof. by elim: ss b => //= s ss IH b; rewrite IH. Qed.

(** invariant of a filtering state against a belief *)
Definition tracks (e : FilterScanElement nx) (b : belief nx) :=
  [/\ fA e = 0, feta e = 0, fZ e = 0, fb e = bmean b & cov (fU e) = bcov b].

Lemma step_tracks e b x e' : regular x -> tracks e b ->
  filtering_operator tria e (kf_elem (kalman_filter_prepare tria get_dynamics_params get_observation_params x (None : option Key))) = e' ->
  [/\ tracks e' (kf_step b (step_of x)), is_trig_mx (fU e') &
      is_trig_mx (fU e) -> bcov b \in unitmx -> fell e = bell b -> fell e' = bell (kf_step b (step_of x))].
Proof.
rewrite /regular /step_of /kalman_filter_prepare.
case: (get_dynamics_params x) => [[F c] Lq]; case: (get_observation_params x) => [[[H d] X] y] /=.
rewrite /obsH /obsR /= => reg; case: e => A m L h Z l [/= -> -> -> mb Lb].
case Ep: (predict tria m L F c Lq) => [mp Lp].
case Eu: (update tria mp Lp H d X y l) => [[mu Lu] lu] Ee.
have [a1 a2 a3 a4 [a5 a6 a7]] := scan_step tria_spec reg Ep Eu Ee.
have [p1 p2 p3] := predict_spec tria_spec Ep.
have reg' : innovation_cov (cov Lp) (obs_rows y H) (obs_block y (cov X)) \in unitmx.
  by rewrite p3; exact: innov_predict.
have [u1 u2 u3 u4] := update_nan tria_spec reg' Eu.
have e1 : pred_mean b (LgStep F c (cov Lq) H d (cov X) y) = mp by rewrite /pred_mean /= -mb p1.
have e2 : pred_cov b (LgStep F c (cov Lq) H d (cov X) y) = cov Lp by rewrite /pred_cov /= -Lb p3.
split=> //.
  by split=> //; rewrite ?a4 ?a6 /kf_step /= ?e1 ?e2 ?u1 ?u3.
by move=> tL uP lb; rewrite a7 //; [rewrite u4 /kf_step /= e1 e2 lb addrC|rewrite -gram_unit -/(cov _) Lb].
Qed.

Definition inv_before (bs : list (belief nx)) t :=
  forall u b, (u < t)%coq_nat -> List.nth_error bs u = Some b -> bcov b \in unitmx.
(** sequential mode *)
Lemma filter_seq_exact inputs key :
  inputs <> nil -> (forall t x, List.nth_error inputs (S t) = Some x -> regular x) ->
  exists states, ScanModel.filter split flt inputs false key = ScanModel.Ok states /\
    List.length states = List.length inputs /\
    forall t s b, List.nth_error states t = Some s -> List.nth_error (exact inputs) t = Some b ->
      [/\ kf_mean s = bmean b, cov (kf_chol_cov s) = bcov b,
          (0 < t)%N -> is_trig_mx (kf_chol_cov s),
          tracks (kf_elem s) b &
          (forall x, List.nth_error inputs 0 = Some x -> is_trig_mx (get_init_params x).2) ->
          inv_before (exact inputs) t -> kf_log_normalizing_constant s = bell b].
Proof.
move=> ne reg; have [st [E [L [R0 RS]]]] := DriverProofs.filter_sequential _ split_spec flt inputs key ne.
exists st; split=> //; split=> //.
case: inputs ne reg E L R0 RS => [//|x0 xs] _ reg E L R0 RS.
elim=> [|t IH] s b.
  rewrite (R0 x0 erefl) => -[<-].
  have -> : List.nth_error (exact (x0 :: xs)) 0 = Some (init_belief x0) by rewrite /=; case: (List.map _ _).
  move=> [<-]; rewrite /kf_mean /kf_chol_cov /kf_log_normalizing_constant /= /kalman_init_prepare /init_belief.
  by case: (get_init_params x0) => m0 L0 /=.
move=> Es Eb; have lt := nth_lt Es; rewrite L /= in lt.
have [x Ex] : exists x, List.nth_error xs t = Some x by apply: nth_ex; lia.
have [s0 Es0] : exists s0, List.nth_error st t = Some s0 by apply: nth_ex; rewrite L /=; lia.
have [b0 Eb0] : exists b0, List.nth_error (exact (x0 :: xs)) t = Some b0.
  by apply: nth_ex; rewrite /= kf_beliefs_length List.map_length; lia.
have [i1 i2 i3 i4 i5] := IH _ _ Es0 Eb0.
move: Eb; rewrite /exact (kf_beliefs_step (s := step_of x) _ Eb0); last by rewrite List.nth_error_map Ex.
move=> [<-]; move: Es; rewrite (RS t x s0 Ex Es0) => -[<-].
have [q1 q2 q3] := step_tracks (reg _ _ Ex) i4 erefl.
have [r1 r2 r3 r4 r5] := q1.
split=> //.
move=> trig inv; apply: q3.
- case: (posnP t) => [t0|]; last exact: i3.
  move: Es0; rewrite t0 (R0 x0 erefl) => -[<-]; have := trig x0 erefl.
  by rewrite /= /kalman_init_prepare; case: (get_init_params x0).
- by apply: (inv t) => //; lia.
- by apply: i5 => // u b' lt' Eb'; apply: (inv u) => //; lia.
Qed.

(** non-degenerate model: invertible triangular initial factor, invertible transition noise, invertible
    observation noise on the observed coordinates *)
Definition nondegenerate (inputs : list Inp) :=
  (forall x, List.nth_error inputs 0 = Some x ->
     is_trig_mx (get_init_params x).2 /\ (get_init_params x).2 \in unitmx) /\
  (forall t x, List.nth_error inputs (S t) = Some x ->
     lQ (step_of x) \in unitmx /\ obsR (step_of x) \in unitmx).
Lemma nondegenerate_regular x : lQ (step_of x) \in unitmx -> obsR (step_of x) \in unitmx -> regular x.
Proof.
rewrite /regular /step_of.
case: (get_dynamics_params x) => [[F c] Lq]; case: (get_observation_params x) => [[[H d] X] y] /=.
rewrite /obsH /obsR /= => uQ uR.
apply: pd_unit; apply: pdDr; first by apply: psd_conj; exact: gram_psd.
by move: uR; rewrite /cov obs_block_gram => uR; exact: gram_pd.
Qed.
Lemma prepare_good x k : lQ (step_of x) \in unitmx -> obsR (step_of x) \in unitmx ->
  good (kf_elem (kalman_filter_prepare tria get_dynamics_params get_observation_params x (k : option Key))).
Proof.
move=> uQ uR; have := nondegenerate_regular uQ uR.
move: uQ uR; rewrite /regular /step_of /kalman_filter_prepare.
case: (get_dynamics_params x) => [[F c] Lq]; case: (get_observation_params x) => [[[H d] X] y] /=.
rewrite /obsH /obsR /= gram_unit => uQ uR reg; exact: params_good.
Qed.
Lemma kalman_assoc : DriverSpec.assoc_upto (ScanModel.filter_combine flt)
  (fun s => good (kf_elem s)) (fun s s' => dec (kf_elem s) = dec (kf_elem s') /\ kf_inputs s = kf_inputs s').
Proof.
split.
- by [].
- by move=> x y _ _ [-> ->].
- by move=> x y z _ _ _ [-> ->].
- by move=> x y _ gy; exact: op_good.
- move=> x x' y y' gx gx' gy gy' [ex ix] [ey iy]; split=> //=.
  by rewrite !op_dec // ex ey.
- by move=> x y z gx gy gz; split=> //=; exact: op_assoc.
Qed.
Lemma filter_exact inputs (parallel : bool) key :
  inputs <> nil -> nondegenerate inputs ->
  exists states, ScanModel.filter split flt inputs parallel key = ScanModel.Ok states /\
    List.length states = List.length inputs /\
    forall t s b, List.nth_error states t = Some s -> List.nth_error (exact inputs) t = Some b ->
      [/\ kf_mean s = bmean b, cov (kf_chol_cov s) = bcov b, good (kf_elem s),
          kf_log_normalizing_constant s = bell b &
          [/\ fA (kf_elem s) = 0, feta (kf_elem s) = 0 & fZ (kf_elem s) = 0]].
Proof.
move=> ne [nd0 ndS].
have reg t x : List.nth_error inputs t.+1 = Some x -> regular x.
  by move=> /ndS [uQ uR]; exact: nondegenerate_regular.
have D0 x (k : option Key) : List.nth_error inputs 0 = Some x -> good (kf_elem (ScanModel.init_prepare flt x k)).
  by move=> /nd0; rewrite /= /kalman_init_prepare /good; case: (get_init_params x).
have DS t x (k : option Key) : List.nth_error inputs t.+1 = Some x -> good (kf_elem (ScanModel.filter_prepare flt x k)).
  by move=> /ndS [uQ uR]; exact: prepare_good.
have tr0 x : List.nth_error inputs 0 = Some x -> is_trig_mx (get_init_params x).2 by move=> /nd0 [].
have [ss [Es [Ls Hs]]] := filter_seq_exact key ne reg.
have gs t s : List.nth_error ss t = Some s -> good (kf_elem s).
  have [st [E [L [R0 RS]]]] := DriverProofs.filter_sequential _ split_spec flt inputs key ne.
  move: E; rewrite Es => -[e]; rewrite -{}e {st} in L R0 RS.
  case: t => [|t] Et.
    have [x0 Ex0] : exists x, List.nth_error inputs 0 = Some x by apply: nth_ex; rewrite -Ls; exact: nth_lt Et.
    by move: Et; rewrite (R0 _ Ex0) => -[<-]; exact: D0.
  have lt := nth_lt Et.
  have [x Ex] : exists x, List.nth_error inputs t.+1 = Some x by apply: nth_ex; rewrite -Ls.
  have [s0 Es0] : exists s0, List.nth_error ss t = Some s0 by apply: nth_ex; lia.
  by move: Et; rewrite (RS _ _ _ Ex Es0) => -[<-]; exact: (op_good tria_spec _ (DS _ _ _ Ex)).
have len : List.length (exact inputs) = List.length inputs.
  by case: inputs {ne nd0 ndS reg D0 DS tr0 Es Ls Hs gs} => //= x xs; rewrite kf_beliefs_length List.map_length.
have main t s b : List.nth_error ss t = Some s -> List.nth_error (exact inputs) t = Some b ->
      [/\ kf_mean s = bmean b, cov (kf_chol_cov s) = bcov b, good (kf_elem s),
          kf_log_normalizing_constant s = bell b &
          [/\ fA (kf_elem s) = 0, feta (kf_elem s) = 0 & fZ (kf_elem s) = 0]].
  move=> Et Eb; have [h1 h2 h3 [h4 h5 h6 _ _] h7] := Hs _ _ _ Et Eb; split=> //; first exact: gs Et.
  apply: h7 => // u b' lt Eb'; have [s' Es'] : exists s', List.nth_error ss u = Some s'.
    by apply: nth_ex; have := nth_lt Et; lia.
  have [_ <- _ _ _] := Hs _ _ _ Es' Eb'; rewrite gram_unit; by have [] := gs _ _ Es'.
case: parallel; last by exists ss.
have [ps [ss' [Ep [Ess F]]]] := DriverProofs.filter_parallel _ split_spec flt _ _ inputs key ne kalman_assoc D0 DS.
move: Ess; rewrite Es => -[e]; rewrite -{}e {ss'} in F.
have [ps' [Ep' [Lp Gp]]] := DriverProofs.filter_interval _ flt (fun _ _ s => good (kf_elem s)) inputs true key split_spec ne
  (fun i j k x y _ _ _ _ gy => op_good tria_spec (kf_elem x) gy) D0 DS.
move: Ep'; rewrite Ep => -[e]; rewrite -{}e {ps'} in Lp Gp.
exists ps; split=> //; split=> // t s b Et Eb.
have [s' Et'] : exists s', List.nth_error ss t = Some s'.
  by apply: nth_ex; rewrite Ls -len; exact: nth_lt Eb.
have [[eA eb eU eeta eZ el] _] := Forall2_nth F Et Et'.
have [h1 h2 h3 h4 [h5 h6 h7]] := main _ _ _ Et' Eb.
split; [by rewrite /kf_mean eb|by rewrite /kf_chol_cov eU| exact: Gp Et|by rewrite /kf_log_normalizing_constant el|].
by rewrite eA eeta; split=> //; apply: gram_eq0; rewrite -/(cov _) eZ h7 /cov trmx0 mulmx0.
Qed.
End Runs.
