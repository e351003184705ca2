(** C91-C92: independent models side by side; the same model in other coordinates and units. *)
From Coq Require Import Reals Lra Lia List.
From mathcomp Require Import all_ssreflect all_algebra.
From Verif Require Import RStruct MxBase ZmodTac Ext MvnExt KalmanModel GaussExt GaussSpec KalmanSpec MvnProofs MvnProofs2
  KalmanProofs BayesProofs OpAlgebra FilterOp ScanStep KalmanRuns LinearizeProofs2 LinearFilterSpec LinearFilter TriaExist
  Trajectory PropKalman PropSmoothing PropSingular PropOptimal IntertwineProofs ProductSpec ProductProofs.
From Verif Require ScanModel DriverSpec DriverProofs.
Set Implicit Arguments.
Unset Strict Implicit.
Unset Printing Implicit Defensive.
Local Open Scope ring_scope.
Import GRing.Theory Num.Theory Order.Theory.

(** the regularity condition from a belief of zero covariance *)
Definition sure n : belief n := Belief 0 0 0.
Lemma sure_psd n : psd (bcov (sure n)).
Proof. by split=> [|v]; rewrite /= ?trmx0 // /qf mulmx0 mul0mx mxE. Qed.
Lemma sure_pred n k (s : lgstep n k) : pred_cov (sure n) s = lQ s.
Proof. by rewrite /pred_cov /= mulmx0 mul0mx add0r. Qed.

(** ** runs of the recursion *)
Section Beliefs.
Variable Inp : Type.
Section Both.
Variables n1 n2 k1 k2 : nat.
Variables (f1 : Inp -> lgstep n1 k1) (f2 : Inp -> lgstep n2 k2) (f : Inp -> lgstep (n1 + n2) (k1 + k2)).
Hypothesis fE : forall x, f x = both_step (f1 x) (f2 x).
Lemma beliefs_both rest : forall b1 b2, psd (bcov b1) -> psd (bcov b2) ->
  (forall x, List.In x rest -> step_ok (f1 x) /\ step_ok (f2 x)) -> forall t c1 c2,
  List.nth_error (kf_beliefs b1 (List.map f1 rest)) t = Some c1 ->
  List.nth_error (kf_beliefs b2 (List.map f2 rest)) t = Some c2 ->
  List.nth_error (kf_beliefs (both b1 b2) (List.map f rest)) t = Some (both c1 c2).
Proof.
elim: rest => [|x rest IH] b1 b2 p1 p2 ok [|t] c1 c2 /=; try by case: t.
- by move=> [->] [->].
- by move=> [->] [->].
have [o1 o2] := ok x (or_introl erefl).
rewrite fE kf_step_both; try exact: pred_pd.
by apply: IH; try exact: kf_step_psd; move=> z hz; apply: ok; right.
Qed.
End Both.
Section Rewritten.
Variables (nx ny : nat) (T : 'M[R]_nx) (u : Inp -> 'cV[R]_ny) (f f' : Inp -> lgstep nx ny).
Hypothesis uT : T \in unitmx.
Hypothesis un : forall x i, u x i ord0 != 0.
Hypothesis fE : forall x, f' x = rewritten_step T (u x) (f x).
Lemma beliefs_rewritten rest : forall e b, psd (bcov b) -> (forall x, List.In x rest -> step_ok (f x)) -> forall t c,
  List.nth_error (kf_beliefs b (List.map f rest)) t = Some c ->
  List.nth_error (kf_beliefs (rewritten T e b) (List.map f' rest)) t
    = Some (rewritten T (e + \sum_(x <- take t rest) log_volume (u x) (f x)) c).
Proof.
elim: rest => [|x rest IH] e b p ok [|t] c /=; try by case: t.
- by move=> [->]; rewrite big_nil addr0.
- by move=> [->]; rewrite big_nil addr0.
have o := ok x (or_introl erefl).
rewrite fE kf_step_rewritten //; last exact: pred_pd.
move=> E; rewrite (IH _ _ _ _ t c E); last first.
- by move=> z hz; apply: ok; right.
- exact: kf_step_psd.
by rewrite big_cons addrA.
Qed.
End Rewritten.
End Beliefs.

(** ** C91 *)
Section C91.
Variables (n1 n2 k1 k2 : nat) (Inp Key : Type).
Variables (init1 : Inp -> 'cV[R]_n1 * 'M[R]_n1) (dyn1 : Inp -> 'M[R]_n1 * 'cV[R]_n1 * 'M[R]_n1)
  (obs1 : Inp -> 'M[R]_(k1, n1) * 'cV[R]_k1 * 'M[R]_k1 * 'cV[option R]_k1).
Variables (init2 : Inp -> 'cV[R]_n2 * 'M[R]_n2) (dyn2 : Inp -> 'M[R]_n2 * 'cV[R]_n2 * 'M[R]_n2)
  (obs2 : Inp -> 'M[R]_(k2, n2) * 'cV[R]_k2 * 'M[R]_k2 * 'cV[option R]_k2).
Variables (init : Inp -> 'cV[R]_(n1 + n2) * 'M[R]_(n1 + n2))
  (dyn : Inp -> 'M[R]_(n1 + n2) * 'cV[R]_(n1 + n2) * 'M[R]_(n1 + n2))
  (obs : Inp -> 'M[R]_(k1 + k2, n1 + n2) * 'cV[R]_(k1 + k2) * 'M[R]_(k1 + k2) * 'cV[option R]_(k1 + k2)).
(** the third model is the first two side by side; the factors themselves may be any with the right covariances *)
Definition side_by_side : Prop :=
  (forall x, init_belief init x = both (init_belief init1 x) (init_belief init2 x)) /\
  (forall x, step_of dyn obs x = both_step (step_of dyn1 obs1 x) (step_of dyn2 obs2 x)).
Hypothesis sbs : side_by_side.
Lemma regular_both x : regular dyn1 obs1 x -> regular dyn2 obs2 x -> regular dyn obs x.
Proof.
move=> r1 r2; have o1 := step_of_ok r1; have o2 := step_of_ok r2; apply: pd_unit; rewrite (sbs.2 x) -[lQ _]sure_pred.
have -> : sure (n1 + n2) = both (sure n1) (sure n2).
  by rewrite /sure /both /= col_mx0 /diag_block block_mx0 addr0.
by apply: innov_both; apply: pred_pd => //; exact: sure_psd.
Qed.
Lemma exact_both inputs t c1 c2 :
  (forall t x, List.nth_error inputs (S t) = Some x -> regular dyn1 obs1 x /\ regular dyn2 obs2 x) ->
  List.nth_error (exact init1 dyn1 obs1 inputs) t = Some c1 ->
  List.nth_error (exact init2 dyn2 obs2 inputs) t = Some c2 ->
  List.nth_error (exact init dyn obs inputs) t = Some (both c1 c2).
Proof.
case: inputs => [|x rest] reg; first by case: t.
rewrite /exact (sbs.1 x); apply: (beliefs_both sbs.2); try exact: init_psd.
move=> z hz; have [i Ei] := List.In_nth_error _ _ hz; have [r1 r2] := reg i z Ei.
by split; exact: step_of_ok.
Qed.
End C91.
Arguments side_by_side [n1 n2 k1 k2 Inp].

Lemma exact_length nx ny Inp (init : Inp -> 'cV[R]_nx * 'M[R]_nx) (dyn : Inp -> 'M[R]_nx * 'cV[R]_nx * 'M[R]_nx)
  (obs : Inp -> 'M[R]_(ny, nx) * 'cV[R]_ny * 'M[R]_ny * 'cV[option R]_ny) inputs :
  List.length (exact init dyn obs inputs) = List.length inputs.
Proof. by case: inputs => //= x xs; rewrite kf_beliefs_length List.map_length. Qed.
Lemma filter_nonempty nx ny Inp Key tria (split : Key -> nat -> list Key) (init : Inp -> 'cV[R]_nx * 'M[R]_nx)
  (dyn : Inp -> 'M[R]_nx * 'cV[R]_nx * 'M[R]_nx)
  (obs : Inp -> 'M[R]_(ny, nx) * 'cV[R]_ny * 'M[R]_ny * 'cV[option R]_ny) inputs par key states t s :
  ScanModel.filter split (kalman_build_filter tria (Key := Key) init dyn obs) inputs par key = ScanModel.Ok states ->
  List.nth_error states t = Some s -> inputs <> nil.
Proof. by move=> E Es e; move: E Es; rewrite e /ScanModel.filter /=; case: par. Qed.

(** means and covariances of the joint run are those of the two separate runs, in any combination of modes *)
Theorem C91_filter tria (n1 n2 k1 k2 : nat) (Inp Key : Type) init1 dyn1 obs1 init2 dyn2 obs2 init dyn obs
    (split : Key -> nat -> list Key) (inputs : list Inp) (par par1 par2 : bool) (key key1 key2 : option Key)
    states states1 states2 t s s1 s2 :
  tria_ok tria -> DriverSpec.split_ok split ->
  @side_by_side n1 n2 k1 k2 Inp init1 dyn1 obs1 init2 dyn2 obs2 init dyn obs ->
  (forall t x, List.nth_error inputs (S t) = Some x -> regular dyn1 obs1 x /\ regular dyn2 obs2 x) ->
  ScanModel.filter split (kalman_build_filter tria (Key := Key) init dyn obs) inputs par key = ScanModel.Ok states ->
  ScanModel.filter split (kalman_build_filter tria (Key := Key) init1 dyn1 obs1) inputs par1 key1 = ScanModel.Ok states1 ->
  ScanModel.filter split (kalman_build_filter tria (Key := Key) init2 dyn2 obs2) inputs par2 key2 = ScanModel.Ok states2 ->
  List.nth_error states t = Some s -> List.nth_error states1 t = Some s1 -> List.nth_error states2 t = Some s2 ->
  kf_mean s = col_mx (kf_mean s1) (kf_mean s2) /\
  cov (kf_chol_cov s) = block_mx (cov (kf_chol_cov s1)) 0 0 (cov (kf_chol_cov s2)).
Proof.
move=> ok sok sbs reg E E1 E2 Es Es1 Es2; have ne := filter_nonempty E Es.
have reg1 i x : List.nth_error inputs (S i) = Some x -> regular dyn1 obs1 x by case/reg.
have reg2 i x : List.nth_error inputs (S i) = Some x -> regular dyn2 obs2 x by case/reg.
have reg0 i x : List.nth_error inputs (S i) = Some x -> regular dyn obs x by case/reg; exact: regular_both sbs x.
have [st [F0 G0]] := C61_singular_moments init par key ok sok ne reg0.
have [st1 [F1 G1]] := C61_singular_moments init1 par1 key1 ok sok ne reg1.
have [st2 [F2 G2]] := C61_singular_moments init2 par2 key2 ok sok ne reg2.
move: E E1 E2; rewrite F0 F1 F2 => - [] e [] e1 [] e2; subst st st1 st2.
have [c1 Ec1] : exists c, List.nth_error (exact init1 dyn1 obs1 inputs) t = Some c.
  by apply: nth_ex; rewrite -(Forall2_length' G1); exact: nth_lt Es1.
have [c2 Ec2] : exists c, List.nth_error (exact init2 dyn2 obs2 inputs) t = Some c.
  by apply: nth_ex; rewrite -(Forall2_length' G2); exact: nth_lt Es2.
have [-> ->] := Forall2_nth G0 Es (exact_both sbs reg Ec1 Ec2).
by have [-> ->] := Forall2_nth G1 Es1 Ec1; have [-> ->] := Forall2_nth G2 Es2 Ec2.
Qed.
Print Assumptions C91_filter.

(** and the log normalising constants add up *)
Theorem C91_evidence tria (n1 n2 k1 k2 : nat) (Inp Key : Type) init1 dyn1 obs1 init2 dyn2 obs2 init dyn obs
    (split : Key -> nat -> list Key) (inputs : list Inp) (par par1 par2 : bool) (key key1 key2 : option Key)
    states states1 states2 t s s1 s2 :
  tria_ok tria -> DriverSpec.split_ok split ->
  @side_by_side n1 n2 k1 k2 Inp init1 dyn1 obs1 init2 dyn2 obs2 init dyn obs ->
  nondegenerate init1 dyn1 obs1 inputs -> nondegenerate init2 dyn2 obs2 inputs -> nondegenerate init dyn obs inputs ->
  ScanModel.filter split (kalman_build_filter tria (Key := Key) init dyn obs) inputs par key = ScanModel.Ok states ->
  ScanModel.filter split (kalman_build_filter tria (Key := Key) init1 dyn1 obs1) inputs par1 key1 = ScanModel.Ok states1 ->
  ScanModel.filter split (kalman_build_filter tria (Key := Key) init2 dyn2 obs2) inputs par2 key2 = ScanModel.Ok states2 ->
  List.nth_error states t = Some s -> List.nth_error states1 t = Some s1 -> List.nth_error states2 t = Some s2 ->
  kf_log_normalizing_constant s = kf_log_normalizing_constant s1 + kf_log_normalizing_constant s2.
Proof.
move=> ok sok sbs nd1 nd2 nd E E1 E2 Es Es1 Es2; have ne := filter_nonempty E Es.
have reg i x : List.nth_error inputs (S i) = Some x -> regular dyn1 obs1 x /\ regular dyn2 obs2 x.
  move=> h; have [a1 a2] := nd1.2 _ _ h; have [a3 a4] := nd2.2 _ _ h.
  by split; exact: nondegenerate_regular.
have [st [F0 [L0 G0]]] := filter_exact ok sok par key ne nd.
have [st1 [F1 [L1 G1]]] := filter_exact ok sok par1 key1 ne nd1.
have [st2 [F2 [L2 G2]]] := filter_exact ok sok par2 key2 ne nd2.
move: E E1 E2; rewrite F0 F1 F2 => - [] e [] e1 [] e2; subst st st1 st2.
have [c1 Ec1] : exists c, List.nth_error (exact init1 dyn1 obs1 inputs) t = Some c.
  by apply: nth_ex; rewrite exact_length -L1; exact: nth_lt Es1.
have [c2 Ec2] : exists c, List.nth_error (exact init2 dyn2 obs2 inputs) t = Some c.
  by apply: nth_ex; rewrite exact_length -L2; exact: nth_lt Es2.
have [_ _ _ -> _] := G0 _ _ _ Es (exact_both sbs reg Ec1 Ec2).
by have [_ _ _ -> _] := G1 _ _ _ Es1 Ec1; have [_ _ _ -> _] := G2 _ _ _ Es2 Ec2.
Qed.
Print Assumptions C91_evidence.

(** ** smoothing passes of two related models *)
Section SmootherRel.
Variables (n n' : nat) (U U' : 'M[R]_(n', n)) (Inp Key : Type).
Variables (dyn : Inp -> 'M[R]_n * 'cV[R]_n * 'M[R]_n) (dyn' : Inp -> 'M[R]_n' * 'cV[R]_n' * 'M[R]_n').
Definition rel_dyn x : Prop := let: (F, c, L) := dyn x in let: (F', c', L') := dyn' x in
  [/\ U *m F = F' *m U, U' *m F^T = F'^T *m U', U *m c = c' & U *m cov L = cov L' *m U'].
Lemma smoother_rel tria (split : Key -> nat -> list Key) (dl dl' : Inp -> Inp) io io' dm dm' (sg sc sg' sc' : bool)
    (fs : list (@KalmanFilterState n Inp)) (fs' : list (@KalmanFilterState n' Inp)) (trans : list Inp) (par par' : bool)
    (key key' : option Key) ss ss' :
  tria_ok tria -> DriverSpec.split_ok split -> trans <> nil ->
  List.length fs = S (List.length trans) -> List.length fs' = S (List.length trans) ->
  (forall t f x F c Lq, List.nth_error fs t = Some f -> List.nth_error trans t = Some x ->
     dyn x = (F, c, Lq) -> rts_pred (cov (kf_chol_cov f)) F (cov Lq) \in unitmx) ->
  (forall t f x F c Lq, List.nth_error fs' t = Some f -> List.nth_error trans t = Some x ->
     dyn' x = (F, c, Lq) -> rts_pred (cov (kf_chol_cov f)) F (cov Lq) \in unitmx) ->
  (forall x, rel_dyn x) ->
  (forall t f f', List.nth_error fs t = Some f -> List.nth_error fs' t = Some f' ->
     U *m kf_mean f = kf_mean f' /\ U *m cov (kf_chol_cov f) = cov (kf_chol_cov f') *m U') ->
  ScanModel.smoother split dl io (kalman_build_smoother tria (Key := Key) dyn dl dm sg sc) fs (Some trans) par key = ScanModel.Ok ss ->
  ScanModel.smoother split dl' io' (kalman_build_smoother tria (Key := Key) dyn' dl' dm' sg' sc') fs' (Some trans) par' key' = ScanModel.Ok ss' ->
  forall t s s', List.nth_error ss t = Some s -> List.nth_error ss' t = Some s' ->
  U *m ks_mean s = ks_mean s' /\ U *m cov (ks_chol_cov s) = cov (ks_chol_cov s') *m U'.
Proof.
move=> ok sok ne len len' uP uP' rd rf E E'.
have [st [F0 [L0 [Hl Hs]]]] := C17_smoother_run_exact dl io dm sg sc par key ok sok ne len uP.
have [st' [F0' [L0' [Hl' Hs']]]] := C17_smoother_run_exact dl' io' dm' sg' sc' par' key' ok sok ne len' uP'.
move: E E'; rewrite F0 F0' => - [] e [] e'; subst st st'.
have main : forall k t s s', (t + k)%N = List.length trans -> List.nth_error ss t = Some s -> List.nth_error ss' t = Some s' ->
    U *m ks_mean s = ks_mean s' /\ U *m cov (ks_chol_cov s) = cov (ks_chol_cov s') *m U'; last first.
  move=> t s s' Es Es'; apply: (main (List.length trans - t)%N t s s' _ Es Es').
  by have := nth_lt Es; rewrite L0 => /ssrnat.leP h; rewrite subnKC.
elim=> [|k IH] t s s' ek Es Es'.
  move: ek; rewrite addn0 => ek; subst t.
  have [f Ef] : exists f, List.nth_error fs (List.length trans) = Some f by apply: nth_ex; rewrite len; lia.
  have [f' Ef'] : exists f, List.nth_error fs' (List.length trans) = Some f by apply: nth_ex; rewrite len'; lia.
  by have [-> ->] := Hl _ _ Ef Es; have [-> ->] := Hl' _ _ Ef' Es'; exact: rf Ef Ef'.
have lt : (t < List.length trans)%coq_nat by apply/ssrnat.ltP; rewrite -ek addnS ltnS leq_addr.
have [x Ex] := nth_ex lt.
have [f Ef] : exists f, List.nth_error fs t = Some f by apply: nth_ex; rewrite len; lia.
have [f' Ef'] : exists f, List.nth_error fs' t = Some f by apply: nth_ex; rewrite len'; lia.
have [q Eq] : exists f, List.nth_error ss (S t) = Some f by apply: nth_ex; rewrite L0; lia.
have [q' Eq'] : exists f, List.nth_error ss' (S t) = Some f by apply: nth_ex; rewrite L0'; lia.
have [rm rP] := IH (S t) q q' (etrans (addSnnS t k) ek) Eq Eq'.
move: (rd x); rewrite /rel_dyn.
case Ed: (dyn x) => [[F c] L]; case Ed': (dyn' x) => [[F' c'] L'] [rF rF' rc rQ].
have [-> -> _ _] := Hs _ _ _ _ _ _ _ _ Ef Ex Es Eq Ed.
have [-> -> _ _] := Hs' _ _ _ _ _ _ _ _ Ef' Ex Es' Eq' Ed'.
have [rm0 rP0] := rf _ _ _ Ef Ef'.
have u := uP _ _ _ _ _ _ Ef Ex Ed; have u' := uP' _ _ _ _ _ _ Ef' Ex Ed'.
split; first exact: (rel_rts_mean (U' := U')) rm.
by apply: rel_rts_cov => //; exact: covT.
Qed.
End SmootherRel.

(** smoothing passes of models side by side *)
Lemma diag_unit m p (A : 'M[R]_m) (B : 'M[R]_p) : A \in unitmx -> B \in unitmx -> diag_block A B \in unitmx.
Proof. by move=> uA uB; rewrite unitmxE /diag_block det_ublock unitrM -!unitmxE uA uB. Qed.
Lemma both_dyn n1 n2 k1 k2 Inp init1 dyn1 obs1 init2 dyn2 obs2 init dyn obs x :
  @side_by_side n1 n2 k1 k2 Inp init1 dyn1 obs1 init2 dyn2 obs2 init dyn obs ->
  [/\ (dyn x).1.1 = diag_block (dyn1 x).1.1 (dyn2 x).1.1, (dyn x).1.2 = col_mx (dyn1 x).1.2 (dyn2 x).1.2 &
      cov (dyn x).2 = diag_block (cov (dyn1 x).2) (cov (dyn2 x).2)].
Proof.
move=> [_ /(_ x)]; rewrite /step_of.
case: (dyn x) => [[F c] L]; case: (dyn1 x) => [[F1 c1] L1]; case: (dyn2 x) => [[F2 c2] L2].
by case: (obs x) => [[[H d] X] y]; case: (obs1 x) => [[[H1 d1] X1] y1]; case: (obs2 x) => [[[H2 d2] X2] y2] [].
Qed.
Theorem C91_smoother tria (n1 n2 k1 k2 : nat) (Inp Key : Type) init1 dyn1 obs1 init2 dyn2 obs2 init dyn obs
    (split : Key -> nat -> list Key) (dl dl1 dl2 : Inp -> Inp) io io1 io2 dm dm1 dm2 (sg sc sg1 sc1 sg2 sc2 : bool)
    (x0 : Inp) (rest : list Inp) (par par1 par2 spar spar1 spar2 : bool) (key key1 key2 skey skey1 skey2 : option Key)
    fs fs1 fs2 ss ss1 ss2 t s s1 s2 :
  tria_ok tria -> DriverSpec.split_ok split -> rest <> nil ->
  @side_by_side n1 n2 k1 k2 Inp init1 dyn1 obs1 init2 dyn2 obs2 init dyn obs ->
  (forall x, List.In x rest -> regular dyn1 obs1 x /\ regular dyn2 obs2 x) ->
  ScanModel.filter split (kalman_build_filter tria (Key := Key) init dyn obs) (x0 :: rest) par key = ScanModel.Ok fs ->
  ScanModel.filter split (kalman_build_filter tria (Key := Key) init1 dyn1 obs1) (x0 :: rest) par1 key1 = ScanModel.Ok fs1 ->
  ScanModel.filter split (kalman_build_filter tria (Key := Key) init2 dyn2 obs2) (x0 :: rest) par2 key2 = ScanModel.Ok fs2 ->
  (forall t f x F c Lq, List.nth_error fs1 t = Some f -> List.nth_error rest t = Some x ->
     dyn1 x = (F, c, Lq) -> F *m cov (kf_chol_cov f) *m F^T + cov Lq \in unitmx) ->
  (forall t f x F c Lq, List.nth_error fs2 t = Some f -> List.nth_error rest t = Some x ->
     dyn2 x = (F, c, Lq) -> F *m cov (kf_chol_cov f) *m F^T + cov Lq \in unitmx) ->
  ScanModel.smoother split dl io (kalman_build_smoother tria (Key := Key) dyn dl dm sg sc) fs (Some rest) spar skey = ScanModel.Ok ss ->
  ScanModel.smoother split dl1 io1 (kalman_build_smoother tria (Key := Key) dyn1 dl1 dm1 sg1 sc1) fs1 (Some rest) spar1 skey1 = ScanModel.Ok ss1 ->
  ScanModel.smoother split dl2 io2 (kalman_build_smoother tria (Key := Key) dyn2 dl2 dm2 sg2 sc2) fs2 (Some rest) spar2 skey2 = ScanModel.Ok ss2 ->
  List.nth_error ss t = Some s -> List.nth_error ss1 t = Some s1 -> List.nth_error ss2 t = Some s2 ->
  ks_mean s = col_mx (ks_mean s1) (ks_mean s2) /\
  cov (ks_chol_cov s) = block_mx (cov (ks_chol_cov s1)) 0 0 (cov (ks_chol_cov s2)).
Proof.
move=> ok sok ne sbs regI E E1 E2 uP1 uP2 S S1 S2 Es Es1 Es2.
have reg i x : List.nth_error (x0 :: rest) i.+1 = Some x -> regular dyn1 obs1 x /\ regular dyn2 obs2 x.
  by move=> /= /(@List.nth_error_In _ _ _ _); exact: regI.
have ne' : x0 :: rest <> nil by [].
have reg1 i x : List.nth_error (x0 :: rest) i.+1 = Some x -> regular dyn1 obs1 x by case/reg.
have reg2 i x : List.nth_error (x0 :: rest) i.+1 = Some x -> regular dyn2 obs2 x by case/reg.
have reg0 i x : List.nth_error (x0 :: rest) i.+1 = Some x -> regular dyn obs x by case/reg; exact: regular_both sbs x.
have len : List.length fs = (List.length rest).+1.
  have [st [F0 G0]] := C61_singular_moments init par key ok sok ne' reg0.
  by move: E; rewrite F0 => - [] <-; rewrite (Forall2_length' G0) exact_length.
have len1 : List.length fs1 = (List.length rest).+1.
  have [st [F0 G0]] := C61_singular_moments init1 par1 key1 ok sok ne' reg1.
  by move: E1; rewrite F0 => - [] <-; rewrite (Forall2_length' G0) exact_length.
have len2 : List.length fs2 = (List.length rest).+1.
  have [st [F0 G0]] := C61_singular_moments init2 par2 key2 ok sok ne' reg2.
  by move: E2; rewrite F0 => - [] <-; rewrite (Forall2_length' G0) exact_length.
have uP i f x F c Lq : List.nth_error fs i = Some f -> List.nth_error rest i = Some x ->
     dyn x = (F, c, Lq) -> rts_pred (cov (kf_chol_cov f)) F (cov Lq) \in unitmx.
  move=> Ef Ex Ed.
  have [f1 Ef1] : exists f, List.nth_error fs1 i = Some f by apply: nth_ex; rewrite len1 -len; exact: nth_lt Ef.
  have [f2 Ef2] : exists f, List.nth_error fs2 i = Some f by apply: nth_ex; rewrite len2 -len; exact: nth_lt Ef.
  have [_ eP] := C91_filter ok sok sbs reg E E1 E2 Ef Ef1 Ef2.
  have := both_dyn x sbs; have := uP1 i f1 x _ _ _ Ef1 Ex; have := uP2 i f2 x _ _ _ Ef2 Ex; rewrite Ed /=.
  case: (dyn1 x) => [[F1 c1] L1]; case: (dyn2 x) => [[F2 c2] L2] u2 u1 [-> _ eQ].
  rewrite /rts_pred eP eQ -/(diag_block _ _) diag_blockM {2}/diag_block tr_block_mx !trmx0 -/(diag_block _ _) diag_blockM.
  rewrite /diag_block add_block_mx !addr0 -/(diag_block _ _).
  by apply: diag_unit; [exact: (u1 _ _ _ erefl)|exact: (u2 _ _ _ erefl)].
have rd1 : forall x, rel_dyn (row_mx 1%:M 0) (row_mx 1%:M 0) dyn dyn1 x.
  move=> x; rewrite /rel_dyn; have := both_dyn x sbs.
  case: (dyn x) => [[F c] L]; case: (dyn1 x) => [[F1 c1] L1] /= [-> -> ->]; rewrite /diag_block tr_block_mx !trmx0.
  by rewrite !mul_row_block mul_row_col !mul_mx_row !mul1mx !mul0mx !mulmx1 !mulmx0 !addr0.
have rd2 : forall x, rel_dyn (row_mx 0 1%:M) (row_mx 0 1%:M) dyn dyn2 x.
  move=> x; rewrite /rel_dyn; have := both_dyn x sbs.
  case: (dyn x) => [[F c] L]; case: (dyn2 x) => [[F1 c1] L1] /= [-> -> ->]; rewrite /diag_block tr_block_mx !trmx0.
  by rewrite !mul_row_block mul_row_col !mul_mx_row !mul1mx !mul0mx !mulmx1 !mulmx0 !add0r.
have rf i f f1 f2 : List.nth_error fs i = Some f -> List.nth_error fs1 i = Some f1 -> List.nth_error fs2 i = Some f2 ->
    rel_belief (row_mx 1%:M 0) (row_mx 1%:M 0) (Belief (kf_mean f) (cov (kf_chol_cov f)) 0) (Belief (kf_mean f1) (cov (kf_chol_cov f1)) 0) /\
    rel_belief (row_mx 0 1%:M) (row_mx 0 1%:M) (Belief (kf_mean f) (cov (kf_chol_cov f)) 0) (Belief (kf_mean f2) (cov (kf_chol_cov f2)) 0).
  move=> Ef Ef1 Ef2; rewrite /rel_belief /=; have [-> ->] := C91_filter ok sok sbs reg E E1 E2 Ef Ef1 Ef2.
  by rewrite !mul_row_block !mul_row_col !mul_mx_row !mul1mx !mul0mx !mulmx1 !mulmx0 !addr0 !add0r.
have rf1 i f f1 : List.nth_error fs i = Some f -> List.nth_error fs1 i = Some f1 ->
    row_mx 1%:M 0 *m kf_mean f = kf_mean f1 /\ row_mx 1%:M 0 *m cov (kf_chol_cov f) = cov (kf_chol_cov f1) *m row_mx 1%:M 0.
  move=> Ef Ef1; have [f2 Ef2] : exists f, List.nth_error fs2 i = Some f by apply: nth_ex; rewrite len2 -len; exact: nth_lt Ef.
  by case: (rf _ _ _ _ Ef Ef1 Ef2).
have rf2 i f f2 : List.nth_error fs i = Some f -> List.nth_error fs2 i = Some f2 ->
    row_mx 0 1%:M *m kf_mean f = kf_mean f2 /\ row_mx 0 1%:M *m cov (kf_chol_cov f) = cov (kf_chol_cov f2) *m row_mx 0 1%:M.
  move=> Ef Ef2; have [f1 Ef1] : exists f, List.nth_error fs1 i = Some f by apply: nth_ex; rewrite len1 -len; exact: nth_lt Ef.
  by case: (rf _ _ _ _ Ef Ef1 Ef2).
have [m1 P1] := smoother_rel ok sok ne len len1 uP uP1 rd1 rf1 S S1 Es Es1.
have [m2 P2] := smoother_rel ok sok ne len len2 uP uP2 rd2 rf2 S S2 Es Es2.
by split; [exact: both_mean m1 m2|exact: both_cov P1 P2].
Qed.
Print Assumptions C91_smoother.

(** ** C92 *)
Section C92.
Variables (nx ny : nat) (Inp : Type) (T : 'M[R]_nx) (u : Inp -> 'cV[R]_ny).
Variables (init : Inp -> 'cV[R]_nx * 'M[R]_nx) (dyn : Inp -> 'M[R]_nx * 'cV[R]_nx * 'M[R]_nx)
  (obs : Inp -> 'M[R]_(ny, nx) * 'cV[R]_ny * 'M[R]_ny * 'cV[option R]_ny).
Variables (init' : Inp -> 'cV[R]_nx * 'M[R]_nx) (dyn' : Inp -> 'M[R]_nx * 'cV[R]_nx * 'M[R]_nx)
  (obs' : Inp -> 'M[R]_(ny, nx) * 'cV[R]_ny * 'M[R]_ny * 'cV[option R]_ny).
(** the second model is the first for the state [T x] and the observations [u_i y_i]; the factors themselves may
    be any with the right covariances *)
Definition same_model : Prop :=
  (forall x, init_belief init' x = rewritten T 0 (init_belief init x)) /\
  (forall x, step_of dyn' obs' x = rewritten_step T (u x) (step_of dyn obs x)).
Hypothesis uT : T \in unitmx.
Hypothesis un : forall x i, u x i ord0 != 0.
Hypothesis same : same_model.
Lemma regular_rewritten x : regular dyn obs x -> regular dyn' obs' x.
Proof.
move=> r; have o := step_of_ok r; apply: pd_unit; rewrite (same.2 x) -[lQ _]sure_pred.
have -> : sure nx = rewritten T 0 (sure nx) by rewrite /rewritten /sure /= !mulmx0 mul0mx subr0.
by apply: innov_rewritten => //; apply: pred_pd => //; exact: sure_psd.
Qed.
Lemma exact_rewritten x0 rest t c :
  (forall x, List.In x rest -> regular dyn obs x) ->
  List.nth_error (exact init dyn obs (x0 :: rest)) t = Some c ->
  List.nth_error (exact init' dyn' obs' (x0 :: rest)) t =
    Some (rewritten T (\sum_(x <- take t rest) log_volume (u x) (step_of dyn obs x)) c).
Proof.
move=> reg; rewrite /exact (same.1 x0) => E.
rewrite (beliefs_rewritten uT un same.2 0 _ _ E); [by rewrite add0r|exact: init_psd|].
by move=> z /reg; exact: step_of_ok.
Qed.
End C92.
Arguments same_model [nx ny Inp].

(** means and covariances are carried along by the change of coordinates, whatever the units *)
Theorem C92_filter tria (nx ny : nat) (Inp Key : Type) (T : 'M[R]_nx) (u : Inp -> 'cV[R]_ny) init dyn obs init' dyn' obs'
    (split : Key -> nat -> list Key) (x0 : Inp) (rest : list Inp) (par par' : bool) (key key' : option Key)
    states states' t s s' :
  tria_ok tria -> DriverSpec.split_ok split -> T \in unitmx -> (forall x i, u x i ord0 != 0) ->
  same_model T u init dyn obs init' dyn' obs' ->
  (forall x, List.In x rest -> regular dyn obs x) ->
  ScanModel.filter split (kalman_build_filter tria (Key := Key) init dyn obs) (x0 :: rest) par key = ScanModel.Ok states ->
  ScanModel.filter split (kalman_build_filter tria (Key := Key) init' dyn' obs') (x0 :: rest) par' key' = ScanModel.Ok states' ->
  List.nth_error states t = Some s -> List.nth_error states' t = Some s' ->
  kf_mean s' = T *m kf_mean s /\ cov (kf_chol_cov s') = T *m cov (kf_chol_cov s) *m T^T.
Proof.
move=> ok sok uT un same regI E E' Es Es'.
have ne : x0 :: rest <> nil by [].
have reg i x : List.nth_error (x0 :: rest) i.+1 = Some x -> regular dyn obs x.
  by move=> /= /(@List.nth_error_In _ _ _ _); exact: regI.
have reg' i x : List.nth_error (x0 :: rest) i.+1 = Some x -> regular dyn' obs' x.
  by move/reg; exact: (regular_rewritten uT un same).
have [st [F0 G0]] := C61_singular_moments init par key ok sok ne reg.
have [st' [F0' G0']] := C61_singular_moments init' par' key' ok sok ne reg'.
move: E E'; rewrite F0 F0' => - [] e [] e'; subst st st'.
have [c Ec] : exists c, List.nth_error (exact init dyn obs (x0 :: rest)) t = Some c.
  by apply: nth_ex; rewrite -(Forall2_length' G0); exact: nth_lt Es.
have [-> ->] := Forall2_nth G0' Es' (exact_rewritten uT un same regI Ec).
by have [-> ->] := Forall2_nth G0 Es Ec.
Qed.
Print Assumptions C92_filter.

(** the evidence does not see the coordinates; new units shift it by the log volume factors of what was observed *)
Theorem C92_evidence tria (nx ny : nat) (Inp Key : Type) (T : 'M[R]_nx) (u : Inp -> 'cV[R]_ny) init dyn obs init' dyn' obs'
    (split : Key -> nat -> list Key) (x0 : Inp) (rest : list Inp) (par par' : bool) (key key' : option Key)
    states states' t s s' :
  tria_ok tria -> DriverSpec.split_ok split -> T \in unitmx -> (forall x i, u x i ord0 != 0) ->
  same_model T u init dyn obs init' dyn' obs' ->
  nondegenerate init dyn obs (x0 :: rest) -> nondegenerate init' dyn' obs' (x0 :: rest) ->
  ScanModel.filter split (kalman_build_filter tria (Key := Key) init dyn obs) (x0 :: rest) par key = ScanModel.Ok states ->
  ScanModel.filter split (kalman_build_filter tria (Key := Key) init' dyn' obs') (x0 :: rest) par' key' = ScanModel.Ok states' ->
  List.nth_error states t = Some s -> List.nth_error states' t = Some s' ->
  kf_log_normalizing_constant s' = kf_log_normalizing_constant s -
    \sum_(x <- take t rest) \sum_(i | isSome ((obs x).2 i ord0)) ln `|u x i ord0|.
Proof.
move=> ok sok uT un same nd nd' E E' Es Es'.
have ne : x0 :: rest <> nil by [].
have regI x : List.In x rest -> regular dyn obs x.
  by move=> h; have [i Ei] := List.In_nth_error _ _ h; have [a1 a2] := nd.2 i _ Ei; exact: nondegenerate_regular.
have [st [F0 [L0 G0]]] := filter_exact ok sok par key ne nd.
have [st' [F0' [L0' G0']]] := filter_exact ok sok par' key' ne nd'.
move: E E'; rewrite F0 F0' => - [] e [] e'; subst st st'.
have [c Ec] : exists c, List.nth_error (exact init dyn obs (x0 :: rest)) t = Some c.
  by apply: nth_ex; rewrite exact_length -L0; exact: nth_lt Es.
have [_ _ _ -> _] := G0' _ _ _ Es' (exact_rewritten uT un same regI Ec).
have [_ _ _ -> _] := G0 _ _ _ Es Ec; congr (_ - _); apply: eq_bigr => x _.
by rewrite /log_volume /step_of; case: (dyn x) => [[F c'] L]; case: (obs x) => [[[H d] X] y].
Qed.
Print Assumptions C92_evidence.

(** smoothing passes *)
Theorem C92_smoother tria (nx ny : nat) (Inp Key : Type) (T : 'M[R]_nx) (u : Inp -> 'cV[R]_ny) init dyn obs init' dyn' obs'
    (split : Key -> nat -> list Key) (dl dl' : Inp -> Inp) io io' dm dm' (sg sc sg' sc' : bool)
    (x0 : Inp) (rest : list Inp) (par par' spar spar' : bool) (key key' skey skey' : option Key)
    fs fs' ss ss' t s s' :
  tria_ok tria -> DriverSpec.split_ok split -> rest <> nil -> T \in unitmx -> (forall x i, u x i ord0 != 0) ->
  same_model T u init dyn obs init' dyn' obs' ->
  (forall x, List.In x rest -> regular dyn obs x) ->
  ScanModel.filter split (kalman_build_filter tria (Key := Key) init dyn obs) (x0 :: rest) par key = ScanModel.Ok fs ->
  ScanModel.filter split (kalman_build_filter tria (Key := Key) init' dyn' obs') (x0 :: rest) par' key' = ScanModel.Ok fs' ->
  (forall t f x F c Lq, List.nth_error fs t = Some f -> List.nth_error rest t = Some x ->
     dyn x = (F, c, Lq) -> F *m cov (kf_chol_cov f) *m F^T + cov Lq \in unitmx) ->
  ScanModel.smoother split dl io (kalman_build_smoother tria (Key := Key) dyn dl dm sg sc) fs (Some rest) spar skey = ScanModel.Ok ss ->
  ScanModel.smoother split dl' io' (kalman_build_smoother tria (Key := Key) dyn' dl' dm' sg' sc') fs' (Some rest) spar' skey' = ScanModel.Ok ss' ->
  List.nth_error ss t = Some s -> List.nth_error ss' t = Some s' ->
  ks_mean s' = T *m ks_mean s /\ cov (ks_chol_cov s') = T *m cov (ks_chol_cov s) *m T^T.
Proof.
move=> ok sok ne uT un same regI E E' uP S S' Es Es'.
have ne' : x0 :: rest <> nil by [].
have reg i x : List.nth_error (x0 :: rest) i.+1 = Some x -> regular dyn obs x.
  by move=> /= /(@List.nth_error_In _ _ _ _); exact: regI.
have reg' i x : List.nth_error (x0 :: rest) i.+1 = Some x -> regular dyn' obs' x.
  by move/reg; exact: (regular_rewritten uT un same).
have len : List.length fs = (List.length rest).+1.
  have [st [F0 G0]] := C61_singular_moments init par key ok sok ne' reg.
  by move: E; rewrite F0 => - [] <-; rewrite (Forall2_length' G0) exact_length.
have len' : List.length fs' = (List.length rest).+1.
  have [st [F0 G0]] := C61_singular_moments init' par' key' ok sok ne' reg'.
  by move: E'; rewrite F0 => - [] <-; rewrite (Forall2_length' G0) exact_length.
pose TT : 'M[R]_nx := (invmx T)^T.
have t1 : T^T *m TT = 1%:M by rewrite /TT -trmx_mul mulVmx // trmx1.
have t2 : TT *m T^T = 1%:M by rewrite /TT -trmx_mul mulmxV // trmx1.
have dE x : [/\ (dyn' x).1.1 = T *m (dyn x).1.1 *m invmx T, (dyn' x).1.2 = T *m (dyn x).1.2 &
      cov (dyn' x).2 = T *m cov (dyn x).2 *m T^T].
  have := same.2 x; rewrite /step_of; case: (dyn' x) => [[F' c'] L']; case: (dyn x) => [[F c] L].
  by case: (obs' x) => [[[H' d'] X'] y']; case: (obs x) => [[[H d] X] y] [].
have uP' i f x F c Lq : List.nth_error fs' i = Some f -> List.nth_error rest i = Some x ->
     dyn' x = (F, c, Lq) -> rts_pred (cov (kf_chol_cov f)) F (cov Lq) \in unitmx.
  move=> Ef' Ex Ed'.
  have [f0 Ef] : exists f, List.nth_error fs i = Some f by apply: nth_ex; rewrite len -len'; exact: nth_lt Ef'.
  have [_ eP] := C92_filter ok sok uT un same regI E E' Ef Ef'.
  have := dE x; have := uP i f0 x _ _ _ Ef Ex; rewrite Ed' /=; case: (dyn x) => [[F0 c0] L0] u0 [-> _ eQ].
  have -> : rts_pred (cov (kf_chol_cov f)) (T *m F0 *m invmx T) (cov Lq) = T *m (F0 *m cov (kf_chol_cov f0) *m F0^T + cov L0) *m T^T.
    rewrite /rts_pred eP eQ mulmxDr mulmxDl; congr (_ + _); rewrite !trmx_mul -/TT.
    rewrite -!mulmxA (mulmxA (invmx T) T) mulVmx // mul1mx; do 3!congr (_ *m _).
    by rewrite (mulmxA T^T TT) t1 mul1mx.
  by rewrite !unitmx_mul uT unitmx_tr uT (u0 _ _ _ erefl).
have rd x : rel_dyn T TT dyn dyn' x.
  rewrite /rel_dyn; have := dE x; case: (dyn x) => [[F c] L]; case: (dyn' x) => [[F' c'] L'] /= [-> -> ->].
  split=> //; [by rewrite -mulmxA mulVmx // mulmx1| |by rewrite -mulmxA t1 mulmx1].
  by rewrite !trmx_mul -/TT -!mulmxA t1 mulmx1.
have rf i f f' : List.nth_error fs i = Some f -> List.nth_error fs' i = Some f' ->
    T *m kf_mean f = kf_mean f' /\ T *m cov (kf_chol_cov f) = cov (kf_chol_cov f') *m TT.
  move=> Ef Ef'; have [-> ->] := C92_filter ok sok uT un same regI E E' Ef Ef'.
  by split=> //; rewrite -mulmxA t1 mulmx1.
have [m1 P1] := smoother_rel ok sok ne len len' uP uP' rd rf S S' Es Es'.
by split=> //; rewrite P1 -mulmxA t2 mulmx1.
Qed.
Print Assumptions C92_smoother.

(** ** the hypotheses are met: two copies of the demo model side by side; the demo model in other coordinates *)
Definition both_init (t : nat) : 'cV[R]_(2 + 2) * 'M[R]_(2 + 2) :=
  (col_mx (demo_init t).1 (demo_init t).1, diag_block (demo_init t).2 (demo_init t).2).
Definition both_dynamics (t : nat) : 'M[R]_(2 + 2) * 'cV[R]_(2 + 2) * 'M[R]_(2 + 2) :=
  let: (F, c, L) := demo_dyn t in let: (F', c', L') := demo_dyn t.+1 in
  (diag_block F F', col_mx c c', diag_block L L').
Definition both_obs (t : nat) : 'M[R]_(2 + 2) * 'cV[R]_(2 + 2) * 'M[R]_(2 + 2) * 'cV[option R]_(2 + 2) :=
  let: (H, d, L, y) := demo_obs t in let: (H', d', L', y') := demo_obs t.+1 in
  (diag_block H H', col_mx d d', diag_block L L', col_mx y y').
Lemma cov_diag m p (A : 'M[R]_m) (B : 'M[R]_p) : cov (diag_block A B) = diag_block (cov A) (cov B).
Proof. by rewrite /cov -diag_blockM {3}/diag_block tr_block_mx !trmx0. Qed.
Example C91_hypotheses_met (T : nat) :
  side_by_side demo_init demo_dyn demo_obs demo_init (fun t => demo_dyn t.+1) (fun t => demo_obs t.+1)
    both_init both_dynamics both_obs /\
  nondegenerate demo_init demo_dyn demo_obs (iota 0 T.+1) /\
  nondegenerate demo_init (fun t => demo_dyn t.+1) (fun t => demo_obs t.+1) (iota 0 T.+1) /\
  nondegenerate both_init both_dynamics both_obs (iota 0 T.+1).
Proof.
split; [|split; [|split]].
- split=> x; first by rewrite /init_belief /both /= cov_diag addr0.
  by rewrite /step_of /both_dynamics /both_obs /= /both_step /= !cov_diag.
- exact: C15_hypotheses_met.
- split=> [x _|t x _]; first by split; [exact: scalar_mx_is_trig|exact: unitmx1].
  by rewrite /step_of /= /obsR /= obs_block1 cov1 !unitmx1.
- split=> [x _|t x _].
    by rewrite /both_init /= diag_block1; split; [exact: scalar_mx_is_trig|exact: unitmx1].
  by rewrite /step_of /both_dynamics /both_obs /= /obsR /= diag_block1 obs_block1 cov1 !unitmx1.
Qed.
Definition shear : 'M[R]_2 := const_mx 1 + 1%:M.
Lemma shear_unit : shear \in unitmx.
Proof.
apply: pd_unit; apply: pdDr; last exact: pd1.
have -> : const_mx 1 = (const_mx 1 : 'cV[R]_2) *m (const_mx 1)^T :> 'M[R]_2; last exact: gram_psd.
by apply/matrixP => i j; rewrite !mxE big_ord_recl big_ord0 !mxE mulr1 addr0.
Qed.
Definition new_init (t : nat) : 'cV[R]_2 * 'M[R]_2 := (shear *m (demo_init t).1, some_tria (shear *m (demo_init t).2)).
Definition new_dyn (t : nat) : 'M[R]_2 * 'cV[R]_2 * 'M[R]_2 :=
  let: (F, c, L) := demo_dyn t in (shear *m F *m invmx shear, shear *m c, shear *m L).
Definition feet (t : nat) : 'cV[R]_2 := const_mx 3%:R.
Definition new_obs (t : nat) : 'M[R]_2 * 'cV[R]_2 * 'M[R]_2 * 'cV[option R]_2 :=
  let: (H, d, L, y) := demo_obs t in
  (units (feet t) *m H *m invmx shear, units (feet t) *m d, units (feet t) *m L, rescaled (feet t) y).
Example C92_hypotheses_met (T : nat) :
  same_model shear feet demo_init demo_dyn demo_obs new_init new_dyn new_obs /\
  (forall x i, feet x i ord0 != 0) /\
  nondegenerate demo_init demo_dyn demo_obs (iota 0 T.+1) /\ nondegenerate new_init new_dyn new_obs (iota 0 T.+1).
Proof.
have uE k (A : 'M[R]_k) L : cov (A *m L) = A *m cov L *m A^T by rewrite /cov trmx_mul !mulmxA.
have f0 x i : feet x i ord0 != 0 by rewrite mxE pnatr_eq0.
have [tr te] := some_tria_ok (shear *m (1%:M : 'M[R]_2)) (leqnn 2).
have sm : same_model shear feet demo_init demo_dyn demo_obs new_init new_dyn new_obs.
  split=> x; first by rewrite /init_belief /new_init /rewritten /= /cov te subr0 -!/(cov _) uE.
  by rewrite /step_of /new_dyn /new_obs /= /rewritten_step /= !uE unitsT.
split=> //; split=> //; split; first exact: C15_hypotheses_met.
split=> [x _|t x _]; first by split=> //=; rewrite -gram_unit te gram_unit unitmx_mul shear_unit unitmx1.
rewrite (sm.2 x) /step_of /= cov1 mulmx1; split; first by rewrite unitmx_mul unitmx_tr shear_unit.
rewrite /obsR /= obs_blockE mulmx1.
apply: pd_unit; rewrite -{2}unitsT; have -> : Sel (rescaled (feet x) (if (x %% 3 == 0)%N then demo_y else const_mx (Some x%:R))) *m
   (units (feet x) *m (units (feet x))^T) *m (Sel (rescaled (feet x) (if (x %% 3 == 0)%N then demo_y else const_mx (Some x%:R))))^T
   = 3%:R *: (3%:R *: 1%:M).
  rewrite -SelSelT; have -> : units (feet x) = 3%:R%:M by rewrite /units /feet trmx_const diag_const_mx.
  by rewrite tr_scalar_mx mulmxA -!(mulmxA (Sel _)) -scalar_mxM mul_scalar_mx -!scalemxAr scalerA.
rewrite scalerA; split; first by rewrite linearZ /= trmx1.
move=> v nv; rewrite /qf -scalemxAr mulmx1 -scalemxAl mxE -/(sqn v).
by rewrite mulr_gt0 ?mulr_gt0 ?ltr0n // lt_neqAle sqn_ge0 andbT eq_sym sqn_eq0.
Qed.
