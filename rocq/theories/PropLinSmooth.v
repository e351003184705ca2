(** C59, C60: the linearised smoothers; a run of the Taylor filter and smoother. *)
From Coq Require Import Reals Lra Lia List.
From mathcomp Require Import all_ssreflect all_algebra.
From Verif Require Import RStruct MxBase ZmodTac KalmanModel LinalgModel LinearizeModel LinKalmanModel GaussSpec KalmanSpec
  LinalgSpec LinearizeSpec LinSpec MvnProofs MvnProofs2 KalmanProofs LinearizeProofs LinearizeProofs2
  LinearizeProofs3 PropMvn PropLinearize InvSqrtProofs TriaExist KalmanRuns LinRuns LinObs PropLinObs LinSmooth PropLinKalman.
From Verif Require ScanModel DriverSpec DriverProofs.
Set Implicit Arguments.
Unset Strict Implicit.
Unset Printing Implicit Defensive.
Local Open Scope ring_scope.
Import GRing.Theory Num.Theory Order.Theory.

(** ** C60 *)
(** the moments smoother on any NaN-free filtering states is the Rauch-Tung-Striebel recursion *)
Theorem C60_moments_smoother tria jacobian nx Inp Key (split : Key -> nat -> list Key)
    (dummy_like : Inp -> Inp) (dummy_mx : 'M[R]_nx) (inputs_of : option (LinState nx) -> Inp) (store_gain store_cov : bool)
    (get_dynamics_params : LinState nx -> Inp -> moments_fn nx nx * 'cV[option R]_nx)
    (dynamics : Inp -> 'M[R]_nx * 'cV[R]_nx * 'M[R]_nx) (fs : list (LinState nx)) (trans : list Inp) (parallel : bool) key :
  tria_ok tria -> jacobian_ok jacobian -> DriverSpec.split_ok split ->
  trans <> nil -> List.length fs = S (List.length trans) ->
  (forall t f x, List.nth_error fs t = Some f -> List.nth_error trans t = Some x ->
    exists fn p L, let: (F, c, Q) := dynamics x in
    [/\ get_dynamics_params f x = (fn, map_mx Some p), affine_moments fn F c L, cov L = Q &
        rts_pred (cov (lin_chol_cov f)) F Q \in unitmx]) ->
  let sm := moments_build_smoother (Key := Key) dummy_mx tria jacobian dummy_like get_dynamics_params store_gain store_cov in
  exists states,
    ScanModel.smoother split dummy_like inputs_of sm (List.map Some fs) (Some trans) parallel key
      = ScanModel.Ok (List.map Some states) /\
    List.Forall2 (fun s p => ks_mean s = p.1 /\ cov (ks_chol_cov s) = p.2) states
      (rts_pass (List.map (fun s => (lin_mean s, cov (lin_chol_cov s))) fs) (List.map dynamics trans)) /\
    forall t f x s, List.nth_error fs t = Some f -> List.nth_error trans t = Some x -> List.nth_error states t = Some s ->
      let: (F, c, Q) := dynamics x in let P := cov (lin_chol_cov f) in
      (store_gain -> ks_gain s = Some (rts_gain P F Q)) /\
      (store_cov -> exists V, [/\ ks_chol_cov_given_next s = Some V, is_trig_mx V & cov V = rts_cond_cov P F Q]).
Proof.
move=> ok jok sok ne len aff sm.
have [|st [E [H1 H2]]] := @lin_smooth_exact tria ok nx Inp Key split sok dummy_like dummy_mx store_gain store_cov inputs_of sm
  erefl erefl (fun _ => dynamics) fs trans ne len _ parallel key; last by exists st; move: H1; rewrite (map_combine_snd _ len).
move=> t f x k Ef Ex; have [fn [p [L]]] := aff _ _ _ Ef Ex; case: (dynamics x) => [[F c] Q] [E af LQ u].
by exists L; split=> //=; rewrite E (linearize_affine jok p af) /= !nan_free_some.
Qed.
Print Assumptions C60_moments_smoother.
(** the same for the Taylor smoother on linear-Gaussian transition densities *)
Theorem C60_taylor_smoother tria svd grad jacobian rtol ignore nx Inp Key (split : Key -> nat -> list Key)
    (dummy_like : Inp -> Inp) (dummy_mx : 'M[R]_nx) (inputs_of : option (LinState nx) -> Inp) (store_gain store_cov : bool)
    (get_dynamics_log_density : LinState nx -> Inp -> log_cond nx nx * 'cV[option R]_nx * 'cV[option R]_nx)
    (dynamics : Inp -> 'M[R]_nx * 'cV[R]_nx * 'M[R]_nx) (fs : list (LinState nx)) (trans : list Inp) (parallel : bool) key :
  tria_ok tria -> grad_ok grad -> jacobian_ok jacobian -> DriverSpec.split_ok split -> 0 <= rtol ->
  trans <> nil -> List.length fs = S (List.length trans) ->
  (forall t f x, List.nth_error fs t = Some f -> List.nth_error trans t = Some x ->
    exists fn p q, let: (F, c, Q) := dynamics x in
    [/\ get_dynamics_log_density f x = (fn, map_mx Some p, map_mx Some q), linear_gaussian fn F c Q & recoverable svd rtol Q]) ->
  let sm := taylor_build_smoother (Key := Key) dummy_mx tria jacobian dummy_like svd grad rtol ignore get_dynamics_log_density
              store_gain store_cov in
  exists states,
    ScanModel.smoother split dummy_like inputs_of sm (List.map Some fs) (Some trans) parallel key
      = ScanModel.Ok (List.map Some states) /\
    List.Forall2 (fun s p => ks_mean s = p.1 /\ cov (ks_chol_cov s) = p.2) states
      (rts_pass (List.map (fun s => (lin_mean s, cov (lin_chol_cov s))) fs) (List.map dynamics trans)) /\
    forall t f x s, List.nth_error fs t = Some f -> List.nth_error trans t = Some x -> List.nth_error states t = Some s ->
      let: (F, c, Q) := dynamics x in let P := cov (lin_chol_cov f) in
      (store_gain -> ks_gain s = Some (rts_gain P F Q)) /\
      (store_cov -> exists V, [/\ ks_chol_cov_given_next s = Some V, is_trig_mx V & cov V = rts_cond_cov P F Q]).
Proof.
move=> ok gok jok sok r0 ne len lg sm.
have [|st [E [H1 H2]]] := @lin_smooth_exact tria ok nx Inp Key split sok dummy_like dummy_mx store_gain store_cov inputs_of sm
  erefl erefl (fun _ => dynamics) fs trans ne len _ parallel key; last by exists st; move: H1; rewrite (map_combine_snd _ len).
move=> t f x k Ef Ex; have [fn [p [q]]] := lg _ _ _ Ef Ex; case: (dynamics x) => [[F c] Q] [E fE rc].
have [L [EL tL LL]] := C46_log_density_exact ignore p q ok gok jok r0 fE rc.
have pe : ScanModel.smoother_prepare sm (Some f) x k = let: (f1, prev, curr) := get_dynamics_log_density f x in
    lin_smoother_elem tria store_gain store_cov f
      (real_params (linearize_log_density tria svd grad jacobian f1 prev curr rtol ignore)) x by [].
exists L; split=> //; first by rewrite pe E EL /real_params !nan_free_some.
apply: (@pd_unit R_realFieldType); apply: pdDr; first by apply: psd_conj; exact: gram_psd.
by case: rc.
Qed.
Print Assumptions C60_taylor_smoother.

(** ** a Taylor run with every kind of observation *)
Section Demo.
Variable n : nat.
Variable skip : nat -> bool.
Notation nx := n.+1.
Notation St := (@LinState nx nat).
Definition tdemo_init (t : nat) : log_pot nx * 'cV[option R]_nx :=
  (fun x => Some (- (2%:R^-1 * mahalanobis 2%:R%:M (map_mx (odflt 0) x - const_mx 1))), map_mx Some 0).
Definition tdemo_F : 'M[R]_nx := const_mx 1.
(** linearised at the filtering mean *)
Definition tdemo_dyn (s : St) (t : nat) : log_cond nx nx * 'cV[option R]_nx * 'cV[option R]_nx :=
  if skip t then (demo_density tdemo_F (const_mx 1) 2%:R%:M, const_mx None, const_mx None)
  else (demo_density tdemo_F (const_mx 1) 2%:R%:M, map_mx Some (lin_mean s), map_mx Some 0).
Definition half_missing : 'cV[option R]_nx := \col_i (if odd i then None else Some 1).
Definition tdemo_obs (s : St) (t : nat) : ObservationOutput nx :=
  match (t %% 4)%N with
  | 0 => CondDensity (demo_density tdemo_F (const_mx 1) 2%:R%:M) (map_mx Some (lin_mean s)) (map_mx Some (const_mx 1))
  | 1 => CondDensity (demo_missing tdemo_F (const_mx 1) 2%:R%:M) (map_mx Some (lin_mean s)) half_missing
  | 2 => Potential (fun x => Some (- (2%:R^-1 * mahalanobis 2%:R%:M (map_mx (odflt 0) x - const_mx 1)))) (map_mx Some (lin_mean s))
  | _ => Potential (demo_potential half_missing 2%:R%:M) (map_mx Some (lin_mean s))
  end.
Definition tdemo_dynamics (t : nat) : 'M[R]_nx * 'cV[R]_nx * 'M[R]_nx :=
  if skip t then (1%:M, 0, 0) else (tdemo_F, const_mx 1, 2%:R%:M).
Definition tdemo_observation (t : nat) : anyobs nx :=
  match (t %% 4)%N with
  | 0 => existT _ nx (tdemo_F, const_mx 1, 2%:R%:M, map_mx Some (const_mx 1))
  | 1 => existT _ nx (tdemo_F, const_mx 1, 2%:R%:M, half_missing)
  | 2 => existT _ nx (1%:M, 0, 2%:R%:M, map_mx Some (const_mx 1))
  | _ => existT _ nx (1%:M, 0, 2%:R%:M, half_missing)
  end.
Let rtol := (2%:R^-1 : R).
Lemma two_recoverable : recoverable (@diag_svd) rtol (2%:R%:M : 'M[R]_nx).
Proof. by have [r0 r1] := half_bounds; apply: recoverable_scalar; rewrite ?ltr0n. Qed.
Lemma tdemo_observes t : gaussian_observation (@diag_svd) rtol true tdemo_obs tdemo_observation t.
Proof.
have [r0 r1] := half_bounds; move=> s; rewrite /tdemo_obs /tdemo_observation.
case: (t %% 4)%N => [|[|[|?]]].
- by apply: ObsFull; [exact: demo_density_ok|exact: two_recoverable].
- by apply: ObsPartial=> //; [exact: demo_missing_ok|apply: recoverable_at_scalar; rewrite ?ltr0n].
- by apply: ObsPotential; [exists 0 => x; rewrite odflt_some sub0r|exact: two_recoverable].
- by apply: ObsPotentialAt => //; [exact: demo_potential_ok|apply: recoverable_at_scalar; rewrite ?ltr0n].
Qed.
Lemma tdemo_initial t : gaussian_init (@diag_svd) rtol tdemo_init (fun=> const_mx 1) (fun=> 2%:R%:M) t.
Proof.
do 2 eexists; split; first by reflexivity.
  by exists 0 => x; rewrite odflt_some sub0r.
exact: two_recoverable.
Qed.
Lemma tdemo_moves t : ~~ skip t -> gaussian_dynamics (@diag_svd) rtol tdemo_dyn tdemo_dynamics t.
Proof.
move=> /negbTE sk s; rewrite /tdemo_dyn /tdemo_dynamics sk; do 3 eexists; split; first by reflexivity.
  exact: demo_density_ok.
exact: two_recoverable.
Qed.
Lemma tdemo_skips t : skip t -> skipped_dynamics tdemo_dyn tdemo_dynamics t.
Proof. by move=> sk; split=> [s|]; rewrite /tdemo_dyn /tdemo_dynamics sk //; eexists. Qed.
(** the sequential Taylor filter, with skipped steps *)
Lemma tdemo_run (T : nat) : exists states,
  ScanModel.filter tt_split (taylor_build_filter (Key := unit) 0 0 some_tria some_jacobian (@diag_svd) some_grad rtol true
    tdemo_init tdemo_dyn tdemo_obs false) (iota 0 T.+1) false None = ScanModel.Ok (List.map Some states) /\
  List.length states = T.+1.
Proof.
have [r0 r1] := half_bounds.
have [|x Ex|t x Ex|st [E F]] := @C49_taylor_sequential some_tria (@diag_svd) some_grad some_jacobian (@some_tria_ok) some_grad_ok
  some_jacobian_ok rtol true r0 nx (ltn0Sn n) nat unit tt_split tt_split_ok 0 0 tdemo_init tdemo_dyn tdemo_obs
  (fun=> const_mx 1) (fun=> 2%:R%:M) tdemo_dynamics tdemo_observation (iota 0 T.+1) None => //.
- exact: tdemo_initial.
- by split; last exact: tdemo_observes; case E: (skip x); [right; exact: tdemo_skips|left; apply: tdemo_moves; rewrite E].
exists st; split=> //; rewrite (Forall2_length' F) taylor_exactE lin_exact_length.
by rewrite -[RHS](size_iota 0 T.+1); elim: (iota _ _) => //= a l ->.
Qed.
End Demo.
(** without skipped steps the associative filter runs in parallel, and the smoother after it *)
Example C60_case (n T : nat) (parallel1 parallel2 : bool) :
  let flt := taylor_build_filter (Key := unit) 0 0 some_tria some_jacobian (@diag_svd) some_grad (2%:R^-1) true
    (@tdemo_init n) (tdemo_dyn (fun=> false)) (@tdemo_obs n) true in
  let sm := taylor_build_smoother (Key := unit) 0 some_tria some_jacobian id (@diag_svd) some_grad (2%:R^-1) true
    (tdemo_dyn (fun=> false)) true true in
  exists fs ss,
    ScanModel.filter tt_split flt (iota 0 T.+2) parallel1 None = ScanModel.Ok (List.map Some fs) /\
    ScanModel.smoother tt_split id (fun=> 0%N) sm (List.map Some fs) (Some (iota 1 T.+1)) parallel2 None
      = ScanModel.Ok (List.map Some ss).
Proof.
have [r0 r1] := half_bounds; move=> flt sm.
have [|x Ex|t x Ex|st [E F]] := @C49_taylor_associative some_tria (@diag_svd) some_grad some_jacobian (@some_tria_ok) some_grad_ok
  some_jacobian_ok _ true r0 n.+1 (ltn0Sn n) nat unit tt_split tt_split_ok 0 0 (@tdemo_init n) (tdemo_dyn (fun=> false)) (@tdemo_obs n)
  (fun=> const_mx 1) (fun=> 2%:R%:M) (tdemo_dynamics n (fun=> false)) (tdemo_observation n) (iota 0 T.+2) parallel1 None => //.
- exact: tdemo_initial.
- by split; [exact: tdemo_moves|exact: tdemo_observes].
have sz a b : List.length (iota a b) = b by elim: b a => //= b IH a; rewrite IH.
have [||t f x Ef Ex|ss [Es _]] := @C60_taylor_smoother some_tria (@diag_svd) some_grad some_jacobian (2%:R^-1) true n.+1 nat unit tt_split id 0
  (fun=> 0%N) true true (tdemo_dyn (fun=> false)) (tdemo_dynamics n (fun=> false)) st (iota 1 T.+1) parallel2 None (@some_tria_ok)
  some_grad_ok some_jacobian_ok tt_split_ok r0 => //.
- by rewrite (Forall2_length' F) taylor_exactE lin_exact_length !sz.
- have [|fn [p [q h]]] := @tdemo_moves n (fun=> false) x _ f => //.
  by exists fn, p, q.
by exists st, ss.
Qed.

(** ** C59: skipped predict steps and smoothing *)
(** a transition linearised at a point with a missing entry makes the state before it and all earlier
    smoothed states NaN, in both modes and whatever the density *)
Theorem C59_skipped_step_breaks_smoothing tria svd grad jacobian rtol ignore nx Inp Key (split : Key -> nat -> list Key)
    (dummy_like : Inp -> Inp) (dummy_mx : 'M[R]_nx) (inputs_of : option (LinState nx) -> Inp) (store_gain store_cov : bool)
    (get_dynamics_log_density : LinState nx -> Inp -> log_cond nx nx * 'cV[option R]_nx * 'cV[option R]_nx)
    (fs : list (LinState nx)) (trans : list Inp) (parallel : bool) key t f x fn p q i :
  DriverSpec.split_ok split -> trans <> nil -> List.length fs = S (List.length trans) ->
  List.nth_error fs t = Some f -> List.nth_error trans t = Some x ->
  get_dynamics_log_density f x = (fn, p, q) -> q i ord0 = None ->
  let sm := taylor_build_smoother (Key := Key) dummy_mx tria jacobian dummy_like svd grad rtol ignore get_dynamics_log_density
              store_gain store_cov in
  exists states,
    ScanModel.smoother split dummy_like inputs_of sm (List.map Some fs) (Some trans) parallel key = ScanModel.Ok states /\
    List.length states = List.length fs /\
    forall u s, (u <= t)%N -> List.nth_error states u = Some s -> s = None.
Proof.
move=> sok ne len Ef Ex Ed qi sm.
have len' : List.length (List.map Some fs) = S (List.length trans) by rewrite List.map_length.
have [| | |st [E [L H]]] := DriverProofs.smoother_interval split dummy_like inputs_of sm
  (fun a b s => (a <= t)%N -> (t < b)%N -> s = None) (List.map Some fs) trans parallel key sok ne len'.
- move=> a b c y z /ssrnat.ltP ab /ssrnat.ltP bc _ hy hz le lt; rewrite /sm /=; have [tb|bt] := ltnP t b; first by rewrite hy.
  by rewrite hz // /lin_smoother_combine; case: y {hy}.
- have := nth_lt Ex => /ssrnat.ltP lt f0 x0 k0 _ le; by rewrite leqNgt lt in le.
- move=> a f0 x0 k0 Ef0 Ex0 le1 le2; have e : a = t by apply/eqP; rewrite eqn_leq le1.
  move: Ef0 Ex0; rewrite e Ex List.nth_error_map Ef => -[<-] [<-].
  rewrite /= Ed /linearize_log_density /linearize_log_density_given_chol_cov /=.
  case: (nan_free _) => // F1; set c := nan_add _ _.
  suff -> : nan_free c = None by [].
  rewrite /nan_free; case: ifP => // /forallP /(_ i) /forallP /(_ ord0).
  by rewrite /c !mxE qi.
exists st; split=> //; split; first by rewrite L len.
move=> u s ut Es; apply: (H u s Es) => //; have := nth_lt Ex => /ssrnat.ltP lt; by rewrite ltnS ltnW.
Qed.
Print Assumptions C59_skipped_step_breaks_smoothing.
(** the filter accepts such a run, so the full statement is false *)
Theorem C59_refuted (parallel : bool) :
  exists (tria : forall m k : nat, 'M[R]_(m, k) -> 'M[R]_m) svd grad jacobian (rtol : R)
    (linit : nat -> log_pot 1 * 'cV[option R]_1) ldyn lobs fs states,
  [/\ tria_ok tria, grad_ok grad, jacobian_ok jacobian,
      ScanModel.filter tt_split (taylor_build_filter (Key := unit) 0 0 tria jacobian svd grad rtol true linit ldyn lobs false)
        [:: 0; 1]%N false None = ScanModel.Ok (List.map Some fs) &
      ScanModel.smoother tt_split id (fun=> 0%N)
        (taylor_build_smoother (Key := unit) 0 tria jacobian id svd grad rtol true ldyn true true)
        (List.map Some fs) (Some [:: 1]%N) parallel None = ScanModel.Ok states /\ List.nth_error states 0 = Some None].
Proof.
have [fs [E L]] := tdemo_run 0 (fun=> true) 1; case: fs E L => [|f0 [|f1 [|//]]] // E _.
have [||||||states [Es [Ls Hs]]] := @C59_skipped_step_breaks_smoothing some_tria (@diag_svd) some_grad some_jacobian (2%:R^-1) true 1 nat
  unit tt_split id 0 (fun=> 0%N) true true (@tdemo_dyn 0 (fun=> true)) (f0 :: f1 :: nil) [:: 1]%N parallel None 0%N f0 1%N
  (demo_density (@tdemo_F 0) (const_mx 1) 2%:R%:M) (const_mx None) (const_mx None) ord0 tt_split_ok => //.
  by rewrite mxE.
exists some_tria, (@diag_svd), some_grad, some_jacobian, (2%:R^-1), (@tdemo_init 0), (@tdemo_dyn 0 (fun=> true)), (@tdemo_obs 0),
  (f0 :: f1 :: nil), states; split; [exact: some_tria_ok|exact: some_grad_ok|exact: some_jacobian_ok|exact: E|split=> //].
by case: states Ls Es Hs => [|s ?] //= _ _ /(_ 0%nat s) ->.
Qed.
Print Assumptions C59_refuted.

(** ** C59, exactly when: of a run accepted by the sequential filter, the smoother state at time u is NaN if and only if
    the predict step of some transition from time u on was skipped *)
Definition step_skipped nx Inp (ldyn : @LinState nx Inp -> Inp -> log_cond nx nx * 'cV[option R]_nx * 'cV[option R]_nx) f x : Prop :=
  forall i, (ldyn f x).1.2 i ord0 = None /\ (ldyn f x).2 i ord0 = None.
Theorem C59_exact tria svd grad jacobian rtol ignore nx Inp Key (split : Key -> nat -> list Key) dummy_mean
    (dummy_like : Inp -> Inp) (dummy_mx : 'M[R]_nx) (inputs_of : option (LinState nx) -> Inp) (store_gain store_cov : bool)
    linit (ldyn : LinState nx -> Inp -> log_cond nx nx * 'cV[option R]_nx * 'cV[option R]_nx) lobs
    (fs : list (LinState nx)) x0 (trans : list Inp) (parallel : bool) key key' :
  DriverSpec.split_ok split -> (0 < nx)%N -> trans <> nil ->
  ScanModel.filter split (taylor_build_filter (Key := Key) dummy_mean dummy_mx tria jacobian svd grad rtol ignore linit ldyn lobs false)
    (x0 :: trans) false key = ScanModel.Ok (List.map Some fs) ->
  let sm := taylor_build_smoother (Key := Key) dummy_mx tria jacobian dummy_like svd grad rtol ignore ldyn store_gain store_cov in
  exists states,
    ScanModel.smoother split dummy_like inputs_of sm (List.map Some fs) (Some trans) parallel key' = ScanModel.Ok states /\
    List.length states = List.length fs /\
    forall u s, List.nth_error states u = Some s ->
      (s = None <-> exists t f x, [/\ (u <= t)%N, List.nth_error fs t = Some f, List.nth_error trans t = Some x & step_skipped ldyn f x]).
Proof.
move=> sok nx0 ne run sm.
have [|st0 [E0 [L0 [_ RS]]]] := DriverProofs.filter_sequential _ sok (taylor_build_filter (Key := Key) dummy_mean dummy_mx tria jacobian svd grad rtol ignore linit ldyn lobs false) (x0 :: trans) key; first by [].
move: E0; rewrite run => -[e]; rewrite -{}e {st0} in L0 RS.
have len : List.length fs = S (List.length trans) by rewrite -(List.map_length Some fs) L0.
have accepted t f x : List.nth_error fs t = Some f -> List.nth_error trans t = Some x ->
    isSome (taylor_dynamics tria jacobian svd grad rtol ignore ldyn f x).
  move=> Ef Ex.
  have Ef' : List.nth_error (List.map Some fs) t = Some (Some f) by rewrite List.nth_error_map Ef.
  have := RS t x (Some f) Ex Ef'; have : exists g, List.nth_error fs (S t) = Some g by apply: nth_ex; rewrite len; apply/ssrnat.ltP; rewrite ltnS; apply/ssrnat.ltP; apply: nth_lt Ex.
  case=> g Eg; rewrite List.nth_error_map Eg => -[].
  by rewrite /= /taylor_combine /=; case: taylor_dynamics.
have params t f x : List.nth_error fs t = Some f -> List.nth_error trans t = Some x ->
    let: (fn, prev, curr) := ldyn f x in
    real_params (linearize_log_density tria svd grad jacobian fn prev curr rtol ignore) = None <-> step_skipped ldyn f x.
  move=> Ef Ex; have := accepted _ _ _ Ef Ex; rewrite /taylor_dynamics /step_skipped; case: (ldyn f x) => [[fn prev] curr]; rewrite /fst /snd.
  case El : (linearize_log_density tria svd grad jacobian fn prev curr rtol ignore) => [[F c] Q]; case: ifP => sk.
    move=> _; split=> [_ i|_].
      by case/andP: sk => /forallP /(_ i) h1 /forallP /(_ i) h2; split; [case: (prev i ord0) h2|case: (curr i ord0) h1].
    have qi : curr (Ordinal nx0) ord0 = None by case/andP: sk => /forallP /(_ (Ordinal nx0)) + _; case: (curr _ _).
    move: El; rewrite /linearize_log_density /linearize_log_density_given_chol_cov /= => -[<- <- <-].
    rewrite /real_params; case: (nan_free _) => // F1; set c1 := nan_add _ _.
    suff -> : nan_free c1 = None by [].
    rewrite /nan_free; case: ifP => // /forallP /(_ (Ordinal nx0)) /forallP /(_ ord0).
    by rewrite /c1 !mxE qi.
  move=> h; split=> [e|h2]; first by rewrite e in h.
  move/negP: sk => []; apply/andP; split; apply/forallP => i; have [e1 e2] := h2 i; by rewrite ?e1 ?e2.
have len' : List.length (List.map Some fs) = S (List.length trans) by rewrite List.map_length.
have [| | |st [E [L H]]] := DriverProofs.smoother_interval split dummy_like inputs_of sm
  (fun a b s => s = None <-> exists t f x, [/\ (a <= t < b)%N, List.nth_error fs t = Some f, List.nth_error trans t = Some x & step_skipped ldyn f x])
  (List.map Some fs) trans parallel key' sok ne len'.
- move=> a b c y z /ssrnat.ltP ab /ssrnat.ltP bc _ hy hz; rewrite /sm /=; split=> [e|[t [f [x [/andP[h1 h2] h3 h4 h5]]]]].
    have [ey|ez] : y = None \/ z = None by move: e; rewrite /lin_smoother_combine; case: (y) => [?|]; [case: (z) => [?|//]; right|left].
      have [t [f [x [/andP[h1 h2] h3 h4 h5]]]] := hy.1 ey; exists t, f, x; split=> //; by rewrite h1 (ltn_trans h2 bc).
    have [t [f [x [/andP[h1 h2] h3 h4 h5]]]] := hz.1 ez; exists t, f, x; split=> //; by rewrite h2 (leq_trans (ltnW ab) h1).
  have [tb|bt] := ltnP t b.
    by rewrite (hy.2 _) //; exists t, f, x; split=> //; rewrite h1.
  rewrite (hz.2 _) /lin_smoother_combine; first by case: (y).
  by exists t, f, x; split=> //; rewrite bt.
- move=> f0 y0 k0 Ef; split=> [|[t [f [x [/andP[h1 _] _ h3 _]]]]]; last by have := nth_lt h3 => /ssrnat.ltP lt; rewrite leqNgt lt in h1.
  by move: Ef; rewrite List.nth_error_map; case: List.nth_error => [g|//] [<-].
- move=> t f0 x k0; rewrite List.nth_error_map; case Ef : List.nth_error => [f|//] [<-] Ex.
  have := params _ _ _ Ef Ex; rewrite /sm /taylor_build_smoother /ScanModel.smoother_prepare /taylor_smoother_prepare; case: (ldyn f x) (erefl (ldyn f x)) => [[fn prev] curr] Ed hp.
  have e : lin_smoother_elem tria store_gain store_cov f (real_params (linearize_log_density tria svd grad jacobian fn prev curr rtol ignore)) x = None
      <-> step_skipped ldyn f x by apply: iff_trans hp; rewrite /lin_smoother_elem; case: (real_params _) => [[[? ?] ?]|].
  rewrite e; split=> [sk|[t' [f' [x' [/andP[h1 h2] h3 h4 h5]]]]]; first by exists t, f, x; split=> //; rewrite leqnn ltnSn.
  have tt' : t' = t by apply/eqP; rewrite eqn_leq h1 andbT -ltnS.
  by move: h3 h4 h5; rewrite tt' Ef Ex => -[->] [->].
exists st; split=> //; split; first by rewrite L len.
move=> u s Es; rewrite (H u s Es); split=> -[t [f [x [h1 h2 h3 h4]]]]; exists t, f, x; split=> //.
  by case/andP: h1.
by rewrite h1 ltnS; apply: ltnW; apply/ssrnat.ltP; exact: nth_lt h3.
Qed.
Print Assumptions C59_exact.
(** a run with three transitions of which the second is skipped: the first two smoother states are NaN, the last two are not *)
Example C59_exact_case (n : nat) (parallel : bool) : exists fs states,
  let skip t := t == 2%N in
  ScanModel.filter tt_split (taylor_build_filter (Key := unit) 0 0 some_tria some_jacobian (@diag_svd) some_grad (2%:R^-1) true
    (@tdemo_init n) (tdemo_dyn skip) (@tdemo_obs n) false) (iota 0 4) false None = ScanModel.Ok (List.map Some fs) /\
  ScanModel.smoother tt_split id (fun=> 0%N) (taylor_build_smoother (Key := unit) 0 some_tria some_jacobian id (@diag_svd) some_grad (2%:R^-1) true
    (tdemo_dyn skip) true true) (List.map Some fs) (Some (iota 1 3)) parallel None = ScanModel.Ok states /\
  List.map isSome states = [:: false; false; true; true].
Proof.
have [fs [E L]] := tdemo_run n (fun t => t == 2%N) 3.
have [||states [Es [Ls Hs]]] := @C59_exact some_tria (@diag_svd) some_grad some_jacobian (2%:R^-1) true n.+1 nat unit tt_split 0 id 0 (fun=> 0%N) true true
  (@tdemo_init n) (tdemo_dyn (fun t => t == 2%N)) (@tdemo_obs n) fs 0%N (iota 1 3) parallel None None tt_split_ok (ltn0Sn n) => //.
exists fs, states; split=> //; split=> //.
move: Ls; rewrite L; move: L Hs; case: fs {E Es} => [|f0 [|f1 [|f2 [|f3 [|//]]]]] // _.
case: states => [|s0 [|s1 [|s2 [|s3 [|//]]]]] // H _.
have only t f x : List.nth_error (f0 :: f1 :: f2 :: f3 :: nil) t = Some f -> List.nth_error (iota 1 3) t = Some x ->
    step_skipped (@tdemo_dyn n (fun t => t == 2%N)) f x -> t = 1%N.
  case: t => [|[|[|[|t]]]] //= _.
    by move=> [<-] /(_ ord0) [/=]; rewrite mxE.
  by move=> [<-] /(_ ord0) [/=]; rewrite mxE.
have sk : step_skipped (@tdemo_dyn n (fun t => t == 2%N)) f1 2%N by move=> i; rewrite /= !mxE.
have h0 : s0 = None by apply: (H 0%N s0 erefl).2; exists 1%N, f1, 2%N.
have h1 : s1 = None by apply: (H 1%N s1 erefl).2; exists 1%N, f1, 2%N.
have h2 : s2 <> None by move=> /(H 2%N s2 erefl).1 [t [f [x [le e1 e2 /(only _ _ _ e1 e2) e3]]]]; rewrite e3 in le.
have h3 : s3 <> None by move=> /(H 3%N s3 erefl).1 [t [f [x [le e1 e2 /(only _ _ _ e1 e2) e3]]]]; rewrite e3 in le.
by rewrite h0 h1 /=; case: s2 h2 {H} => //; case: s3 h3.
Qed.
