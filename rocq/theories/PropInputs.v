(** Property C71: every state of a run carries the model inputs of its own time step, in both modes of
    the drivers, and smoothing without model inputs is smoothing with those of the filter. *)
From Coq Require Import Reals List Lia.
From mathcomp Require Import all_ssreflect all_algebra.
From Verif Require Import RStruct Ext MvnExt ScanModel DriverSpec DriverProofs InputsSpec InputsProofs.
From Verif Require KalmanModel DiscreteModel LinKalmanModel SmcModel.
Set Implicit Arguments.
Unset Strict Implicit.
Unset Printing Implicit Defensive.
Import ListNotations.

(** a filter run returns one state per input, each carrying its own inputs *)
Definition filter_keeps_inputs {Inp Key St} (split : Key -> nat -> list Key) (obj : Filter Inp Key St)
    (rec : St -> Inp -> Prop) : Prop :=
  forall (inputs : list Inp) (parallel : bool) (key : option Key), inputs <> [] ->
  exists states, ScanModel.filter split obj inputs parallel key = Ok states /\
    length states = length inputs /\ carried rec states inputs.

(** state [t] of a smoother run carries the inputs of the transition from [t] to [t+1]; the last one a
    dummy *)
Definition smoother_keeps_inputs {Inp Key FSt SSt} (split : Key -> nat -> list Key)
    (dummy_like : Inp -> Inp) (inputs_of : FSt -> Inp) (obj : Smoother Inp Key FSt SSt)
    (rec : SSt -> Inp -> Prop) : Prop :=
  forall (fstates : list FSt) (inputs trans : list Inp) (parallel : bool) (key : option Key),
  trans <> [] -> length fstates = S (length trans) ->
  (inputs = trans \/ exists x, inputs = x :: trans) ->
  exists states,
    ScanModel.smoother split dummy_like inputs_of obj fstates (Some inputs) parallel key = Ok states /\
    length states = S (length trans) /\ carried rec states trans /\
    (forall s, nth_error states (length trans) = Some s -> exists x, rec s (dummy_like x)).

Section Builtin.
Variable Inp Key : Type.
Variable split : Key -> nat -> list Key.
Hypothesis split_spec : split_ok split.
Variable dummy_like : Inp -> Inp.

(** *** filters *)
Theorem C71_kalman_filter tria nx ny get_init get_dyn get_obs :
  filter_keeps_inputs split
    (@KalmanModel.kalman_build_filter tria nx ny Inp Key get_init get_dyn get_obs)
    (has (@KalmanModel.kf_inputs nx Inp)).
Proof using split_spec.
move=> inputs parallel key ne; apply: filter_carried => //=; rewrite /has.
- by move=> x k; rewrite /KalmanModel.kalman_init_prepare; case: (get_init x).
- by move=> x k; rewrite /KalmanModel.kalman_filter_prepare; case: (get_dyn x) => [[? ?] ?]; case: (get_obs x) => [[[? ?] ?] ?].
Qed.

Theorem C71_discrete_filter K get_init get_trans get_lls :
  filter_keeps_inputs split
    (@DiscreteModel.discrete_build_filter K Inp Key get_init get_trans get_lls)
    (has (@DiscreteModel.fs_inputs Inp)).
Proof using split_spec. by move=> inputs parallel key ne; apply: filter_carried. Qed.

Theorem C71_moments_filter nx dummy_mean dummy_mx tria jacobian ny get_init get_dyn get_obs associative :
  filter_keeps_inputs split
    (@LinKalmanModel.moments_build_filter nx Inp Key dummy_mean dummy_mx tria jacobian ny get_init get_dyn get_obs
       associative)
    (has_if_some (@LinKalmanModel.lin_inputs nx Inp)).
Proof using split_spec.
move=> inputs parallel key ne; apply: filter_carried => //; rewrite /has_if_some; case: associative => /=.
- by move=> x k s; rewrite /LinKalmanModel.moments_init_prepare; case: (get_init x) => m L [<-].
- by move=> x k s; rewrite /LinKalmanModel.moments_init_prepare; case: (get_init x) => m L [<-].
- move=> x k s; rewrite /LinKalmanModel.moments_assoc_prepare.
  case: (get_dyn _ _) => d dp; case: (get_obs _ _) => [[o op] y].
  case: LinKalmanModel.real_params => // [[[F c] Q]]; case: LinKalmanModel.real_obs_params => // [[[H e] L]].
  by case=> <-.
- by move=> x k s [<-].
- case=> [s1|] [s2|] x //= Hx s [<-] /=; exact: Hx.
- case=> [s1|] [s2|] x //= Hx s; rewrite /LinKalmanModel.moments_combine; case: (get_dyn _ _) => d dp.
  case: LinKalmanModel.real_params => // [[[F c] Q]]; case: KalmanModel.predict => m L; case: (get_obs _ _) => [[o op] y].
  case: LinKalmanModel.real_obs_params => // [[[H e] L']]; case: KalmanModel.update => [[m' L''] ell] [<-] /=; exact: Hx.
Qed.

Theorem C71_taylor_filter nx dummy_mean dummy_mx tria jacobian svd grad rtol ignore_nan_dims get_init get_dyn get_obs
    associative :
  filter_keeps_inputs split
    (@LinKalmanModel.taylor_build_filter nx Inp Key dummy_mean dummy_mx tria jacobian svd grad rtol ignore_nan_dims
       get_init get_dyn get_obs associative)
    (has_if_some (@LinKalmanModel.lin_inputs nx Inp)).
Proof using split_spec.
move=> inputs parallel key ne; apply: filter_carried => //; rewrite /has_if_some; case: associative => /=.
- by move=> x k s; rewrite /LinKalmanModel.taylor_assoc_init_prepare; case: LinKalmanModel.taylor_init => // [[m L]] [<-].
- by move=> x k s; rewrite /LinKalmanModel.taylor_init_prepare; case: LinKalmanModel.taylor_init => // [[m L]] [<-].
- move=> x k s; rewrite /LinKalmanModel.taylor_assoc_prepare.
  case: LinKalmanModel.process_observation => ny H d L y.
  case: LinKalmanModel.taylor_dynamics => // [[[F c] Q]]; case: LinKalmanModel.real_obs_params => // [[[H' e] L']].
  by case=> <-.
- by move=> x k s [<-].
- case=> [s1|] [s2|] x //= Hx s [<-] /=; exact: Hx.
- case=> [s1|] [s2|] x //= Hx s; rewrite /LinKalmanModel.taylor_combine.
  case: LinKalmanModel.taylor_dynamics => // [[[F c] Q]]; case: KalmanModel.predict => m L.
  case: LinKalmanModel.process_observation => ny H d R y.
  case: LinKalmanModel.real_obs_params => // [[[H' e] L']]; case: KalmanModel.update => [[m' L''] ell] [<-] /=; exact: Hx.
Qed.

Theorem C71_particle_filter X init_sample propagate_sample log_potential resampling N dummy_particle :
  filter_keeps_inputs split
    (@SmcModel.pf_build_filter Key X Inp split init_sample propagate_sample log_potential resampling N dummy_particle)
    (has_if_ok (@SmcModel.pf_model_inputs Key X Inp)).
Proof using split_spec.
move=> inputs parallel key ne; apply: filter_carried => //; rewrite /has_if_ok /=.
- by move=> x [k|] //= s [<-].
- by move=> x [k|] //= s [<-].
- case=> [s1|e] // [s2|e] // x Hx s /=; rewrite /SmcModel.pf_filter_combine.
  case: (split _ _) => [//|k0 ks]; case: (resampling _ _ _ _) => //= [[[a w] p]].
  by case: ifP => // _ [<-] /=; exact: Hx.
Qed.

Theorem C71_marginal_particle_filter X init_sample propagate_sample log_potential resampling N dummy_particle :
  filter_keeps_inputs split
    (@SmcModel.mpf_build_filter Key X Inp split init_sample propagate_sample log_potential resampling N dummy_particle)
    (has_if_ok (@SmcModel.mpf_model_inputs Key X Inp)).
Proof using split_spec.
move=> inputs parallel key ne; apply: filter_carried => //; rewrite /has_if_ok /=.
- by move=> x [k|] //= s [<-].
- by move=> x [k|] //= s [<-].
- case=> [s1|e] // [s2|e] // x Hx s /=; rewrite /SmcModel.mpf_filter_combine.
  case: (split _ _) => [//|k0 ks]; case: (resampling _ _ _ _) => //= [[[a w] p]].
  by case: ifP => // _ [<-] /=; exact: Hx.
Qed.

(** *** smoothers *)
Theorem C71_kalman_smoother tria nx get_dyn dummy_mx store_gain store_cov inputs_of :
  smoother_keeps_inputs split dummy_like inputs_of
    (@KalmanModel.kalman_build_smoother tria nx Inp Key get_dyn dummy_like dummy_mx store_gain store_cov)
    (has (@KalmanModel.ks_inputs nx Inp)).
Proof using split_spec.
move=> fs inputs trans parallel key ne hl hi; apply: smoother_carried => //=; rewrite /has.
by move=> f x k; rewrite /KalmanModel.kalman_smoother_prepare; case: (get_dyn x) => [[? ?] ?].
Qed.

Theorem C71_discrete_smoother K get_trans inputs_of :
  smoother_keeps_inputs split dummy_like inputs_of
    (@DiscreteModel.discrete_build_smoother K Inp Key get_trans dummy_like)
    (has (@DiscreteModel.sm_inputs Inp)).
Proof using split_spec. by move=> fs inputs trans parallel key ne hl hi; apply: smoother_carried. Qed.

Lemma lin_smoother_elem_inputs nx tria sg sc s params (x : Inp) r :
  @LinKalmanModel.lin_smoother_elem nx Inp tria sg sc s params x = Some r -> KalmanModel.ks_inputs r = x.
Proof using. by rewrite /LinKalmanModel.lin_smoother_elem; case: params => // [[[F c] Q]] [<-]. Qed.
Lemma lin_smoother_combine_inputs nx tria s1 s2 (x : Inp) :
  has_if_some (@KalmanModel.ks_inputs nx Inp) s1 x ->
  has_if_some (@KalmanModel.ks_inputs nx Inp) (LinKalmanModel.lin_smoother_combine tria s1 s2) x.
Proof using. case: s1 => [a|] //; case: s2 => [b|] // Hx s [<-] /=; exact: Hx. Qed.

Theorem C71_moments_smoother nx dummy_mx tria jacobian get_dyn store_gain store_cov inputs_of :
  smoother_keeps_inputs split dummy_like inputs_of
    (@LinKalmanModel.moments_build_smoother nx Inp Key dummy_mx tria jacobian dummy_like get_dyn store_gain store_cov)
    (has_if_some (@KalmanModel.ks_inputs nx Inp)).
Proof using split_spec.
move=> fs inputs trans parallel key ne hl hi; apply: smoother_carried => //=.
- by case=> [f|] x k s //= [<-].
- case=> [f|] x k s //=; case: (get_dyn _ _) => d p; exact: lin_smoother_elem_inputs.
- move=> s1 s2 x; exact: lin_smoother_combine_inputs.
Qed.

Theorem C71_taylor_smoother nx dummy_mx tria jacobian svd grad rtol ignore_nan_dims get_dyn store_gain store_cov
    inputs_of :
  smoother_keeps_inputs split dummy_like inputs_of
    (@LinKalmanModel.taylor_build_smoother nx Inp Key dummy_mx tria jacobian dummy_like svd grad rtol ignore_nan_dims
       get_dyn store_gain store_cov)
    (has_if_some (@KalmanModel.ks_inputs nx Inp)).
Proof using split_spec.
move=> fs inputs trans parallel key ne hl hi; apply: smoother_carried => //=.
- by case=> [f|] x k s //= [<-].
- case=> [f|] x k s //=; case: (get_dyn _ _) => [[d p] c]; exact: lin_smoother_elem_inputs.
- move=> s1 s2 x; exact: lin_smoother_combine_inputs.
Qed.

Theorem C71_backward_sampler X log_potential backward resampling N inputs_of :
  smoother_keeps_inputs split dummy_like inputs_of
    (@SmcModel.ps_build_smoother Key X Inp split log_potential backward resampling N dummy_like)
    (has_if_ok (@SmcModel.ps_model_inputs Key X Inp)).
Proof using split_spec.
move=> fs inputs trans parallel key ne hl hi; apply: smoother_carried => //=.
- move=> f x [k|] s //=; case: (split k 2) => [|k1 [|k2 [|? ?]]] //.
  by case: (resampling _ _ _ _) => //= [[[a w] p]] [<-].
- by move=> f x [k|] s //= [<-].
- case=> [s1|e] // [s2|e] // x Hx s /=; rewrite /SmcModel.ps_combine.
  by case: (backward _ _ _ _ _ _) => //= [[p a]] [<-] /=; exact: Hx.
Qed.

(** *** smoothing without model inputs after a filter run, in either mode of the filter and of the
    smoother *)
Theorem C71_default_kalman tria nx ny get_init get_dyn get_obs SSt (sm : Smoother Inp Key _ SSt)
    (inputs : list Inp) fpar fkey fstates spar skey :
  ScanModel.filter split (@KalmanModel.kalman_build_filter tria nx ny Inp Key get_init get_dyn get_obs)
    inputs fpar fkey = Ok fstates ->
  ScanModel.smoother split dummy_like (@KalmanModel.kf_inputs nx Inp) sm fstates None spar skey =
  ScanModel.smoother split dummy_like (@KalmanModel.kf_inputs nx Inp) sm fstates (Some inputs) spar skey.
Proof using split_spec.
case: inputs => [//|x0 inputs] E.
have [//|st [E' [L C]]] := C71_kalman_filter tria get_init get_dyn get_obs (inputs := x0 :: inputs) fpar fkey.
move: E'; rewrite E => -[?]; subst st.
by rewrite smoother_default_inputs (carried_map _ _ _ L C).
Qed.

Theorem C71_default_discrete K get_init get_trans get_lls SSt (sm : Smoother Inp Key _ SSt)
    (inputs : list Inp) fpar fkey fstates spar skey :
  ScanModel.filter split (@DiscreteModel.discrete_build_filter K Inp Key get_init get_trans get_lls)
    inputs fpar fkey = Ok fstates ->
  ScanModel.smoother split dummy_like (@DiscreteModel.fs_inputs Inp) sm fstates None spar skey =
  ScanModel.smoother split dummy_like (@DiscreteModel.fs_inputs Inp) sm fstates (Some inputs) spar skey.
Proof using split_spec.
case: inputs => [//|x0 inputs] E.
have [//|st [E' [L C]]] := C71_discrete_filter K get_init get_trans get_lls (inputs := x0 :: inputs) fpar fkey.
move: E'; rewrite E => -[?]; subst st.
by rewrite smoother_default_inputs (carried_map _ _ _ L C).
Qed.

Theorem C71_default_particle X init_sample propagate_sample log_potential resampling N dummy_particle SSt
    (sm : Smoother Inp Key _ SSt) (inputs : list Inp) fpar fkey fstates spar skey :
  ScanModel.filter split
    (@SmcModel.pf_build_filter Key X Inp split init_sample propagate_sample log_potential resampling N dummy_particle)
    inputs fpar fkey = Ok (List.map Ok fstates) ->
  ScanModel.smoother split dummy_like (@SmcModel.pf_model_inputs Key X Inp) sm fstates None spar skey =
  ScanModel.smoother split dummy_like (@SmcModel.pf_model_inputs Key X Inp) sm fstates (Some inputs) spar skey.
Proof using split_spec.
case: inputs => [//|x0 inputs] E.
have [//|st [E' [L C]]] := C71_particle_filter init_sample propagate_sample log_potential resampling N dummy_particle
  (inputs := x0 :: inputs) fpar fkey.
move: E'; rewrite E => -[?]; subst st.
rewrite smoother_default_inputs.
suff -> : List.map (@SmcModel.pf_model_inputs Key X Inp) fstates = x0 :: inputs by [].
by apply: (carried_map_list _ _ _ _ _ _ L C) => s x; apply.
Qed.

(** the state of a linearised filter is an option; its model inputs when it is there *)
Definition lin_inputs_or {nx} (d : Inp) (s : option (LinKalmanModel.LinState nx (Inp := Inp))) : Inp :=
  if s is Some s' then LinKalmanModel.lin_inputs s' else d.

Lemma default_lin nx obj SSt (sm : Smoother Inp Key (option (LinKalmanModel.LinState nx (Inp := Inp))) SSt) d
    (inputs : list Inp) fpar fkey fstates spar skey :
  filter_keeps_inputs split obj (has_if_some (@LinKalmanModel.lin_inputs nx Inp)) ->
  ScanModel.filter split obj inputs fpar fkey = Ok (List.map Some fstates) ->
  ScanModel.smoother split dummy_like (lin_inputs_or d) sm (List.map Some fstates) None spar skey =
  ScanModel.smoother split dummy_like (lin_inputs_or d) sm (List.map Some fstates) (Some inputs) spar skey.
Proof using split_spec.
move=> H; case: inputs => [//|x0 inputs] E.
have [//|st [E' [L C]]] := H (x0 :: inputs) fpar fkey.
move: E'; rewrite E => -[?]; subst st.
rewrite smoother_default_inputs List.map_map /=.
suff -> : List.map (@LinKalmanModel.lin_inputs nx Inp) fstates = x0 :: inputs by [].
by apply: (carried_map_list _ _ _ _ _ _ L C) => s x; apply.
Qed.

Theorem C71_default_moments nx dummy_mean dummy_mx tria jacobian ny get_init get_dyn get_obs associative SSt
    (sm : Smoother Inp Key _ SSt) d (inputs : list Inp) fpar fkey fstates spar skey :
  ScanModel.filter split
    (@LinKalmanModel.moments_build_filter nx Inp Key dummy_mean dummy_mx tria jacobian ny get_init get_dyn get_obs
       associative) inputs fpar fkey = Ok (List.map Some fstates) ->
  ScanModel.smoother split dummy_like (lin_inputs_or d) sm (List.map Some fstates) None spar skey =
  ScanModel.smoother split dummy_like (lin_inputs_or d) sm (List.map Some fstates) (Some inputs) spar skey.
Proof using split_spec. by apply: default_lin; exact: C71_moments_filter. Qed.

Theorem C71_default_taylor nx dummy_mean dummy_mx tria jacobian svd grad rtol ignore_nan_dims get_init get_dyn get_obs
    associative SSt (sm : Smoother Inp Key _ SSt) d (inputs : list Inp) fpar fkey fstates spar skey :
  ScanModel.filter split
    (@LinKalmanModel.taylor_build_filter nx Inp Key dummy_mean dummy_mx tria jacobian svd grad rtol ignore_nan_dims
       get_init get_dyn get_obs associative) inputs fpar fkey = Ok (List.map Some fstates) ->
  ScanModel.smoother split dummy_like (lin_inputs_or d) sm (List.map Some fstates) None spar skey =
  ScanModel.smoother split dummy_like (lin_inputs_or d) sm (List.map Some fstates) (Some inputs) spar skey.
Proof using split_spec. by apply: default_lin; exact: C71_taylor_filter. Qed.
End Builtin.
Print Assumptions C71_kalman_filter.
Print Assumptions C71_discrete_filter.
Print Assumptions C71_moments_filter.
Print Assumptions C71_taylor_filter.
Print Assumptions C71_particle_filter.
Print Assumptions C71_marginal_particle_filter.
Print Assumptions C71_kalman_smoother.
Print Assumptions C71_discrete_smoother.
Print Assumptions C71_moments_smoother.
Print Assumptions C71_taylor_smoother.
Print Assumptions C71_backward_sampler.
Print Assumptions C71_default_kalman.
Print Assumptions C71_default_discrete.
Print Assumptions C71_default_particle.
Print Assumptions C71_default_moments.
Print Assumptions C71_default_taylor.

(** A filter run of length four in parallel mode followed by a smoother run: the filter states carry
    7, 8, 9, 10; the smoother states 8, 9, 10 and a dummy. *)
Definition inp_split (k : nat) (n : nat) : list nat := List.seq k n.
Example C71_example :
  split_ok inp_split /\
  exists fstates sstates,
    ScanModel.filter inp_split
      (DiscreteModel.discrete_build_filter 2 (fun _ : nat => fun _ => Fin (/ 2)) (fun _ _ _ => Fin (/ 2))
         (fun _ _ => Fin 0)) [7; 8; 9; 10]%nat true (None : option nat) = Ok fstates /\
    List.map (@DiscreteModel.fs_inputs nat) fstates = [7; 8; 9; 10]%nat /\
    ScanModel.smoother inp_split (fun _ => 0%nat) (@DiscreteModel.fs_inputs nat)
      (DiscreteModel.discrete_build_smoother 2 (fun _ _ _ => Fin (/ 2)) (fun _ => 0%nat)) fstates None true (None : option nat)
      = Ok sstates /\
    List.map (@DiscreteModel.sm_inputs nat) sstates = [8; 9; 10; 0]%nat.
Proof.
split; first by move=> k n; rewrite /inp_split List.seq_length.
by do 2 eexists; split; [reflexivity|]; split; [reflexivity|]; split; reflexivity.
Qed.
