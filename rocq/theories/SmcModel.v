(** Model of the particle filters, the backward sampler and its sampling kernels.
    Random keys are abstract; [split key n] is jax.random.split.  User functions (init_sample,
    propagate_sample, log_potential, resampling_fn, backward_sampling_fn) are parameters.
    Exceptions raised inside a step are [Err] values that propagate through the run. *)
From Coq Require Import Reals List Arith ZArith Bool.
From Verif Require Import Ext ScanModel ResamplingModel.
Import ListNotations.
Open Scope R_scope.

(** exception-propagating application *)
Definition bind {A B} (r : result A) (f : A -> result B) : result B :=
  match r with Ok a => f a | Err e => Err e end.

(** signature of a resampling function, cuthbertlib/resampling/protocols.py:46-56 *)
Definition Resampling (Key X : Type) :=
  Key -> list ext -> list X -> nat -> result (list nat * list ext * list X).

Section ParticleFilter.
  Context {Key X Inp : Type}.
  Variable split : Key -> nat -> list Key.
  Variable init_sample : Key -> Inp -> X.
  Variable propagate_sample : Key -> X -> Inp -> X.
  Variable log_potential : X -> X -> Inp -> ext.
  Variable resampling_fn : Resampling Key X.
  Variable n_filter_particles : nat.
  Variable dummy_particle : X.

  (** particle_filter.py:20-33 *)
  Record PFState := MkPF {
    pf_key : Key;
    pf_particles : list X;
    pf_log_weights : list ext;
    pf_ancestor_indices : list nat;
    pf_model_inputs : Inp;
    pf_log_normalizing_constant : ext }.

  (** particle_filter.py:79-122 *)
  Definition pf_init_prepare (model_inputs : Inp) (key : option Key) : result PFState :=
    match key with
    | None => Err ValueError
    | Some key =>
        let keys := split key n_filter_particles in
        let particles := map (fun k => init_sample k model_inputs) keys in
        let log_weights := zeros n_filter_particles in
        Ok {| pf_key := key; pf_particles := particles; pf_log_weights := log_weights;
              pf_ancestor_indices := seq 0 n_filter_particles;
              pf_model_inputs := model_inputs;
              pf_log_normalizing_constant :=
                esub (logsumexp log_weights) (elog (Fin (INR n_filter_particles))) |}
    end.

  (** particle_filter.py:125-161 *)
  Definition pf_filter_prepare (model_inputs : Inp) (key : option Key) : result PFState :=
    match key with
    | None => Err ValueError
    | Some key =>
        Ok {| pf_key := key; pf_particles := repeat dummy_particle n_filter_particles;
              pf_log_weights := zeros n_filter_particles;
              pf_ancestor_indices := seq 0 n_filter_particles;
              pf_model_inputs := model_inputs;
              pf_log_normalizing_constant := Fin 0 |}
    end.

  (** particle_filter.py:164-219; a vmap over arrays of different lengths raises ValueError *)
  Definition pf_filter_combine (state_1 state_2 : PFState) : result PFState :=
    let N := length (pf_log_weights state_1) in
    match split (pf_key state_1) (N + 1) with
    | [] => Err IndexError
    | key0 :: keys =>
        bind (resampling_fn key0 (pf_log_weights state_1) (pf_particles state_1) N)
          (fun '(ancestor_indices, log_weights, ancestors) =>
             if (length keys =? length ancestors) && (length log_weights =? length ancestors) then
               let next_particles :=
                 map2 (fun k x => propagate_sample k x (pf_model_inputs state_2)) keys ancestors in
               let log_potentials :=
                 map2 (fun a x => log_potential a x (pf_model_inputs state_2)) ancestors next_particles in
               let next_log_weights := map2 eadd log_potentials log_weights in
               let incr := esub (logsumexp next_log_weights) (logsumexp log_weights) in
               Ok {| pf_key := pf_key state_2; pf_particles := next_particles;
                     pf_log_weights := next_log_weights;
                     pf_ancestor_indices := ancestor_indices;
                     pf_model_inputs := pf_model_inputs state_2;
                     pf_log_normalizing_constant := eadd incr (pf_log_normalizing_constant state_1) |}
             else Err ValueError)
    end.

  (** particle_filter.py:36-76 *)
  Definition pf_build_filter : Filter Inp Key (result PFState) :=
    {| init_prepare := pf_init_prepare;
       filter_prepare := pf_filter_prepare;
       filter_combine := fun r1 r2 => bind r1 (fun s1 => bind r2 (fun s2 => pf_filter_combine s1 s2)) |}.

  (** ** marginal particle filter, marginal_particle_filter.py *)
  Record MPFState := MkMPF {
    mpf_key : Key;
    mpf_particles : list X;
    mpf_log_weights : list ext;
    mpf_model_inputs : Inp;
    mpf_log_normalizing_constant : ext }.

  (** marginal_particle_filter.py:72-114 *)
  Definition mpf_init_prepare (model_inputs : Inp) (key : option Key) : result MPFState :=
    match key with
    | None => Err ValueError
    | Some key =>
        let keys := split key n_filter_particles in
        let particles := map (fun k => init_sample k model_inputs) keys in
        let log_weights := zeros n_filter_particles in
        Ok {| mpf_key := key; mpf_particles := particles; mpf_log_weights := log_weights;
              mpf_model_inputs := model_inputs;
              mpf_log_normalizing_constant :=
                esub (logsumexp log_weights) (elog (Fin (INR n_filter_particles))) |}
    end.
  (** marginal_particle_filter.py:117-152 *)
  Definition mpf_filter_prepare (model_inputs : Inp) (key : option Key) : result MPFState :=
    match key with
    | None => Err ValueError
    | Some key =>
        Ok {| mpf_key := key; mpf_particles := repeat dummy_particle n_filter_particles;
              mpf_log_weights := zeros n_filter_particles;
              mpf_model_inputs := model_inputs;
              mpf_log_normalizing_constant := Fin 0 |}
    end.
  (** marginal_particle_filter.py:155-220 *)
  Definition mpf_filter_combine (state_1 state_2 : MPFState) : result MPFState :=
    let N := length (mpf_log_weights state_1) in
    match split (mpf_key state_1) (N + 1) with
    | [] => Err IndexError
    | key0 :: keys =>
        let lse := logsumexp (mpf_log_weights state_1) in
        let prev_log_weights := map (fun l => esub l lse) (mpf_log_weights state_1) in
        bind (resampling_fn key0 (mpf_log_weights state_1) (mpf_particles state_1) N)
          (fun '(_, log_weights, ancestors) =>
             if length keys =? length ancestors then
               let next_particles :=
                 map2 (fun k x => propagate_sample k x (mpf_model_inputs state_2)) keys ancestors in
               let next_log_weights :=
                 map (fun x => logsumexp (map2 eadd
                        (map (fun a => log_potential a x (mpf_model_inputs state_2)) (mpf_particles state_1))
                        prev_log_weights)) next_particles in
               let incr := esub (logsumexp next_log_weights) (logsumexp log_weights) in
               Ok {| mpf_key := mpf_key state_2; mpf_particles := next_particles;
                     mpf_log_weights := next_log_weights;
                     mpf_model_inputs := mpf_model_inputs state_2;
                     mpf_log_normalizing_constant := eadd incr (mpf_log_normalizing_constant state_1) |}
             else Err ValueError)
    end.
  Definition mpf_build_filter : Filter Inp Key (result MPFState) :=
    {| init_prepare := mpf_init_prepare;
       filter_prepare := mpf_filter_prepare;
       filter_combine := fun r1 r2 => bind r1 (fun s1 => bind r2 (fun s2 => mpf_filter_combine s1 s2)) |}.
End ParticleFilter.
Arguments PFState : clear implicits.
Arguments MPFState : clear implicits.

Section BackwardSampler.
  Context {Key X Inp : Type}.
  Variable dX : X. (* only used to make list indexing total *)
  Variable split : Key -> nat -> list Key.

  (** signature of a backward sampling function, cuthbertlib/smc/smoothing/protocols.py *)
  Definition BackwardSampling :=
    Key -> list X -> list X -> list ext -> (X -> X -> ext) -> list nat -> result (list X * list nat).

  Variable log_potential : X -> X -> Inp -> ext.
  Variable backward_sampling_fn : BackwardSampling.
  Variable resampling : Resampling Key X.
  Variable n_smoother_particles : nat.
  Variable dummy_like : Inp -> Inp.

  (** backward_sampler.py:25-37 *)
  Record PSState := MkPS {
    ps_key : Key;
    ps_particles : list X;
    ps_ancestor_indices : list nat;
    ps_model_inputs : Inp;
    ps_log_weights : list ext }.

  (** backward_sampler.py:75-124; the driver always passes model_inputs *)
  Definition ps_convert (filter_state : PFState Key X Inp) (model_inputs : Inp) (key : option Key)
    : result PSState :=
    match key with
    | None => Err ValueError
    | Some key =>
        match split key 2 with
        | [key1; resampling_key] =>
            bind (resampling resampling_key (pf_log_weights filter_state) (pf_particles filter_state)
                             n_smoother_particles)
              (fun '(indices, log_weights, particles) =>
                 Ok {| ps_key := key1; ps_particles := particles;
                       ps_ancestor_indices := gather (pf_ancestor_indices filter_state) indices 0%nat;
                       ps_model_inputs := dummy_like model_inputs;
                       ps_log_weights := log_weights |})
        | _ => Err ValueError
        end
    end.

  (** backward_sampler.py:127-157 *)
  Definition ps_prepare (filter_state : PFState Key X Inp) (model_inputs : Inp) (key : option Key)
    : result PSState :=
    match key with
    | None => Err ValueError
    | Some key =>
        Ok {| ps_key := key; ps_particles := pf_particles filter_state;
              ps_ancestor_indices := pf_ancestor_indices filter_state;
              ps_model_inputs := model_inputs;
              ps_log_weights := pf_log_weights filter_state |}
    end.

  (** backward_sampler.py:160-198 *)
  Definition ps_combine (state_1 state_2 : PSState) : result PSState :=
    bind (backward_sampling_fn (ps_key state_1) (ps_particles state_1) (ps_particles state_2)
            (ps_log_weights state_1)
            (fun s1 s2 => log_potential s1 s2 (ps_model_inputs state_2))
            (ps_ancestor_indices state_2))
      (fun '(new_particles_1, ancestors_1) =>
         let n_particles := length ancestors_1 in
         Ok {| ps_key := ps_key state_1; ps_particles := new_particles_1;
               ps_ancestor_indices := gather (ps_ancestor_indices state_1) ancestors_1 0%nat;
               ps_model_inputs := ps_model_inputs state_1;
               ps_log_weights := repeat (eopp (elog (Fin (INR n_particles)))) n_particles |}).

  (** backward_sampler.py:40-72; filter states come from a successful filter run *)
  Definition ps_build_smoother : Smoother Inp Key (PFState Key X Inp) (result PSState) :=
    {| convert_filter_to_smoother_state := ps_convert;
       smoother_prepare := ps_prepare;
       smoother_combine := fun r1 r2 => bind r1 (fun s1 => bind r2 (fun s2 => ps_combine s1 s2)) |}.

  (** ** backward kernels *)
  (** tracing.py:16-45 *)
  Definition tracing_simulate : BackwardSampling :=
    fun _ x0_all _ _ _ x1_ancestor_indices =>
      Ok (gather x0_all x1_ancestor_indices dX, x1_ancestor_indices).

  (** exact_sampling.py:18-35 *)
  Definition log_weights_single (x0 x1 : X) (log_weight_x0 : ext) (log_density : X -> X -> ext) : ext :=
    eadd log_weight_x0 (log_density x0 x1).
  (** exact_sampling.py:38-58 *)
  Definition backward_log_weights (x0_all : list X) (x1 : X) (log_weight_x0_all : list ext)
             (log_density : X -> X -> ext) : list ext :=
    let all := map2 (fun x0 w => log_weights_single x0 x1 w log_density) x0_all log_weight_x0_all in
    let lse := logsumexp all in
    map (fun l => esub l lse) all.
  (** jax.random.categorical (external): draws an index from log weights *)
  Variable categorical : Key -> list ext -> nat.
  (** exact_sampling.py:61-78 *)
  Definition simulate_single (key : Key) (x0_all : list X) (x1 : X) (log_weight_x0_all : list ext)
             (log_density : X -> X -> ext) : X * nat :=
    let sampled_index := categorical key (backward_log_weights x0_all x1 log_weight_x0_all log_density) in
    (nth sampled_index x0_all dX, sampled_index).
  (** exact_sampling.py:81-111 *)
  Definition exact_simulate : BackwardSampling :=
    fun key x0_all x1_all log_weight_x0_all log_density _ =>
      let keys := split key (length x1_all) in
      let out := map2 (fun k x1 => simulate_single k x0_all x1 log_weight_x0_all log_density) keys x1_all in
      Ok (map fst out, map snd out).

  (** ** MCMC kernel *)
  (** mcmc.py:59-70 for one smoother particle: [prop_idx] is the multinomial proposal, [u] the
      acceptance uniform, the carry is (idx, log p of idx). *)
  Definition imh_step (x0_all : list X) (x1 : X) (log_density : X -> X -> ext)
             (carry : nat * ext) (prop_idx : nat) (u : R) : nat * ext :=
    let '(idx, idx_log_p) := carry in
    let prop_log_p := log_density (nth prop_idx x0_all dX) x1 in
    let log_alpha := esub prop_log_p idx_log_p in
    if eltb (elog (Fin u)) log_alpha then (prop_idx, prop_log_p) else (idx, idx_log_p).
  (** mcmc.py:73-76: the initial carry *)
  Definition imh_init (x0_all : list X) (x1 : X) (log_density : X -> X -> ext) (idx : nat) : nat * ext :=
    (idx, log_density x1 (nth idx x0_all dX)).
  (** mcmc.py:53-76 for one smoother particle; [draws] lists the proposals and uniforms of the steps *)
  Definition imh_run (x0_all : list X) (x1 : X) (log_density : X -> X -> ext) (idx : nat)
             (draws : list (nat * R)) : X * nat :=
    let out := fold_left (fun c d => imh_step x0_all x1 log_density c (fst d) (snd d)) draws
                         (imh_init x0_all x1 log_density idx) in
    (nth (fst out) x0_all dX, fst out).
  (** mcmc.py:19-77: the multinomial resampler is given by its draws: for each step the list of
      proposals (one per smoother particle) and the list of acceptance uniforms *)
  Definition mcmc_simulate (draws : Key -> list (list nat * list R)) : BackwardSampling :=
    fun key x0_all x1_all log_weight_x0_all log_density x1_ancestor_indices =>
      bind (tracing_simulate key x0_all x1_all log_weight_x0_all log_density x1_ancestor_indices)
        (fun '(_, idx0) =>
           let out := map (fun s =>
               imh_run x0_all (nth s x1_all dX) log_density (nth s idx0 0%nat)
                 (map (fun pu => (nth s (fst pu) 0%nat, nth s (snd pu) 0)) (draws key)))
               (seq 0 (length idx0)) in
           Ok (map fst out, map snd out)).
End BackwardSampler.
Arguments PSState : clear implicits.

(** ** The built-in resamplers as resampling functions: the draws are functions of the key *)
Section BuiltinResamplers.
  Context {Key X : Type}.
  Variable dX : X.
  Variable cpu : bool.
  (** systematic.py:17-36 *)
  Definition systematic_fn (u : Key -> R) : Resampling Key X :=
    fun k l xs n => Ok (systematic_resampling dX cpu (u k) l xs n).
  (** multinomial.py:18-45 *)
  Definition multinomial_fn (us : Key -> nat -> list R) (perm : Key -> nat -> list nat) : Resampling Key X :=
    fun k l xs n => Ok (multinomial_resampling dX cpu (us k n) (perm k n) l xs n).
  (** killing.py:23-61 *)
  Definition killing_fn (vs : Key -> nat -> list R) (us : Key -> nat -> list R)
             (perm : Key -> nat -> list nat) : Resampling Key X :=
    fun k l xs n => killing_resampling dX cpu (vs k n) (us k n) (perm k n) l xs n.
  (** adaptive.py:18-72 *)
  Definition adaptive_fn (f : Resampling Key X) (threshold : R) : Resampling Key X :=
    fun k l xs n => ess_decorator f threshold k l xs n.
End BuiltinResamplers.
