(** Model of the documented online example docs/examples/online_stoch_vol.md: the callbacks of the
    stochastic volatility model and the prediction and update steps.  Times and states are real
    numbers; a log return is a real number or NaN ([None] = missing; infinite returns are not modelled).  Data loading and plots are not
    modelled.  [normal key] is [random.normal(key, ())]. *)
From Coq Require Import Reals List Arith Bool.
From Verif Require Import Ext ScanModel ResamplingModel SmcModel.
Import ListNotations.
Open Scope R_scope.

(** online_stoch_vol.md:87-90 *)
Record ObservationData := MkObs { time : R; time_prev : R; log_return : option R }.

(** jax.scipy.stats.norm.logpdf (external): -(log(2 pi scale^2) + (x - loc)^2 / scale^2) / 2 *)
Definition norm_logpdf (x loc scale : ext) : ext :=
  let scale_sqrd := emul scale scale in
  let log_normalizer := elog (emul (Fin (2 * PI)) scale_sqrd) in
  let d := esub x loc in
  let quadratic := ediv (emul d d) scale_sqrd in
  ediv (eopp (eadd log_normalizer quadratic)) (Fin 2).

Definition of_opt (o : option R) : ext := match o with Some r => Fin r | None => NaN end.
(** jnp.isnan *)
Definition e_isnan (e : ext) : bool := match e with NaN => true | _ => false end.

Section Model.
  Context {Key : Type}.
  Variable normal : Key -> R.
  (** online_stoch_vol.md:146-150: the hyperparameters; the documented values are in [doc_*] below *)
  Variables mu theta sigma init_mean init_std : R.

  (** online_stoch_vol.md:157-158 *)
  Definition sv_init_sample (key : Key) (_ : ObservationData) : R := init_mean + init_std * normal key.

  (** online_stoch_vol.md:161-166 *)
  Definition sv_mean (state dt : R) : R := mu + (state - mu) * exp (- theta * dt).
  Definition sv_var (dt : R) : R := sigma ^ 2 * (1 - exp (- 2 * theta * dt)) / (2 * theta).
  Definition sv_propagate_sample (key : Key) (state : R) (model_inputs : ObservationData) : R :=
    let dt := time model_inputs - time_prev model_inputs in
    let mean := sv_mean state dt in
    let var := sv_var dt in
    let std := sqrt var in
    mean + std * normal key.

  (** online_stoch_vol.md:169-181; [jnp.where] *)
  Definition sv_log_potential (state_prev state : R) (model_inputs : ObservationData) : ext :=
    let is_missing := e_isnan (of_opt (log_return model_inputs)) in
    let log_vol := state in
    let vol := eexp (emul (Fin (1 / 2)) (Fin log_vol)) in
    let log_pot := norm_logpdf (of_opt (log_return model_inputs)) (Fin 0) vol in
    if is_missing then Fin 0 else log_pot.

  Variable split : Key -> nat -> list Key.
  Variable resampling_fn : Resampling Key R.
  Variable n_particles : nat.
  Variable dummy : R.

  (** online_stoch_vol.md:201-207 *)
  Definition sv_pf : Filter ObservationData Key (result (PFState Key R ObservationData)) :=
    pf_build_filter split sv_init_sample sv_propagate_sample sv_log_potential resampling_fn n_particles dummy.

  (** online_stoch_vol.md:229-237 *)
  Definition sv_predict (filter_state : PFState Key R ObservationData) (new_data : ObservationData)
             (predict_key : Key) : result (PFState Key R ObservationData) :=
    let predict_model_inputs :=
      {| time := time new_data; time_prev := time_prev new_data; log_return := None |} in
    filter_combine sv_pf (Ok filter_state) (filter_prepare sv_pf predict_model_inputs (Some predict_key)).

  (** online_stoch_vol.md:289-291 *)
  Definition sv_update (filter_state : PFState Key R ObservationData) (new_data : ObservationData)
             (filter_key : Key) : result (PFState Key R ObservationData) :=
    filter_combine sv_pf (Ok filter_state) (filter_prepare sv_pf new_data (Some filter_key)).
End Model.

(** online_stoch_vol.md:146-150 *)
Definition doc_mu : R := 0.
Definition doc_theta : R := - ln (95 / 100).
Definition doc_sigma : R := 3 / 10.
Definition doc_init_mean : R := 0.
Definition doc_init_std : R := 1.
