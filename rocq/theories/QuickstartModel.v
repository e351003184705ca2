(** Model of docs/quickstart.md (ranking football teams): the log densities passed to the Taylor filter and
    the two computations of error bars.  Real arithmetic; reading the data and plotting are left out. *)
From Coq Require Import Reals.
Local Open Scope R_scope.

(** jax.nn.sigmoid *)
Definition sigmoid (x : R) : R := / (1 + exp (- x)).

(** docs/quickstart.md:220-225: the entry [result] of prob_array for the skill difference [d] = x_home - x_away;
    JAX clamps an index beyond the end to the last entry *)
Definition match_prob (epsilon : R) (result : nat) (d : R) : R :=
  let prob_home_win := sigmoid (d - epsilon) in
  let prob_away_win := 1 - sigmoid (d + epsilon) in
  let prob_draw := 1 - prob_home_win - prob_away_win in
  match result with O => prob_draw | S O => prob_home_win | _ => prob_away_win end.

(** docs/quickstart.md:129-131: the coding of the results *)
Definition match_result (home_goals away_goals : nat) : nat :=
  if Nat.ltb away_goals home_goals then 1%nat else if Nat.ltb home_goals away_goals then 2%nat else 0%nat.

(** docs/quickstart.md:204-207: the standard deviation of one day-to-day step, [nugget] = 1e-8 *)
Definition skill_step_sd (tau nugget time time_prev : R) : R := sqrt (tau ^ 2 * (time - time_prev)) + nugget.

(** jax.scipy.stats.norm.logpdf (external) *)
Definition norm_logpdf1 (x loc scale : R) : R := - (ln (2 * PI * (scale * scale)) + (x - loc) * (x - loc) / (scale * scale)) / 2.

(** docs/quickstart.md:302: sqrt(diag(cov) ** 2), for one diagonal entry *)
Definition latest_std (variance : R) : R := sqrt (variance ^ 2).
(** docs/quickstart.md:346: sqrt(diag(cov)), for one diagonal entry *)
Definition historical_std (variance : R) : R := sqrt variance.

From mathcomp Require Import all_ssreflect all_algebra.
From Verif Require Import RStruct LinearizeModel LinKalmanModel.
From Verif Require ScanModel.
Set Implicit Arguments.
Unset Strict Implicit.
Unset Printing Implicit Defensive.
Local Open Scope ring_scope.

(** docs/quickstart.md:216-225: log_potential; [None] is NaN *)
Definition match_log_potential n (home away : 'I_n) (epsilon : R) (result : nat) (x : 'cV[option R]_n) : option R :=
  match x home ord0, x away ord0 with
  | Some x_home, Some x_away => Some (ln (match_prob epsilon result (x_home - x_away)))
  | _, _ => None
  end.

(** norm.logpdf(x, loc, scale).sum() *)
Definition norm_logpdf_sum n (x loc : 'cV[option R]_n) (scale : R) : option R :=
  if [forall i, isSome (x i ord0) && isSome (loc i ord0)]
  then Some (\sum_i norm_logpdf1 (odflt 0 (x i ord0)) (odflt 0 (loc i ord0)) scale) else None.

(** docs/quickstart.md:157-161; the dummy team indices and result of the first entry are never read and can be anything *)
Record MatchData (num_teams : nat) := MkMatch {
  time : R; time_prev : R; home_index : 'I_num_teams; away_index : 'I_num_teams; result : nat }.

Section Football.
Variable num_teams : nat.
Variables init_sd tau epsilon nugget : R.
Notation Inp := (MatchData num_teams).
Notation St := (@LinState num_teams Inp).
(** docs/quickstart.md:192-196 *)
Definition get_init_log_density (model_inputs : Inp) : log_pot num_teams * 'cV[option R]_num_teams :=
  (fun x => norm_logpdf_sum x (const_mx (Some 0)) init_sd, const_mx (Some 0)).
(** docs/quickstart.md:199-210 *)
Definition get_dynamics_log_density (state : St) (model_inputs : Inp)
  : log_cond num_teams num_teams * 'cV[option R]_num_teams * 'cV[option R]_num_teams :=
  (fun x_prev x => norm_logpdf_sum x x_prev (skill_step_sd tau nugget (time model_inputs) (time_prev model_inputs)),
   const_mx (Some 0), const_mx (Some 0)).
(** docs/quickstart.md:213-227 *)
Definition get_observation_func (state : St) (model_inputs : Inp) : ObservationOutput num_teams :=
  Potential (match_log_potential (home_index model_inputs) (away_index model_inputs) epsilon (result model_inputs))
            (map_mx Some (lin_mean state)).
Variable Key : Type.
Variable tria : forall m k : nat, 'M[R]_(m, k) -> 'M[R]_m.
Variable jacobian : forall n p, ('cV[option R]_n -> 'cV[option R]_p) -> 'cV[option R]_n -> 'M[option R]_(p, n).
Variable svd : forall n, 'M[R]_n -> 'M[R]_n * 'rV[R]_n.
Variable grad : forall n, ('cV[option R]_n -> option R) -> 'cV[option R]_n -> 'cV[option R]_n.
Variables (dummy_mean : 'cV[R]_num_teams) (dummy_mx : 'M[R]_num_teams) (rtol : R).
(** docs/quickstart.md:248-253; [associative] is False by default *)
Definition football_filter : ScanModel.Filter Inp Key (option St) :=
  taylor_build_filter dummy_mean dummy_mx tria jacobian svd grad rtol true
    get_init_log_density get_dynamics_log_density get_observation_func false.
End Football.

(** docs/quickstart.md:301-302 and 343-346: the error bars of team [i] in the two plots *)
Definition latest_error_bar n (chol_cov : 'M[R]_n) (i : 'I_n) : R := latest_std ((chol_cov *m chol_cov^T) i i).
Definition historical_error_bar n (chol_cov : 'M[R]_n) (i : 'I_n) : R := historical_std ((chol_cov *m chol_cov^T) i i).
