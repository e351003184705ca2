(** Specification: the textbook Kalman filter and Rauch-Tung-Striebel smoother on means and
    covariances, one observation vector per step, missing entries dropped. Nothing here refers to the
    model definitions. *)
From Coq Require Import Reals List.
From mathcomp Require Import all_ssreflect all_algebra.
From Verif Require Import RStruct GaussSpec.
Set Implicit Arguments.
Unset Strict Implicit.
Unset Printing Implicit Defensive.
Local Open Scope ring_scope.
Import GRing.Theory.

(** a Gaussian belief and the accumulated log likelihood *)
Record belief n := Belief { bmean : 'cV[R]_n; bcov : 'M[R]_n; bell : R }.
(** parameters of one step: x' = F x + c + N(0, Q), y = H x' + d + N(0, Rn) *)
Record lgstep nx ny := LgStep {
  lF : 'M[R]_nx; lc : 'cV[R]_nx; lQ : 'M[R]_nx;
  lH : 'M[R]_(ny, nx); ld : 'cV[R]_ny; lR : 'M[R]_ny; ly : 'cV[option R]_ny }.

Section Spec.
Variables nx ny : nat.
Implicit Types (b : belief nx) (s : lgstep nx ny).
Definition pred_mean b s := lF s *m bmean b + lc s.
Definition pred_cov b s := lF s *m bcov b *m (lF s)^T + lQ s.
(** the observed part of the observation equation *)
Definition obsH s := obs_rows (ly s) (lH s).
Definition obsd s := obs_rows (ly s) (ld s).
Definition obsR s := obs_block (ly s) (lR s).
Definition obsy s := obs_values (ly s).
Definition kf_step b s : belief nx :=
  Belief (cond_mean (pred_mean b s) (pred_cov b s) (obsH s) (obsd s) (obsR s) (obsy s))
         (cond_cov (pred_cov b s) (obsH s) (obsR s))
         (bell b + gauss (obsy s) (obsH s *m pred_mean b s + obsd s)
                         (innovation_cov (pred_cov b s) (obsH s) (obsR s))).
(** beliefs at times 0, 1, ..., length steps *)
Fixpoint kf_beliefs b (steps : list (lgstep nx ny)) : list (belief nx) :=
  b :: match steps with nil => nil | s :: rest => kf_beliefs (kf_step b s) rest end.

End Spec.

(** smoothing over the transition x' = F x + c + N(0, Q) out of the filtering belief N(m, P), when the
    smoothed next state has mean [m'] and covariance [P'] *)
Section Rts.
Variable n : nat.
Variables (m : 'cV[R]_n) (P F : 'M[R]_n) (c : 'cV[R]_n) (Q : 'M[R]_n).
Definition rts_pred : 'M[R]_n := F *m P *m F^T + Q.
Definition rts_gain : 'M[R]_n := P *m F^T *m invmx rts_pred.
Definition rts_mean (m' : 'cV[R]_n) : 'cV[R]_n := m + rts_gain *m (m' - (F *m m + c)).
Definition rts_cov (P' : 'M[R]_n) : 'M[R]_n := P + rts_gain *m (P' - rts_pred) *m rts_gain^T.
(** covariance of the state given the next state *)
Definition rts_cond_cov : 'M[R]_n := P - rts_gain *m rts_pred *m rts_gain^T.
End Rts.

(** ** log densities of whole trajectories *)
Section Trajectory.
Variables nx ny : nat.
Variable x : nat -> 'cV[R]_nx.
(** log p(x_0, ..., x_T, y_1, ..., y_T); step [t] leads from time [t] to time [t + 1] *)
Definition log_joint (m0 : 'cV[R]_nx) (P0 : 'M[R]_nx) (step : nat -> lgstep nx ny) (T : nat) : R :=
  gauss (x 0) m0 P0
  + \sum_(t < T) (gauss (x t.+1) (lF (step t) *m x t + lc (step t)) (lQ (step t))
                  + gauss (obsy (step t)) (obsH (step t) *m x t.+1 + obsd (step t)) (obsR (step t))).
(** log density of x_T ~ N(m, P) followed by backward kernels x_t ~ N(G_t x_{t+1} + g_t, V_t) *)
Definition log_backward (m : 'cV[R]_nx) (P : 'M[R]_nx) (G : nat -> 'M[R]_nx) (g : nat -> 'cV[R]_nx)
    (V : nat -> 'M[R]_nx) (T : nat) : R :=
  gauss (x T) m P + \sum_(t < T) gauss (x t) (G t *m x t.+1 + g t) (V t).
End Trajectory.
