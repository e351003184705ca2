(** What resampling is supposed to do, stated with real weights and integrals only. *)
From Coq Require Import Reals List Arith.
From Verif Require Import Ext DiscreteSpec.
Import ListNotations.
Open Scope R_scope.

(** Log weights that describe a weight vector: finite or -inf, not all -inf. *)
Definition is_logit (e : ext) : Prop := e = NInf \/ exists x, e = Fin x.
Definition valid_logits (l : list ext) : Prop :=
  Forall is_logit l /\ Exists (fun e => exists x, e = Fin x) l.
(** unnormalised weight *)
Definition uw (e : ext) : R := match e with Fin x => exp x | _ => 0 end.
(** the [i]-th normalised weight *)
Definition wt (l : list ext) (i : nat) : R := uw (nth i l NInf) / lsum uw l.
(** sum of the first [i] weights *)
Definition cdf (w : nat -> R) (i : nat) : R := lsum w (seq 0 i).
(** [i] is the generalised inverse at [u] of the CDF of weights [w] over [0..N-1] *)
Definition inverse_at (N : nat) (w : nat -> R) (u : R) (i : nat) : Prop :=
  (i < N)%nat /\ (i = 0%nat \/ cdf w i < u) /\ (u <= cdf w (S i) \/ i = (N - 1)%nat).
Definition sorted (l : list R) : Prop :=
  forall a b, (a <= b < length l)%nat -> nth a l 0 <= nth b l 0.
Definition sorted_nat (l : list nat) : Prop :=
  forall a b, (a <= b < length l)%nat -> (nth a l 0 <= nth b l 0)%nat.
(** number of offspring of particle [i] *)
Definition copies (idx : list nat) (i : nat) : nat := count_occ Nat.eq_dec idx i.
(** effective sample size of weights [v] (unnormalised) *)
Definition ess_spec (v : list R) : R := (lsum (fun x => x) v) ^ 2 / lsum (fun x => x ^ 2) v.
