(** How the callbacks of the discrete filter/smoother denote an HMM of DiscreteSpec.v. *)
From Coq Require Import Reals List Arith.
From Verif Require Import Ext DiscreteModel DiscreteSpec.
Import ListNotations.
Open Scope R_scope.

(** The array [v] holds the initial distribution [p]. *)
Definition good_init (K : nat) (v : nat -> ext) (p : nat -> R) : Prop :=
  distribution K p /\ forall j, (j < K)%nat -> v j = Fin (p j).

(** The arrays hold the transition matrix and the log likelihoods of the step; a log likelihood is a
    real number or -inf (likelihood zero). *)
Definition good_step (K : nat) (A : nat -> nat -> ext) (lls : nat -> ext) (s : step) : Prop :=
  stochastic K (tr s) /\
  (forall i j, (i < K)%nat -> (j < K)%nat -> A i j = Fin (tr s i j)) /\
  (forall j, (j < K)%nat -> eexp (lls j) = Fin (lik s j)).

(** Every state, reachable or not, can move to a state compatible with the observation. *)
Definition rows_possible (K : nat) (s : step) : Prop :=
  forall i, (i < K)%nat -> 0 < lsum (fun j => tr s i j * lik s j) (seq 0 K).

(** All log likelihoods are finite. *)
Definition finite_lls (K : nat) (s : step) : Prop := forall j, (j < K)%nat -> 0 < lik s j.

(** A scan element whose kernel rows are probability vectors and whose log normalisers are finite. *)
Definition normalised_elem (K : nat) (e : FilterScanElement) : Prop :=
  exists (p : nat -> nat -> R) (g : nat -> R),
    stochastic K p /\
    (forall i j, (i < K)%nat -> (j < K)%nat -> f_ e i j = Fin (p i j)) /\
    (forall i, (i < K)%nat -> log_g e i = Fin (g i)).

(** Two scan elements hold the same K x K and K arrays. *)
Definition same_elem (K : nat) (x y : FilterScanElement) : Prop :=
  (forall i j, (i < K)%nat -> (j < K)%nat -> f_ x i j = f_ y i j) /\
  (forall i, (i < K)%nat -> log_g x i = log_g y i).
