(** Specification of hidden Markov models by explicit sums over all state paths. *)
From Coq Require Import Reals List Arith.
Import ListNotations.
Open Scope R_scope.

(** Sum of a function over a list. *)
Fixpoint lsum {A} (g : A -> R) (l : list A) : R :=
  match l with [] => 0 | a :: l' => g a + lsum g l' end.

(** All state paths with [n] entries below [K]. *)
Fixpoint paths (K n : nat) : list (list nat) :=
  match n with
  | O => [[]]
  | S n' => flat_map (fun x => map (cons x) (paths K n')) (seq 0 K)
  end.

(** One time step of an HMM: transition probabilities and likelihood of the observation. *)
Record step := { tr : nat -> nat -> R; lik : nat -> R }.

(** Probability of moving along [p] from [x], times the likelihoods met on the way. *)
Fixpoint walk (x : nat) (ss : list step) (p : list nat) : R :=
  match ss, p with
  | s :: ss', y :: p' => tr s x y * lik s y * walk y ss' p'
  | _, _ => 1
  end.
(** Joint probability p(x_{0:t}, y_{1:t}) of a path. *)
Definition joint (init : nat -> R) (ss : list step) (p : list nat) : R :=
  match p with
  | [] => 0
  | x :: p' => init x * walk x ss p'
  end.

(** p(y_{1:t}) *)
Definition evidence (K : nat) (init : nat -> R) (ss : list step) : R :=
  lsum (joint init ss) (paths K (S (length ss))).
(** p(x_s = j, y_{1:t}) *)
Definition joint_at (K : nat) (init : nat -> R) (ss : list step) (s j : nat) : R :=
  lsum (fun p => if Nat.eqb (nth s p 0%nat) j then joint init ss p else 0)
       (paths K (S (length ss))).
(** p(x_s = j | y_{1:t}) *)
Definition posterior (K : nat) (init : nat -> R) (ss : list step) (s j : nat) : R :=
  joint_at K init ss s j / evidence K init ss.

Definition distribution (K : nat) (p : nat -> R) : Prop :=
  (forall i, (i < K)%nat -> 0 <= p i) /\ lsum p (seq 0 K) = 1.
Definition stochastic (K : nat) (A : nat -> nat -> R) : Prop :=
  forall i, (i < K)%nat -> distribution K (A i).
