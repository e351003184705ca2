(** Specification: uniform generators with finitely many outputs, and averages over all their outputs. *)
From Coq Require Import Reals List Arith.
From Verif Require Import DiscreteSpec.
Import ListNotations.
Open Scope R_scope.

(** the [M] equally likely outputs 0, 1/M, ..., (M-1)/M of a generator with resolution 1/M
    (jax.random.uniform in single precision: M = 2^23) *)
Definition grid (M : nat) : list R := map (fun i => INR i / INR M) (seq 0 M).
(** all sequences of [k] outputs *)
Fixpoint draws (M k : nat) : list (list R) :=
  match k with
  | O => [[]]
  | S k' => flat_map (fun u => map (cons u) (draws M k')) (grid M)
  end.
(** expectation of [f] under [k] independent outputs *)
Definition average (M k : nat) (f : list R -> R) : R := lsum f (draws M k) / INR (length (draws M k)).
(** indicator function *)
Definition indicator {P : Prop} (d : {P} + {~ P}) : R := if d then 1 else 0.
