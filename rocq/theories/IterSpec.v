(** Specification: expectations over several independent draws uniform on [0,1], as iterated Riemann integrals. *)
From Coq Require Import Reals List Arith.
From Coquelicot Require Import Coquelicot.
From Verif Require Import DiscreteSpec.
Import ListNotations.
Open Scope R_scope.

(** mean of [f] over [k] independent uniform draws *)
Fixpoint imean (k : nat) (f : list R -> R) : R :=
  match k with
  | O => f []
  | S k' => RInt (fun u => imean k' (fun us => f (u :: us))) 0 1
  end.
(** the integrals above exist *)
Fixpoint igood (k : nat) (f : list R -> R) : Prop :=
  match k with
  | O => True
  | S k' => (forall u, 0 < u < 1 -> igood k' (fun us => f (u :: us))) /\
            ex_RInt (fun u => imean k' (fun us => f (u :: us))) 0 1
  end.
(** number of draws that are at most [x] *)
Definition below (x : R) (vs : list R) : nat := length (List.filter (fun v => if Rle_dec v x then true else false) vs).
(** probability that [j] of [n] independent events of probability [x] occur, at least *)
Fixpoint tail (x : R) (n j : nat) : R :=
  match j, n with
  | O, _ => 1
  | S _, O => 0
  | S j', S n' => x * tail x n' j' + (1 - x) * tail x n' j
  end.
(** indicator that a count is at least [j] *)
Definition at_least (j m : nat) : R := if (j <=? m)%nat then 1 else 0.
(** number of indices that are at most [i] *)
Definition count_le (i : nat) (idx : list nat) : nat := length (List.filter (fun k => k <=? i)%nat idx).
(** all permutations of a list, and the mean over them *)
Fixpoint inserts {A} (a : A) (p : list A) : list (list A) :=
  (a :: p) :: match p with [] => [] | b :: r => map (cons b) (inserts a r) end.
Fixpoint perms {A} (l : list A) : list (list A) :=
  match l with [] => [[]] | a :: r => flat_map (inserts a) (perms r) end.
Definition perm_mean (n : nat) (f : list nat -> R) : R := lsum f (perms (seq 0 n)) / INR (fact n).
