(** Specification: the random source of one key, when resampling needs several uniforms and a permutation.
    A seed is a permutation of [0..N-1], [m] uniforms, and a draw [s] of another source used by the model. *)
From Coq Require Import Reals List Arith Permutation.
From Verif Require Import DiscreteSpec IterSpec.
Import ListNotations.
Open Scope R_scope.

Section Seed.
  Context {S : Type}.
  Variables (meanS : (S -> R) -> R) (goodS : (S -> R) -> Prop) (N m : nat).
  (** permutation uniform among all N!, uniforms independent *)
  Definition seed_mean (f : list nat * list R * S -> R) : R :=
    perm_mean N (fun p => imean m (fun us => meanS (fun s => f (p, us, s)))).
  Definition seed_good (f : list nat * list R * S -> R) : Prop :=
    forall p, Permutation p (seq 0 N) ->
      (forall us, length us = m -> List.Forall (fun u => 0 < u < 1) us -> goodS (fun s => f (p, us, s))) /\
      igood m (fun us => meanS (fun s => f (p, us, s))).
  (** the [n] uniforms starting at position [a]; missing or degenerate draws (probability 0) are replaced by 1/2 *)
  Definition regular (u : R) : R := if Rlt_dec 0 u then if Rlt_dec u 1 then u else 1/2 else 1/2.
  Definition draws_at (a n : nat) (x : list nat * list R * S) : list R :=
    map (fun k => regular (nth (a + k) (snd (fst x)) (1/2))) (seq 0 n).
  (** the permutation, when it has the right size *)
  Definition perm_at (n : nat) (x : list nat * list R * S) : list nat :=
    if in_dec (list_eq_dec Nat.eq_dec) (fst (fst x)) (perms (seq 0 n)) then fst (fst x) else seq 0 n.
End Seed.
