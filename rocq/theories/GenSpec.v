(** What generate.py should produce: data simulated from the model that is returned, from independent draws. *)
From Coq Require Import Reals List.
From Coquelicot Require RInt.
From mathcomp Require Import all_ssreflect all_algebra.
From Verif Require Import RStruct.
From Verif Require UnbiasedSpec.
Set Implicit Arguments.
Unset Strict Implicit.
Unset Printing Implicit Defensive.
Local Open Scope ring_scope.
Import GRing.Theory.

(** squared Euclidean norm *)
Definition normsq n (v : 'cV[R]_n) : R := \sum_i v i ord0 ^+ 2.

(** keys form a tree; a child determines its parent and its position (whether or not it also depends on
    the number of children asked for), and its depth *)
Definition key_tree {Key} (split : Key -> nat -> list Key) (depth : Key -> nat) : Prop :=
  [/\ forall k n, List.length (split k n) = n,
      forall k n i k' n' i' c, List.nth_error (split k n) i = Some c -> List.nth_error (split k' n') i' = Some c ->
        k = k' /\ i = i' &
      forall k n c, List.In c (split k n) -> depth c = (depth k).+1].

(** the entries of an array of standard normal variables have mean 0, variance 1, and are uncorrelated *)
Definition normal_moments {U} (mean : (U -> R) -> R) (good : (U -> R) -> Prop) (m n : nat) (z : U -> 'M[R]_(m, n)) : Prop :=
  forall i j,
    [/\ good (fun u => z u i j), mean (fun u => z u i j) = 0 &
     forall k l, good (fun u => z u i j * z u k l) /\
       mean (fun u => z u i j * z u k l) = if (i == k) && (j == l) then 1 else 0].
(** every entry of an array of uniform variables is uniform on [0,1] *)
Definition uniform_entries {U} (mean : (U -> R) -> R) (good : (U -> R) -> Prop) (m n : nat) (z : U -> 'M[R]_(m, n)) : Prop :=
  forall i j (phi : R -> R), RInt.ex_RInt (V := Hierarchy.R_NormedModule) phi 0 1 ->
    good (fun u => phi (z u i j)) /\ mean (fun u => phi (z u i j)) = RInt.RInt (V := Hierarchy.R_CompleteNormedModule) phi 0 1.
(** the lower triangle, diagonal included *)
Definition lower n (A : 'M[R]_n) : 'M[R]_n := \matrix_(i, j) (if (j <= i)%N then A i j else 0).
