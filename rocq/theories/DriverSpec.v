(** Specifications for the drivers, independent of scans: what an online forward pass and an online
    backward pass produce. *)
From Coq Require Import List Arith.
From Verif Require Import ScanModel.
Import ListNotations.

(** The states of an online forward pass: one state per input; the first comes from the
    initialisation, every other one from its predecessor and its own input and key. *)
Definition forward_run {In Key St} (obj : Filter In Key St)
           (inputs : list In) (keys : nat -> option Key) (states : list St) : Prop :=
  length states = length inputs /\
  (forall x, nth_error inputs 0 = Some x ->
     nth_error states 0 = Some (init_prepare obj x (keys 0))) /\
  (forall t x s, nth_error inputs (S t) = Some x -> nth_error states t = Some s ->
     nth_error states (S t) = Some (filter_combine obj s (filter_prepare obj x (keys (S t))))).

(** The states of a backward pass over [T] transitions. [trans] lists the inputs of the transitions
    0->1, ..., T-1->T. The last smoother state is the converted last filter state. *)
Definition backward_run {In Key FSt SSt} (obj : Smoother In Key FSt SSt)
           (fstates : list FSt) (trans : list In) (dummy : In) (keys : nat -> option Key)
           (states : list SSt) : Prop :=
  let T := length trans in
  length fstates = S T /\ length states = S T /\
  (forall fT, nth_error fstates T = Some fT ->
     nth_error states T = Some (convert_filter_to_smoother_state obj fT dummy (keys 0))) /\
  (forall t f x n, nth_error fstates t = Some f -> nth_error trans t = Some x ->
     nth_error states (S t) = Some n ->
     nth_error states t = Some (smoother_combine obj (smoother_prepare obj f x (keys (S t))) n)).

(** The key of child [t] of an optional key split [n] ways. *)
Definition child_key {Key} (split : Key -> nat -> list Key) (key : option Key) (n t : nat)
  : option Key :=
  match key with
  | None => None
  | Some k => nth_error (split k n) t
  end.

(** Contract of [random.split]: it returns the requested number of keys. *)
Definition split_ok {Key} (split : Key -> nat -> list Key) : Prop :=
  forall k n, length (split k n) = n.

(** [f] is associative on [D] up to [E], where [E] is an equivalence on [D] that [f] respects. *)
Record assoc_upto {A} (f : A -> A -> A) (D : A -> Prop) (E : A -> A -> Prop) : Prop := {
  au_refl : forall x, D x -> E x x;
  au_sym : forall x y, D x -> D y -> E x y -> E y x;
  au_trans : forall x y z, D x -> D y -> D z -> E x y -> E y z -> E x z;
  au_closed : forall x y, D x -> D y -> D (f x y);
  au_proper : forall x x' y y', D x -> D x' -> D y -> D y' -> E x x' -> E y y' -> E (f x y) (f x' y');
  au_assoc : forall x y z, D x -> D y -> D z -> E (f (f x y) z) (f x (f y z)) }.
