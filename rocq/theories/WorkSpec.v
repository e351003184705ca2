(** Specification of the cost of a pass over a time series: which combinations of which prepared
    elements produce a state, how many of them have to be done one after the other, and how many
    are done in total.  Independent of the drivers and of the scans. *)
From Coq Require Import List Arith.
Import ListNotations.

(** A formula over the prepared elements: element number [t], or the combination of two values. *)
Inductive term := Prep (t : nat) | Comb (a b : term).

(** Value of a formula for a combination operator and a list of prepared elements. *)
Fixpoint eval {A} (f : A -> A -> A) (d : A) (prepared : list A) (e : term) : A :=
  match e with
  | Prep t => nth t prepared d
  | Comb a b => f (eval f d prepared a) (eval f d prepared b)
  end.

(** The elements used, from left to right. *)
Fixpoint leaves (e : term) : list nat :=
  match e with Prep t => [t] | Comb a b => leaves a ++ leaves b end.

(** Length of the longest chain of combinations that need each other's result: the time needed
    with unlimited workers when a combination takes one unit. *)
Fixpoint depth (e : term) : nat :=
  match e with Prep _ => 0 | Comb a b => S (Nat.max (depth a) (depth b)) end.

(** The combinations that have to be computed to obtain the value of a formula. *)
Fixpoint combs (e : term) : list term :=
  match e with Prep _ => [] | Comb a b => Comb a b :: combs a ++ combs b end.

(** All the formulas [es] can be computed by computing each combination in [calls] once. *)
Definition computed_by (calls es : list term) : Prop :=
  forall e, In e es -> incl (combs e) calls.

(** A forward pass over [n] elements: value [t] combines elements 0, ..., t in this order. *)
Definition forward_terms (n : nat) (es : list term) : Prop :=
  length es = n /\ forall t e, nth_error es t = Some e -> leaves e = seq 0 (S t).

(** A backward pass over [n] elements: value [t] combines elements t, ..., n-1 in this order. *)
Definition backward_terms (n : nat) (es : list term) : Prop :=
  length es = n /\ forall t e, nth_error es t = Some e -> leaves e = seq t (n - t).
