(** What is assumed of rounded arithmetic, and the measure of relative accuracy. *)
From Coq Require Import Reals List Arith Permutation.
From Verif Require Import FloatDiscreteModel.
Import ListNotations.
Open Scope R_scope.

(** Every operation has relative error at most [u] (the standard model of floating-point arithmetic;
    it holds in IEEE formats as long as no result under- or overflows). *)
Definition approx (u a b : R) : Prop := Rabs (a - b) <= u * Rabs b.
Definition arith_ok (u : R) (ar : arith) : Prop :=
  0 <= u < 1 /\
  (forall a b, approx u (fadd ar a b) (a + b)) /\
  (forall a b, approx u (fsub ar a b) (a - b)) /\
  (forall a b, approx u (fmul ar a b) (a * b)) /\
  (forall a b, b <> 0 -> approx u (fdiv ar a b) (a / b)) /\
  (forall a, approx u (fexp ar a) (exp a)) /\
  (forall a, 0 < a -> approx u (flog ar a) (ln a)).

(** The order of summation visits every position below [K] once. *)
Fixpoint leaves (o : order) : list nat :=
  match o with Leaf i => [i] | Node l r => leaves l ++ leaves r end.
Definition order_ok (K : nat) (o : order) : Prop := Permutation (leaves o) (seq 0 K).

(** [x] agrees with [y] up to a factor between exp(-d) and exp(d); in particular [x = 0] iff [y = 0]. *)
Definition near (d x y : R) : Prop := exp (- d) * y <= x <= exp d * y.
