(** Extended floats: exact reals plus the IEEE special values.
    Simplifications with respect to floating point: no rounding, no overflow/underflow, and a single
    zero (treated as +0 when dividing by it). *)
From Coq Require Import Reals List.
Import ListNotations.
Open Scope R_scope.

Inductive ext := Fin (r : R) | PInf | NInf | NaN.

Definition eadd (a b : ext) : ext :=
  match a, b with
  | Fin x, Fin y => Fin (x + y)
  | NaN, _ | _, NaN => NaN
  | PInf, NInf | NInf, PInf => NaN
  | PInf, _ | _, PInf => PInf
  | NInf, _ | _, NInf => NInf
  end.
Definition eopp (a : ext) : ext :=
  match a with Fin x => Fin (- x) | PInf => NInf | NInf => PInf | NaN => NaN end.
Definition esub (a b : ext) : ext := eadd a (eopp b).

(** sign-of-a-real helper: infinity times/over a real *)
Definition inf_times (pos : bool) (x : R) : ext :=
  if Rlt_dec 0 x then (if pos then PInf else NInf)
  else if Rlt_dec x 0 then (if pos then NInf else PInf)
  else NaN.
Definition emul (a b : ext) : ext :=
  match a, b with
  | Fin x, Fin y => Fin (x * y)
  | NaN, _ | _, NaN => NaN
  | PInf, Fin x | Fin x, PInf => inf_times true x
  | NInf, Fin x | Fin x, NInf => inf_times false x
  | PInf, PInf | NInf, NInf => PInf
  | PInf, NInf | NInf, PInf => NInf
  end.
Definition ediv (a b : ext) : ext :=
  match a, b with
  | NaN, _ | _, NaN => NaN
  | Fin x, Fin y => if Req_EM_T y 0 then inf_times true x else Fin (x / y)
  | Fin _, _ => Fin 0
  | PInf, Fin y => if Req_EM_T y 0 then PInf else inf_times true y
  | NInf, Fin y => if Req_EM_T y 0 then NInf else inf_times false y
  | _, _ => NaN
  end.
Definition eexp (a : ext) : ext :=
  match a with Fin x => Fin (exp x) | PInf => PInf | NInf => Fin 0 | NaN => NaN end.
Definition elog (a : ext) : ext :=
  match a with
  | Fin x => if Rlt_dec 0 x then Fin (ln x) else if Req_EM_T x 0 then NInf else NaN
  | PInf => PInf
  | NInf => NaN
  | NaN => NaN
  end.
(** jnp.maximum / jnp.max propagate NaN *)
Definition emax (a b : ext) : ext :=
  match a, b with
  | NaN, _ | _, NaN => NaN
  | PInf, _ | _, PInf => PInf
  | NInf, x => x
  | x, NInf => x
  | Fin x, Fin y => Fin (Rmax x y)
  end.

(** Arrays are functions of the index; only indices below the dimension are meaningful. *)
(** [jnp.sum] over an axis of length [n] *)
Fixpoint esum (n : nat) (f : nat -> ext) : ext :=
  match n with
  | O => Fin 0
  | S n' => eadd (esum n' f) (f n')
  end.
(** [jnp.max] over an axis of length [n] (n >= 1; -inf is the unit, an empty axis raises in JAX) *)
Fixpoint emaxn (n : nat) (f : nat -> ext) : ext :=
  match n with
  | O => NInf
  | S n' => emax (emaxn n' f) (f n')
  end.
