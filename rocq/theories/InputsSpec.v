(** Specification of the bookkeeping of model inputs. *)
From Coq Require Import List.
From Verif Require Import ScanModel.

(** [rec s x]: state [s] carries the model inputs [x]. Every state of the list carries the inputs of
    its own position. *)
Definition carried {St Inp} (rec : St -> Inp -> Prop) (states : list St) (inputs : list Inp) : Prop :=
  forall t s x, nth_error states t = Some s -> nth_error inputs t = Some x -> rec s x.

(** the same for a field [proj] of states that are always there, of states that may be missing, and of
    states that may be replaced by an exception *)
Definition has {St Inp} (proj : St -> Inp) (s : St) (x : Inp) : Prop := proj s = x.
Definition has_if_some {St Inp} (proj : St -> Inp) (s : option St) (x : Inp) : Prop :=
  forall s', s = Some s' -> proj s' = x.
Definition has_if_ok {St Inp} (proj : St -> Inp) (s : result St) (x : Inp) : Prop :=
  forall s', s = Ok s' -> proj s' = x.
