(** Runs in which log potentials may be -inf, so that particles, possibly all of them, can die. *)
From Coq Require Import Reals List Arith.
From Verif Require Import Ext ScanModel DiscreteSpec ResamplingSpec.
Import ListNotations.
Open Scope R_scope.

(** what a resampler has to do when every incoming log weight is -inf: return [n] particles with
    usable weights (which particles does not matter) *)
Definition resampler_revives {Key X} (f : Key -> list ext -> list X -> nat -> result (list nat * list ext * list X)) : Prop :=
  forall k xs n, (0 < n)%nat -> length xs = n ->
    exists idx lw ys, f k (repeat NInf n) xs n = Ok (idx, lw, ys) /\
      length idx = n /\ length lw = n /\ length ys = n /\ valid_logits lw.

(** the integral estimate carried by a log normalising constant [z], log weights [lw] and particle
    values [v]: exp z times the weighted average, and zero when z = -inf *)
Definition estimate (z : ext) (lw : list ext) (v : list R) (e : R) : Prop :=
  (z = NInf /\ e = 0) \/
  (exists r, z = Fin r /\ valid_logits lw /\ e = exp r * lsum (fun i => wt lw i * nth i v 0) (seq 0 (length v))).
