(** Specification-side notions for sequential Monte Carlo. *)
From Coq Require Import Reals List Arith.
From Verif Require Import Ext ScanModel DiscreteSpec ResamplingSpec.
Import ListNotations.
Open Scope R_scope.

(** adding a constant to every log weight *)
Definition shift_logits (c : R) (l : list ext) : list ext := map (fun e => eadd e (Fin c)) l.

(** average of exp(pot_i) under the normalised weights of [lw] *)
Definition weighted_average (lw : list ext) (pot : nat -> ext) : R :=
  lsum (fun i => wt lw i * uw (pot i)) (seq 0 (length lw)).

Section Contracts.
  Context {Key X : Type}.
  Variable dX : X.
  Variable f : Key -> list ext -> list X -> nat -> result (list nat * list ext * list X).

  (** contract of a resampling function: the new log weights are valid, there are [n] of everything,
      indices point into the old particles and the new particles are the ones pointed to *)
  Definition resampler_ok : Prop :=
    forall k l xs n idx lw ys,
      valid_logits l -> length xs = length l -> (0 < n)%nat ->
      f k l xs n = Ok (idx, lw, ys) ->
      length idx = n /\ length lw = n /\ length ys = n /\ valid_logits lw /\
      (forall j, (j < n)%nat ->
         (nth j idx 0 < length l)%nat /\ nth j ys dX = nth (nth j idx 0%nat) xs dX).

  (** rescaling the incoming weights only rescales the outgoing ones *)
  Definition resampler_scale_free : Prop :=
    forall k l xs n c idx lw ys,
      valid_logits l -> f k l xs n = Ok (idx, lw, ys) ->
      exists d, f k (shift_logits c l) xs n = Ok (idx, shift_logits d lw, ys).

  (** the resampler always returns zero log weights *)
  Definition resampler_uniform : Prop :=
    forall k l xs n idx lw ys, f k l xs n = Ok (idx, lw, ys) -> lw = repeat (Fin 0) n.
End Contracts.

(** ** Backward sampling *)
(** exact backward probabilities of the ancestors: W_i exp(ld_i) normalised *)
Definition backward_prob (lw : list ext) (ld : nat -> ext) (i : nat) : R :=
  uw (nth i lw NInf) * uw (ld i) /
  lsum (fun k => uw (nth k lw NInf) * uw (ld k)) (seq 0 (length lw)).

(** ** Law of a Markov chain driven by a proposal drawn with probabilities [wt lw] and an independent
    uniform on [0,1]: probability of being at index [m] after [n] steps from carry [c] *)
From Coquelicot Require Import Coquelicot.
Fixpoint chain_law (step : nat * ext -> nat -> R -> nat * ext) (lw : list ext) (n : nat)
         (c : nat * ext) (m : nat) : R :=
  match n with
  | O => if Nat.eqb (fst c) m then 1 else 0
  | S n' => lsum (fun j => wt lw j * RInt (fun u => chain_law step lw n' (step c j u) m) 0 1)
                 (seq 0 (length lw))
  end.

(** a resampler that never raises on valid input of matching size *)
Definition resampler_total {Key X} (f : Key -> list ext -> list X -> nat -> result (list nat * list ext * list X)) : Prop :=
  forall k l xs, valid_logits l -> length xs = length l -> exists out, f k l xs (length l) = Ok out.
