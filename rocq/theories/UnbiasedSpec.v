(** Expectations over independent random draws, and the Feynman-Kac measures they should estimate.

    The random primitives (sampling, resampling) draw a seed from their key: [w k] is the seed drawn
    at key [k].  Seeds at different keys are independent and identically distributed; [mean f] is the
    expectation of [f] of one seed, for functions [f] with [good f] (integrable functions). *)
From Coq Require Import Reals List Arith.
From Verif Require Import Ext ScanModel DiscreteSpec ResamplingSpec.
Import ListNotations.
Open Scope R_scope.

(** a normalised linear functional *)
Definition expectation_ok {U} (mean : (U -> R) -> R) (good : (U -> R) -> Prop) : Prop :=
  (forall c, good (fun _ => c) /\ mean (fun _ => c) = c) /\
  (forall f g a b, good f -> good g ->
     good (fun u => a * f u + b * g u) /\ mean (fun u => a * f u + b * g u) = a * mean f + b * mean g).

Section Seeds.
  Context {Key U : Type}.
  Variable keq : forall a b : Key, {a = b} + {a <> b}.
  Variable mean : (U -> R) -> R.
  Definition assign (w : Key -> U) (k : Key) (u : U) : Key -> U := fun k' => if keq k k' then u else w k'.
  (** expectation of [F] when the seeds of the keys [ks] are drawn independently *)
  Fixpoint expectation (ks : list Key) (F : (Key -> U) -> R) (w : Key -> U) : R :=
    match ks with
    | [] => F w
    | k :: ks' => mean (fun u => expectation ks' F (assign w k u))
    end.
End Seeds.

Section FeynmanKac.
  Context {U X Inp : Type}.
  Variable mean : (U -> R) -> R.
  Variable good : (U -> R) -> Prop.
  Variable initial : U -> Inp -> X.
  Variable propagate : U -> X -> Inp -> X.
  Variable log_potential : X -> X -> Inp -> ext.

  (** integral of phi(x_T) prod_t G_t(x_{t-1}, x_t) over the chain started at [x] *)
  Fixpoint fk_from (inputs : list Inp) (phi : X -> R) (x : X) : R :=
    match inputs with
    | [] => phi x
    | i :: r => mean (fun u => let y := propagate u x i in uw (log_potential x y i) * fk_from r phi y)
    end.
  (** the unnormalised Feynman-Kac measure of [phi]; its total mass (phi = 1) is the evidence *)
  Definition feynman_kac (x0 : Inp) (inputs : list Inp) (phi : X -> R) : R :=
    mean (fun u => fk_from inputs phi (initial u x0)).

  (** the integrals above exist *)
  Fixpoint fk_from_good (inputs : list Inp) (phi : X -> R) : Prop :=
    match inputs with
    | [] => True
    | i :: r => (forall x, good (fun u => let y := propagate u x i in uw (log_potential x y i) * fk_from r phi y))
                /\ fk_from_good r phi
    end.
  Definition fk_good (x0 : Inp) (inputs : list Inp) (phi : X -> R) : Prop :=
    good (fun u => fk_from inputs phi (initial u x0)) /\ fk_from_good inputs phi.

  (** unbiased resampling of [N] particles: the resampled weighted particles have the weighted mean of the old ones *)
  Definition resampler_unbiased (N : nat)
             (res : U -> list ext -> list X -> nat -> result (list nat * list ext * list X)) : Prop :=
    forall l xs (phi : nat -> R), valid_logits l -> length l = N -> length xs = length l ->
      let f u := match res u l xs (length l) with
                 | Ok (idx, lw, _) => lsum (fun j => wt lw j * phi (nth j idx 0%nat)) (seq 0 (length l))
                 | Err _ => 0
                 end in
      good f /\ mean f = lsum (fun i => wt l i * phi i) (seq 0 (length l)).
End FeynmanKac.
