(** Specification: second moments of particle estimates.

    For N particles resampled independently from their weights, the mean of the product of two estimates is a
    Feynman-Kac integral over two chains that move independently, except that with probability 1/N at every step
    both continue from one particle (the diagonal term). *)
From Coq Require Import Reals List Arith.
From Verif Require Import Ext ScanModel DiscreteSpec ResamplingSpec UnbiasedSpec.
Import ListNotations.
Open Scope R_scope.

Section Pairs.
  Context {U X Inp : Type}.
  Variable mean : (U -> R) -> R.
  Variable good : (U -> R) -> Prop.
  Variable initial : U -> Inp -> X.
  Variable propagate : U -> X -> Inp -> X.
  Variable log_potential : X -> X -> Inp -> ext.
  Variable N : nat.

  (** two different particles with integrand [H] (averaged over both orders of integration), or one particle with [D] *)
  Definition mix (H : U -> U -> R) (D : U -> R) : R :=
    (1 - / INR N) * ((mean (fun u => mean (fun v => H u v)) + mean (fun v => mean (fun u => H u v))) / 2) + / INR N * mean D.
  (** the integrals above exist *)
  Definition mix_good (H : U -> U -> R) (D : U -> R) : Prop :=
    (forall u, good (fun v => H u v)) /\ (forall v, good (fun u => H u v)) /\
    good (fun u => mean (fun v => H u v)) /\ good (fun v => mean (fun u => H u v)) /\ good D.
  Definition weighted (i : Inp) (P : X -> X -> R) (x y : X) (u v : U) : R :=
    let x' := propagate u x i in let y' := propagate v y i in
    uw (log_potential x x' i) * uw (log_potential y y' i) * P x' y'.
  Fixpoint pair_from (inputs : list Inp) (phi : X -> R) (x y : X) : R :=
    match inputs with
    | [] => phi x * phi y
    | i :: r => mix (weighted i (pair_from r phi) x y) (fun u => weighted i (pair_from r phi) x x u u)
    end.
  Fixpoint pair_from_good (inputs : list Inp) (phi : X -> R) : Prop :=
    match inputs with
    | [] => True
    | i :: r => (forall x y, mix_good (weighted i (pair_from r phi) x y) (fun u => weighted i (pair_from r phi) x x u u))
                /\ pair_from_good r phi
    end.
  (** second moment of the estimate of the measure of [phi] *)
  Definition second_moment (x0 : Inp) (inputs : list Inp) (phi : X -> R) : R :=
    mix (fun u v => pair_from inputs phi (initial u x0) (initial v x0)) (fun u => pair_from inputs phi (initial u x0) (initial u x0)).
  Definition pair_good (x0 : Inp) (inputs : list Inp) (phi : X -> R) : Prop :=
    mix_good (fun u v => pair_from inputs phi (initial u x0) (initial v x0)) (fun u => pair_from inputs phi (initial u x0) (initial u x0))
    /\ pair_from_good inputs phi.

  (** resampling that draws every slot from the weights, any two slots independently *)
  Definition resampler_pairwise (res : U -> list ext -> list X -> nat -> result (list nat * list ext * list X)) : Prop :=
    forall l xs, valid_logits l -> length l = N -> length xs = length l ->
    (forall j (f : nat -> R), (j < N)%nat ->
       let F u := match res u l xs (length l) with Ok (idx, _, _) => f (nth j idx 0%nat) | Err _ => 0 end in
       good F /\ mean F = lsum (fun a => wt l a * f a) (seq 0 N)) /\
    (forall j k (f : nat -> nat -> R), (j < N)%nat -> (k < N)%nat -> j <> k ->
       let F u := match res u l xs (length l) with Ok (idx, _, _) => f (nth j idx 0%nat) (nth k idx 0%nat) | Err _ => 0 end in
       good F /\ mean F = lsum (fun a => lsum (fun b => wt l a * wt l b * f a b) (seq 0 N)) (seq 0 N)).
End Pairs.

(** integrability of a function of several seeds, in the order in which they are drawn *)
Section Integrable.
  Context {Key U : Type}.
  Variable keq : forall a b : Key, {a = b} + {a <> b}.
  Variable mean : (U -> R) -> R.
  Variable good : (U -> R) -> Prop.
  Fixpoint integrable (ks : list Key) (F : (Key -> U) -> R) (w : Key -> U) : Prop :=
    match ks with
    | [] => True
    | k :: ks' => good (fun u => expectation keq mean ks' F (assign keq w k u)) /\
                  forall u, integrable ks' F (assign keq w k u)
    end.
End Integrable.
