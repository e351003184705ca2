(** Forward filtering, backward sampling: the condition on the backward potential, the contract of
    categorical draws, and the keys consumed by the backward sampler. *)
From Coq Require Import Reals List Arith.
From Verif Require Import Ext ScanModel DiscreteSpec ResamplingSpec PathSpec.
Import ListNotations.
Open Scope R_scope.

(** an index drawn from a categorical distribution given by log weights *)
Definition categorical_law {U} (mean : (U -> R) -> R) (good : (U -> R) -> Prop) (cat : U -> list ext -> nat) : Prop :=
  forall l (phi : nat -> R), valid_logits l ->
    good (fun u => phi (cat u l)) /\
    mean (fun u => phi (cat u l)) = lsum (fun i => wt l i * phi i) (seq 0 (length l)).

Section Backward.
  Context {U X Inp : Type}.
  Variable mean : (U -> R) -> R.
  Variable good : (U -> R) -> Prop.
  Variable propagate : U -> X -> Inp -> X.
  Variable log_potential : X -> X -> Inp -> ext.
  (** log potential used by the backward sampler *)
  Variable h : X -> X -> R.

  (** [exp (h a y)] is proportional, as a function of [a], to the density of moving from [a] to [y]
      times the potential: then both sides integrate m(a,y) G(a,y) m(b,y) G(b,y) / c(y) psi(y). *)
  Definition backward_potential (i : Inp) : Prop :=
    forall a b (psi : X -> R),
      let f a b u := let y := propagate u a i in uw (log_potential a y i) * exp (h b y) * psi y in
      good (f a b) -> good (f b a) -> mean (f a b) = mean (f b a).

  (** the integrals met on the way exist: those of [path_good] with a backward weight in front *)
  Fixpoint backward_good (inputs : list Inp) (phi : list X -> R) : Prop :=
    match inputs with
    | [] => True
    | i :: r =>
        (forall a b past x (vs : list (R * X)), List.Forall (fun v => 0 <= fst v) vs -> 0 < lsum fst vs ->
           good (fun u => let y := propagate u a i in
             uw (log_potential a y i) * exp (h b y) *
             (path_from mean propagate log_potential r phi (past ++ [x]) y /
              lsum (fun v => fst v * exp (h (snd v) y)) vs)))
        /\ backward_good r phi
    end.
End Backward.

(** sufficient: the states have a density [dens] with respect to some linear functional [base], and
    the backward potential is that density times the potential, up to a factor depending on the new
    state only *)
Definition has_density {U X Inp} (mean : (U -> R) -> R) (good : (U -> R) -> Prop) (propagate : U -> X -> Inp -> X)
    (base : (X -> R) -> R) (dens : X -> X -> R) (i : Inp) : Prop :=
  forall a psi, good (fun u => psi (propagate u a i)) ->
    mean (fun u => psi (propagate u a i)) = base (fun y => dens a y * psi y).

(** the keys of the categorical draws of a smoother run with T transitions and M trajectories, from
    the last transition to the first *)
Definition backward_keys {Key} (split : Key -> nat -> list Key) (skey : Key) (M T : nat) : list Key :=
  flat_map (fun k => split k M) (rev (tl (split skey (S T)))).
