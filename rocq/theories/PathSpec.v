(** Path space: integrals over whole trajectories and the ancestral lines of a particle filter run. *)
From Coq Require Import Reals List Arith.
From Verif Require Import Ext ScanModel DiscreteSpec ResamplingSpec SmcModel.
Import ListNotations.
Open Scope R_scope.

Section Paths.
  Context {U X Inp : Type}.
  Variable mean : (U -> R) -> R.
  Variable good : (U -> R) -> Prop.
  Variable initial : U -> Inp -> X.
  Variable propagate : U -> X -> Inp -> X.
  Variable log_potential : X -> X -> Inp -> ext.

  (** integral of phi(past, x_t, ..., x_T) times the product of the remaining potentials, x_t = [x] *)
  Fixpoint path_from (inputs : list Inp) (phi : list X -> R) (past : list X) (x : X) : R :=
    match inputs with
    | [] => phi (past ++ [x])
    | i :: r => mean (fun u => let y := propagate u x i in
                        uw (log_potential x y i) * path_from r phi (past ++ [x]) y)
    end.
  (** integral of phi(x_0, ..., x_T) prod_t G_t(x_{t-1}, x_t) over all trajectories of the chain *)
  Definition path_integral (x0 : Inp) (inputs : list Inp) (phi : list X -> R) : R :=
    mean (fun u => path_from inputs phi [] (initial u x0)).

  (** the integrals above exist *)
  Fixpoint path_from_good (inputs : list Inp) (phi : list X -> R) : Prop :=
    match inputs with
    | [] => True
    | i :: r => (forall past x, good (fun u => let y := propagate u x i in
                        uw (log_potential x y i) * path_from r phi (past ++ [x]) y))
                /\ path_from_good r phi
    end.
  Definition path_good (x0 : Inp) (inputs : list Inp) (phi : list X -> R) : Prop :=
    good (fun u => path_from inputs phi [] (initial u x0)) /\ path_from_good inputs phi.

  (** unbiased resampling of [N] particles to [M] *)
  Definition resampler_unbiased_to (N M : nat)
             (res : U -> list ext -> list X -> nat -> result (list nat * list ext * list X)) : Prop :=
    forall l xs (phi : nat -> R), valid_logits l -> length l = N -> length xs = N ->
      let f u := match res u l xs M with
                 | Ok (idx, _, _) => lsum (fun j => phi (nth j idx 0%nat)) (seq 0 M) / INR M
                 | Err _ => 0
                 end in
      good f /\ mean f = lsum (fun i => wt l i * phi i) (seq 0 N).
End Paths.

(** the trajectory, from time 0 to time [t], of the ancestors of particle [j] at time [t] *)
Fixpoint ancestral_line {Key X Inp} (dX : X) (states : list (PFState Key X Inp)) (t j : nat) : list X :=
  match nth_error states t with
  | None => []
  | Some s =>
      match t with
      | O => []
      | S t' => ancestral_line dX states t' (nth j (pf_ancestor_indices s) 0%nat)
      end ++ [nth j (pf_particles s) dX]
  end.
