(** Backward samplers that leave the exact backward distribution invariant: the condition, the law of
    the MCMC sampler's draws, and the keys it consumes. *)
From Coq Require Import Reals List Arith.
From Coquelicot Require Import Coquelicot.
From Verif Require Import Ext ScanModel DiscreteSpec ResamplingSpec PathSpec.
Import ListNotations.
Open Scope R_scope.

Section Kernel.
  Context {U X Inp : Type}.
  Variable mean : (U -> R) -> R.
  Variable good : (U -> R) -> Prop.
  Variable dX : X.
  Variable propagate : U -> X -> Inp -> X.
  Variable log_potential : X -> X -> Inp -> ext.
  (** log potential used by the backward sampler *)
  Variable h : X -> X -> R.
  (** [kern lw xs y i k]: probability of ending at index [k] from index [i], when the particles are
      [xs] with log weights [lw] and the new state is [y] *)
  Variable kern : list ext -> list X -> X -> nat -> nat -> R.
  Variable N : nat.

  (** the weights W_i exp (h x_i y) are invariant *)
  Definition kernel_invariant : Prop :=
    forall lw xs y k, valid_logits lw -> length lw = N -> length xs = N -> (k < N)%nat ->
      lsum (fun i => uw (nth i lw NInf) * exp (h (nth i xs dX) y) * kern lw xs y i k) (seq 0 N)
      = uw (nth k lw NInf) * exp (h (nth k xs dX) y).

  (** the integrals met on the way exist *)
  Fixpoint kernel_good (inputs : list Inp) (phi : list X -> R) : Prop :=
    match inputs with
    | [] => True
    | i :: r =>
        (forall a b past lw xs j k, valid_logits lw -> length lw = N -> length xs = N -> (j < N)%nat -> (k < N)%nat ->
           good (fun u => let y := propagate u a i in
             uw (log_potential a y i) * exp (h b y) *
             (kern lw xs y j k * exp (- h (nth k xs dX) y) *
              path_from mean propagate log_potential r phi (past ++ [nth k xs dX]) y)))
        /\ kernel_good r phi
    end.
End Kernel.

(** every proposal is an index drawn from the weights *)
Definition proposal_law {U} (mean : (U -> R) -> R) (good : (U -> R) -> Prop) (N M : nat)
           (proposals : U -> list ext -> nat -> list nat) : Prop :=
  forall lw j (phi : nat -> R), valid_logits lw -> length lw = N -> (j < M)%nat ->
    (forall u, (nth j (proposals u lw M) 0 < N)%nat) /\
    good (fun u => phi (nth j (proposals u lw M) 0%nat)) /\
    mean (fun u => phi (nth j (proposals u lw M) 0%nat)) = lsum (fun i => wt lw i * phi i) (seq 0 N).
(** every acceptance variable is uniform on [0,1] *)
Definition uniform_law {U} (mean : (U -> R) -> R) (good : (U -> R) -> Prop) (M : nat)
           (uniforms : U -> nat -> list R) : Prop :=
  forall j (phi : R -> R), (j < M)%nat -> ex_RInt phi 0 1 ->
    good (fun u => phi (nth j (uniforms u M) 0)) /\
    mean (fun u => phi (nth j (uniforms u M) 0)) = RInt phi 0 1.

(** the keys of a smoother run with T transitions and n steps per transition, from the last
    transition to the first *)
Definition mcmc_keys {Key} (split : Key -> nat -> list Key) (skey : Key) (n T : nat) : list Key :=
  flat_map (fun k => flat_map (fun k' => split k' (n * 2)%nat) (firstn 1 (split k 2%nat))) (rev (tl (split skey (S T)))).
(** keys form a tree: every key has a depth *)
Definition key_depth {Key} (split : Key -> nat -> list Key) (depth : Key -> nat) : Prop :=
  forall k n c, In c (split k n) -> depth c = S (depth k).
