(** The MCMC backward sampler with its random keys (cuthbertlib/smc/smoothing/mcmc.py); the
    accept/reject steps are those of [mcmc_simulate] (SmcModel.v). *)
From Coq Require Import Reals List Arith.
From Verif Require Import Ext ScanModel ResamplingModel SmcModel.
Import ListNotations.

Section Mcmc.
  Context {Key X : Type}.
  Variable dX : X.
  Variable split : Key -> nat -> list Key.
  (** multinomial.resampling (multinomial.py:18-45), indices only: draws from the log weights *)
  Variable proposals : Key -> list ext -> nat -> list nat.
  (** random.uniform *)
  Variable uniforms : Key -> nat -> list R.
  Variable n_steps : nat.

  (** mcmc.py:53, [reshape((n_steps, 2))] *)
  Fixpoint pairs (l : list Key) : list (Key * Key) :=
    match l with
    | a :: b :: r => (a, b) :: pairs r
    | _ => []
    end.

  (** mcmc.py:47-76; the ancestor tracing of lines 48-50 ignores its key *)
  Definition mcmc_sampler : BackwardSampling :=
    fun key x0_all x1_all log_weight_x0_all log_density x1_ancestor_indices =>
      match split key 2 with
      | [key'; subkey] =>
          let n_samples := length x1_ancestor_indices in
          let draws := map (fun k => (proposals (fst k) log_weight_x0_all n_samples, uniforms (snd k) n_samples))
                           (pairs (split key' (n_steps * 2))) in
          mcmc_simulate dX (fun _ => draws) key x0_all x1_all log_weight_x0_all log_density x1_ancestor_indices
      | _ => Err ValueError
      end.
End Mcmc.
