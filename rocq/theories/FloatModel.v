(** Model of the inverse-CDF resampling code in floating-point arithmetic.

    Modelled: cuthbertlib/resampling/utils.py:39-83 and the grid of systematic.py:32-33, with every
    addition and division rounded to nearest (ties to even) in a binary format with [prec] digits and
    minimal exponent [emin] (binary32: 24 and -149; binary64: 53 and -1074).
    Simplifications: the normalised weights are given floats (exp and logsumexp at utils.py:33 are not
    correctly rounded functions, so no rounding is claimed for them); overflow, infinities and NaN do
    not occur because weights and uniforms are finite and nonnegative, so floats are the real numbers
    of the format. *)
From Coq Require Import Reals List Arith ZArith Bool.
From Flocq Require Import Core.
From Verif Require Import ScanModel ResamplingModel.
Import ListNotations.
Open Scope R_scope.

Section Float.
  Variables prec emin : Z.
  (** round to nearest, ties to even *)
  Definition fl (x : R) : R := round radix2 (FLT_exp emin prec) ZnearestE x.
  (** [x] is a floating-point number of the format *)
  Definition is_fl (x : R) : Prop := generic_format radix2 (FLT_exp emin prec) x.

  (** utils.py:80-82: the inner while loop, [s += ws[j]] rounded *)
  Fixpoint fl_advance (fuel : nat) (u : R) (ws : list R) (j : nat) (s : R) : nat * R :=
    match fuel with
    | O => (j, s)
    | S fuel' =>
        if (if Rlt_dec s u then true else false) && (j <? length ws - 1)%nat
        then fl_advance fuel' u ws (S j) (fl (s + nth (S j) ws 0))
        else (j, s)
    end.
  (** utils.py:79-83: the outer loop *)
  Fixpoint fl_numba_loop (su : list R) (ws : list R) (j : nat) (s : R) : list nat :=
    match su with
    | [] => []
    | u :: r => let '(j', s') := fl_advance (length ws) u ws j s in j' :: fl_numba_loop r ws j' s'
    end.
  (** utils.py:50-83: the CPU platform *)
  Definition fl_inverse_cdf_cpu (su : list R) (ws : list R) : list nat :=
    map (clip 0 (length ws - 1)) (fl_numba_loop su ws 0 (nth 0 ws 0)).

  (** jnp.cumsum (utils.py:42): JAX computes it with jax.lax.associative_scan of addition on the
      platforms without a dedicated lowering *)
  Definition fl_cumsum (ws : list R) : list R := assoc_scan (fun a b => fl (a + b)) ws.
  (** jnp.searchsorted(cs, u, method="sort") (utils.py:43): the rank of [u] in the sorted
      concatenation, i.e. the number of entries of [cs] below [u], whether or not [cs] is sorted *)
  Definition fl_searchsorted (cs : list R) (u : R) : nat :=
    length (List.filter (fun c => if Rlt_dec c u then true else false) cs).
  (** utils.py:39-47: the other platforms *)
  Definition fl_inverse_cdf_default (su : list R) (ws : list R) : list nat :=
    map (fun u => clip 0 (length ws - 1) (fl_searchsorted (fl_cumsum ws) u)) su.

  (** systematic.py:33: (uniform + arange(n)) / n; the integers are converted to floats *)
  Definition fl_systematic_uniforms (u : R) (n : nat) : list R :=
    map (fun k => fl (fl (u + fl (INR k)) / fl (INR n))) (seq 0 n).
  (** systematic.py:32-34 on the CPU *)
  Definition fl_systematic_idx (u : R) (ws : list R) (n : nat) : list nat :=
    fl_inverse_cdf_cpu (fl_systematic_uniforms u n) ws.
End Float.
