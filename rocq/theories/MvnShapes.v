(** Model of the dispatch on the shape of [chol_cov] in cuthbertlib/stats/multivariate_normal.py, for a
    vector [x] of length [n] and a [mean] of the same length. *)
From Coq Require Import Reals.
From mathcomp Require Import all_ssreflect all_algebra.
From Verif Require Import RStruct KalmanModel.
From Verif Require ScanModel.
Set Implicit Arguments.
Unset Strict Implicit.
Unset Printing Implicit Defensive.
Local Open Scope ring_scope.
Import GRing.Theory.

(** the unbatched shapes a factor can have: scalar, vector (not empty), matrix *)
Inductive chol_arg :=
| CScalar (c : R)
| CVec k (v : 'cV[R]_k.+1)
| CMat p q (M : 'M[R]_(p, q)).

(** entry [i] of a vector *)
Definition at_ n (v : 'cV[R]_n) (i : nat) : R := if insub i is Some o then v o ord0 else 0.
(** entry [i] of a vector broadcast against another one: vectors of length 1 are stretched *)
Definition bget n (v : 'cV[R]_n) (i : nat) : R := at_ v (if n == 1%N then 0%N else i).

Section Dispatch.
Variable n : nat.
Variables (x mean : 'cV[R]_n).
(** multivariate_normal.py:59-65 with numpy broadcasting of [(x - mean) / chol_cov]; lengths that do not
    broadcast raise TypeError *)
Definition logpdf_vec k (chol_cov : 'cV[R]_k) : ScanModel.result R :=
  if [|| n == k, k == 1%N | n == 1%N] then
    ScanModel.Ok (- 2%:R^-1 * (\sum_(i < maxn n k) ((bget x i - bget mean i) / bget chol_cov i) ^+ 2)
                  - n%:R / 2%:R * ln (2%:R * PI) - \sum_i ln `|chol_cov i ord0|)
  else ScanModel.Err ScanModel.TypeError.
(** multivariate_normal.py:52-77, [nan_support=False] *)
Definition logpdf (chol_cov : chol_arg) : ScanModel.result R :=
  match chol_cov with
  | CScalar c => ScanModel.Ok (logpdf_iso x mean c)
  | CVec k v => logpdf_vec v
  | CMat p q M =>
      match @eqP nat_eqType p n, @eqP nat_eqType q n with
      | ReflectT ep, ReflectT eq => ScanModel.Ok (logpdf_mx x mean (castmx (ep, eq) M))
      | _, _ => ScanModel.Err ScanModel.ValueError
      end
  end.
End Dispatch.

Section Nan.
Variable n : nat.
Variables (x : 'cV[option R]_n) (mean : 'cV[R]_n).
(** collect_nans_chol.py:61-62: a factor of size one is stretched to the length of the flag *)
Definition logpdf_nan_iso (c : R) : R := logpdf_nan_diag x mean (const_mx c).
(** collect_nans_chol.py:61-70 for a vector: [chol[argsort]] picks [n] entries, and out-of-range indices
    are clamped to the last one (jax indexing); no check of the length *)
Definition logpdf_nan_vec k (v : 'cV[R]_k.+1) : R :=
  logpdf_nan_diag x mean (\col_i v (inord (minn i k)) ord0).
End Nan.
