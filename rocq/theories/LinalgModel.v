(** Model of cuthbertlib/linalg/marginal_sqrt_cov.py and cuthbertlib/linalg/symmetric_inv_sqrt.py. *)
From Coq Require Import Reals.
From mathcomp Require Import all_ssreflect all_algebra.
From Verif Require Import RStruct KalmanModel.
From Verif Require ScanModel.
Set Implicit Arguments.
Unset Strict Implicit.
Unset Printing Implicit Defensive.
Local Open Scope ring_scope.
Import GRing.Theory.

Section WithTria.
Variable tria : forall m k : nat, 'M[R]_(m, k) -> 'M[R]_m.

(** marginal_sqrt_cov.py:34-36; [dynamic_slice] moves the start index so that the slice fits; [start] is
    taken non-negative *)
Lemma slice_lt n size (start : nat) (i : 'I_size) (le : (size <= n)%N) : (minn start (n - size) + i < n)%N.
Proof.
apply: leq_trans (_ : n - size + size <= n)%N; last by rewrite subnK.
by apply: leq_ltn_trans (_ : n - size + i < _)%N; rewrite ?leq_add2r ?geq_minr // ltn_add2l ltn_ord.
Qed.
Definition slice_row n size (start : nat) (i : 'I_size) (le : (size <= n)%N) : 'I_n := Ordinal (slice_lt start i le).
Definition marginal_core n size (le : (size <= n)%N) (chol_cov : 'M[R]_n) (start : nat) : 'M[R]_size :=
  tria (\matrix_(i < size, j < n) chol_cov (slice_row start i le) j).
(** marginal_sqrt_cov.py:11-36 with the assertions (two-dimensional arrays; sizes are never negative);
    [dynamic_slice] raises TypeError when the slice is larger than the array *)
Definition marginal_sqrt_cov rows cols (chol_cov : 'M[R]_(rows, cols)) (start size : nat)
  : ScanModel.result 'M[R]_size :=
  match @eqP nat_eqType rows cols with
  | ReflectF _ => ScanModel.Err ScanModel.AssertionError
  | ReflectT e =>
      if size == 0%N then ScanModel.Err ScanModel.AssertionError
      else match @idP (size <= cols)%N with
           | ReflectT le => ScanModel.Ok (marginal_core le (castmx (e, erefl) chol_cov) start)
           | ReflectF _ => ScanModel.Err ScanModel.TypeError
           end
  end.
(** marginal_sqrt_cov.py:39-62; the vmapped function is traced even for zero blocks *)
Definition block_marginal_sqrt_cov rows cols (chol_cov : 'M[R]_(rows, cols)) (subdim : nat)
  : ScanModel.result (seq 'M[R]_subdim) :=
  match @eqP nat_eqType rows cols with
  | ReflectF _ => ScanModel.Err ScanModel.AssertionError
  | ReflectT e =>
      if (subdim == 0%N) || (rows %% subdim != 0)%N then ScanModel.Err ScanModel.AssertionError
      else match @idP (subdim <= cols)%N with
           | ReflectT le => ScanModel.Ok
               [seq marginal_core le (castmx (e, erefl) chol_cov) (i * subdim) | i <- iota 0 (rows %/ subdim)]
           | ReflectF _ => ScanModel.Err ScanModel.TypeError
           end
  end.

(** ** symmetric_inv_sqrt.py; matrices whose entries may be NaN have type ['M[option R]] *)
(** jnp.linalg.svd(arr, hermitian=True), an external routine: left singular vectors (columns) and
    singular values in decreasing order *)
Variable svd : forall n, 'M[R]_n -> 'M[R]_n * 'rV[R]_n.

(** symmetric_inv_sqrt.py:76-94 for NaN-free input *)
Definition symmetric_inv_sqrt_core n (rtol : R) (A : 'M[R]_n) : 'M[option R]_n :=
  let: (u, s) := svd A in
  let s0 := if insub 0%N is Some o then s ord0 o else 0 in
  let cutoff := rtol * s0 in
  let inv_sqrt_s i := if Rltb cutoff (s ord0 i) then (sqrt (s ord0 i))^-1 else 0 in
  let B := \matrix_(i, j) (u i j * inv_sqrt_s j) in
  let L := tria B in
  let zero_dim i := [forall j, L j i == 0] && [forall j, L i j == 0] in
  \matrix_(i, j) (if zero_dim i || zero_dim j then None else Some (L i j)).

(** symmetric_inv_sqrt.py:9-73. The decomposition of a matrix with NaN entries is NaN everywhere. *)
Definition symmetric_inv_sqrt n (rtol : R) (ignore_nan_dims : bool) (A : 'M[option R]_n) : 'M[option R]_n :=
  let nan_diag i := isnan (A i i) && ignore_nan_dims in
  let zero_mask i := [forall j, A j i == Some 0] && [forall j, A i j == Some 0] in
  let nan_mask i := nan_diag i || zero_mask i in
  let order := argsort nan_mask in
  let nan_mask_sorted i := nan_mask (order i) in
  let invalid i j := (nan_mask_sorted i || nan_mask_sorted j) && ignore_nan_dims in
  let arr_sorted : 'M[option R]_n := \matrix_(i, j) (if invalid i j then Some 0 else A (order i) (order j)) in
  let L_sorted := if [exists i, exists j, isnan (arr_sorted i j)] then const_mx None
                  else symmetric_inv_sqrt_core rtol (map_mx value arr_sorted) in
  let L_sorted : 'M[option R]_n := \matrix_(i, j) (if invalid i j then Some 0 else L_sorted i j) in
  let L_sorted : 'M[option R]_n :=
    \matrix_(i, j) (if (i == j) && nan_mask_sorted i then None else L_sorted i j) in
  (* the inverse permutation: where an index was moved to *)
  let position (i : 'I_n) := nth i (enum 'I_n) (index i (argsort_seq nan_mask)) in
  \matrix_(i, j) L_sorted (position i) (position j).

(** symmetric_inv_sqrt.py:97-126; NaN entries outside the masked rows and columns make the product NaN
    wherever they are used *)
Definition chol_cov_with_nans_to_cov n (chol_cov : 'M[option R]_n) : 'M[option R]_n :=
  let nan_mask i := isnan (chol_cov i i) in
  let C : 'M[option R]_n := \matrix_(i, j) (if nan_mask i || nan_mask j then Some 0 else chol_cov i j) in
  let row_nan i := [exists j, isnan (C i j)] in
  let cov : 'M[option R]_n := \matrix_(i, j)
    (if row_nan i || row_nan j then None else Some (\sum_k value (C i k) * value (C j k))) in
  \matrix_(i, j) (if (i == j) && nan_mask i then None else cov i j).
End WithTria.
