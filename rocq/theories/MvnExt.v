(** Scalar multivariate_normal.logpdf with special values (inf, NaN). *)
From Coq Require Import Reals.
From Verif Require Import Ext.
Open Scope R_scope.

Definition is_nan (x : ext) : bool := match x with NaN => true | _ => false end.
Definition eabs (a : ext) : ext :=
  match a with Fin x => Fin (Rabs x) | PInf => PInf | NInf => PInf | NaN => NaN end.
(** multivariate_normal.py:47-51: scalar [x] and [mean], scalar [chol_cov] *)
Definition logpdf_scalar_ext (x mean chol_cov : ext) : ext :=
  let d := esub x mean in
  esub (ediv (emul (Fin (-1 / 2)) (emul d d)) (emul chol_cov chol_cov))
       (emul (Fin (1 / 2)) (eadd (Fin (ln (2 * PI))) (emul (Fin 2) (elog chol_cov)))).
(** collect_nans_chol.py:12-15, scalar [x] *)
Definition set_to_zero (flag : bool) (x : ext) : ext := if flag then Fin 0 else x.
(** collect_nans_chol.py:54-59 (scalar flag) followed by multivariate_normal.py:47-51 *)
Definition logpdf_nan_scalar_ext (x mean chol_cov : ext) : ext :=
  let flag := is_nan x in
  logpdf_scalar_ext (set_to_zero flag x) (set_to_zero flag mean) (set_to_zero flag chol_cov).

