(** Special values (inf, NaN) in the one-dimensional case of the Kalman filtering operator. *)
From Coq Require Import Reals Lra.
From mathcomp Require Import all_ssreflect all_algebra.
From Verif Require Import RStruct Ext MvnExt KalmanModel.
From Verif Require ScanModel.
Set Implicit Arguments.
Unset Strict Implicit.
Unset Printing Implicit Defensive.

(** filtering.py:189-211 for nx = 1: the log normalizing constant of a combination. The factor returned
    by [tria] is finite; everything computed from it is extended arithmetic (a triangular solve with a
    1x1 factor is a division, cho_solve two divisions, slogdet the log of the absolute value). *)
Section Op1.
Definition half : ext := ediv (Fin R1) (Fin (IZR 2)).
Variable tria : forall m k : nat, 'M[R]_(m, k) -> 'M[R]_m.
Definition ent (A : 'M[R]_1) : R := A ord0 ord0.
Definition operator_ell_ext (e1 e2 : FilterScanElement 1) (ell1 ell2 : ext) : ext :=
  let: MkFSE _ b1 U1 _ _ _ := e1 in
  let: MkFSE _ _ _ eta2 Z2 _ := e2 in
  let tria_xi := tria (block_mx (U1^T *m Z2)%R 1%:M Z2 0%R) in
  let Xi11 := Fin (ent (ulsubmx tria_xi)) in
  let Xi21 := Fin (ent (dlsubmx tria_xi)) in
  let b1 := Fin (ent b1) in
  let U1 := Fin (ent U1) in
  let eta2 := Fin (ent eta2) in
  let tmp_1 := ediv U1 Xi11 in
  let D_inv := esub (Fin R1) (emul tmp_1 Xi21) in
  let tmp_2 := emul D_inv (eadd b1 (emul U1 (emul U1 eta2))) in
  let mu := ediv (ediv b1 U1) U1 in
  let t1 := esub (emul b1 mu) (emul (eadd eta2 mu) tmp_2) in
  eadd (esub (eadd ell1 ell2) (emul half t1)) (emul half (elog (eabs D_inv))).

(** cuthbert/gaussian/kalman.py:64-209 for nx = 1 with the log normalizing constant in extended
    arithmetic; that of a prepared element is finite (its innovation factor is invertible) *)
Section Filter1.
Variable ny : nat.
Context {Inp Key : Type}.
Variable get_init_params : Inp -> 'cV[R]_1 * 'M[R]_1.
Variable get_dynamics_params : Inp -> 'M[R]_1 * 'cV[R]_1 * 'M[R]_1.
Variable get_observation_params : Inp -> 'M[R]_(ny, 1) * 'cV[R]_ny * 'M[R]_ny * 'cV[option R]_ny.
Definition with_ell (s : KalmanFilterState 1 (Inp := Inp)) : KalmanFilterState 1 (Inp := Inp) * ext :=
  (s, Fin (kf_log_normalizing_constant s)).
Definition kalman_ext_filter : ScanModel.Filter Inp Key (KalmanFilterState 1 (Inp := Inp) * ext) :=
  ScanModel.MkFilter (fun x k => with_ell (kalman_init_prepare get_init_params x k))
    (fun x k => with_ell (kalman_filter_prepare tria get_dynamics_params get_observation_params x k))
    (fun s1 s2 => (kalman_filter_combine tria s1.1 s2.1, operator_ell_ext (kf_elem s1.1) (kf_elem s2.1) s1.2 s2.2)).
End Filter1.
End Op1.
