(** Scalar logpdf with special values. *)
From Coq Require Import Reals Lra.
From Verif Require Import Ext MvnExt.
Open Scope R_scope.

Lemma inf_times_pos b x : 0 < x -> inf_times b x = if b then PInf else NInf.
Proof. unfold inf_times. intros. destruct (Rlt_dec 0 x); auto. contradiction. Qed.
Lemma inf_times_neg b x : x < 0 -> inf_times b x = if b then NInf else PInf.
Proof. unfold inf_times. intros. destruct (Rlt_dec 0 x); [lra|]. destruct (Rlt_dec x 0); auto. contradiction. Qed.
Lemma inf_times_0 b : inf_times b 0 = NaN.
Proof. unfold inf_times. destruct (Rlt_dec 0 0); [lra|]. auto. Qed.
Lemma ediv_nz x y : y <> 0 -> ediv (Fin x) (Fin y) = Fin (x / y).
Proof. intros ny. simpl. destruct (Req_EM_T y 0); auto. contradiction. Qed.
Lemma ediv_0 x : ediv (Fin x) (Fin 0) = inf_times true x.
Proof. simpl. destruct (Req_EM_T 0 0); auto. contradiction. Qed.
Lemma eadd_nan_l x : eadd NaN x = NaN. Proof. now destruct x. Qed.
Lemma eadd_nan_r x : eadd x NaN = NaN. Proof. now destruct x. Qed.

Lemma logpdf_scalar_fin x m c : 0 < c ->
  logpdf_scalar_ext (Fin x) (Fin m) (Fin c)
  = Fin (- / 2 * ((x - m) * (x - m)) / (c * c) - / 2 * (ln (2 * PI) + 2 * ln c)).
Proof.
  intros pc. unfold logpdf_scalar_ext. cbn [esub eopp eadd emul elog].
  rewrite ediv_nz by nra. destruct (Rlt_dec 0 c); [|contradiction].
  cbn [esub eopp eadd emul]. f_equal. field. lra.
Qed.
(** a NaN scalar observation gives NaN *)
Lemma logpdf_nan_scalar_nan m c : logpdf_nan_scalar_ext NaN m c = NaN.
Proof.
  unfold logpdf_nan_scalar_ext, logpdf_scalar_ext. cbn [is_nan set_to_zero esub eopp eadd emul].
  rewrite Ropp_0, Rplus_0_r, !Rmult_0_r, ediv_0, inf_times_0. apply eadd_nan_l.
Qed.
