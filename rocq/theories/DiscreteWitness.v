(** Concrete instances used by PropDiscrete.v. *)
From Coq Require Import Reals List Arith Lia Lra.
From Verif Require Import Ext ScanModel ScanProofs DriverSpec DriverProofs DiscreteModel DiscreteSpec
  DiscreteHyp Sums DiscreteProofs DiscreteTheorems.
Import ListNotations.
Open Scope R_scope.

Lemma discrete_filter_finite (K : nat) {Inp Key} (split : Key -> nat -> list Key)
        (get_init_dist : Inp -> nat -> ext) (get_trans_matrix : Inp -> nat -> nat -> ext)
        (get_obs_lls : Inp -> nat -> ext)
        (x0 : Inp) (xs : list Inp) (init : nat -> R) (ss : list step)
        (parallel : bool) (key : option Key) :
  (0 < K)%nat -> split_ok split ->
  good_init K (get_init_dist x0) init ->
  Forall2 (fun x s => good_step K (get_trans_matrix x) (get_obs_lls x) s) xs ss ->
  Forall (finite_lls K) ss ->
  exists states,
    filter split (discrete_build_filter K get_init_dist get_trans_matrix get_obs_lls)
           (x0 :: xs) parallel key = Ok states /\
    length states = S (length ss) /\
    forall t s, nth_error states t = Some s ->
      0 < evidence K init (firstn t ss) /\
      (forall j, (j < K)%nat -> fdist s j = Fin (posterior K init (firstn t ss) t j)) /\
      flog_normalizing_constant s = Fin (ln (evidence K init (firstn t ss))).
Proof.
  intros HK Hs Hi Hst Hf.
  assert (Hr : Forall (rows_possible K) ss).
  { apply Forall_forall. intros s Hin. apply In_nth_error in Hin. destruct Hin as [t Ht].
    destruct (Forall2_nth_r _ _ _ _ _ Hst Ht) as (x & _ & Hx & _). apply finite_rows; auto.
    rewrite Forall_forall in Hf. apply Hf. eapply nth_error_In; eauto. }
  destruct (discrete_filter_exact K HK split Hs get_init_dist get_trans_matrix get_obs_lls
              x0 xs init ss Hi Hst Hr parallel key) as (sts & H1 & H2 & _ & H3).
  eauto.
Qed.

(** ** Evaluation helpers *)
Lemma inf_times_pos b x : 0 < x -> inf_times b x = if b then PInf else NInf.
Proof. intros H. unfold inf_times. destruct (Rlt_dec 0 x); [auto|lra]. Qed.
Lemma inf_times_0 b : inf_times b 0 = NaN.
Proof. unfold inf_times. destruct (Rlt_dec 0 0); [lra|]. destruct (Rlt_dec 0 0); [lra|auto]. Qed.
Lemma ediv_00 : ediv (Fin 0) (Fin 0) = NaN.
Proof. unfold ediv. destruct (Req_EM_T 0 0); [apply inf_times_0 | lra]. Qed.
Lemma elog_0 : elog (Fin 0) = NInf.
Proof. unfold elog. destruct (Rlt_dec 0 0); [lra|]. destruct (Req_EM_T 0 0); [auto|lra]. Qed.
Lemma emul_NaN_r a : emul a NaN = NaN.
Proof. now destruct a. Qed.
Lemma eadd_NaN_r a : eadd a NaN = NaN.
Proof. now destruct a. Qed.
Lemma eadd_NaN_l a : eadd NaN a = NaN.
Proof. now destruct a. Qed.
Lemma Fin_eq a b : a = b -> Fin a = Fin b.
Proof. congruence. Qed.

Lemma two_cases (P : nat -> Prop) : P 0%nat -> P 1%nat -> forall i, (i < 2)%nat -> P i.
Proof. intros H0 H1 [|[|i]] Hi; auto; lia. Qed.

(** run of the sequential filter with two inputs *)
Lemma filter_two {Inp Key St} split (obj : Filter Inp Key St) a b (key : option Key) :
  split_ok split ->
  exists k0 k1, filter split obj [a; b] false key =
    Ok [init_prepare obj a k0; filter_combine obj (init_prepare obj a k0) (filter_prepare obj b k1)].
Proof.
  intros Hs. unfold filter. pose proof (prepare_keys_length split Hs key 2) as Hl.
  cbn [length] in *. destruct (prepare_keys split key 2) as [|k0 [|k1 [|]]]; try discriminate.
  exists k0, k1. reflexivity.
Qed.

Lemma smoother_two {Inp Key FSt SSt} split d io (obj : Smoother Inp Key FSt SSt) f0 f1 (key : option Key) :
  split_ok split ->
  exists k0 k1, 
    let fin := convert_filter_to_smoother_state obj f1 (d (io f1)) k0 in
    smoother split d io obj [f0; f1] None false key =
    Ok [smoother_combine obj (smoother_prepare obj f0 (io f1) k1) fin; fin].
Proof.
  intros Hs. unfold smoother. pose proof (prepare_keys_length split Hs key 2) as Hl.
  cbn [length map Nat.sub Nat.add Nat.eqb tl] in *.
  destruct (prepare_keys split key 2) as [|k0 [|k1 [|]]]; try discriminate.
  exists k0, k1. reflexivity.
Qed.

Definition W9_init (j : nat) : R := match j with O => 1 | _ => 0 end.
Definition W9_tr (i j : nat) : R :=
  match i, j with O, O => 1/2 | O, S O => 1/2 | S O, O => 0 | _, _ => 1 end.
Definition W9_lik (j : nat) : R := match j with O => 1 | _ => 0 end.
Definition W9_lls (j : nat) : ext := match j with O => Fin 0 | _ => NInf end.

Lemma cond_fin_max K probs lls m :
  emaxn K lls = Fin m ->
  condition_on_obs_vec K probs lls =
  (fun j => ediv (cond_weights K probs lls j) (esum K (cond_weights K probs lls)),
   eadd (elog (esum K (cond_weights K probs lls))) (Fin m)).
Proof. intros H. unfold condition_on_obs_vec. now rewrite H. Qed.

Lemma discrete_filter_witness :
  exists (get_init_dist : unit -> nat -> ext) (get_trans_matrix : unit -> nat -> nat -> ext)
         (get_obs_lls : unit -> nat -> ext) (init : nat -> R) (s : step),
    good_init 2 (get_init_dist tt) init /\
    good_step 2 (get_trans_matrix tt) (get_obs_lls tt) s /\
    0 < evidence 2 init [s] /\
    forall split (key : option nat), split_ok split ->
    exists s0 s1,
      filter split (discrete_build_filter 2 get_init_dist get_trans_matrix get_obs_lls)
             [tt; tt] false key = Ok [s0; s1] /\
      fdist s1 0 = NaN /\ fdist s1 1 = NaN.
Proof.
  exists (fun _ j => Fin (W9_init j)), (fun _ i j => Fin (W9_tr i j)), (fun _ => W9_lls), W9_init,
    {| tr := W9_tr; lik := W9_lik |}.
  split; [|split; [|split]].
  - split; [|auto]. split; [apply two_cases; simpl; lra | simpl; lra].
  - split; [|split; [auto|]].
    + red; apply two_cases; (split; [apply two_cases; simpl; lra | simpl; lra]).
    + apply two_cases; simpl; auto. now rewrite exp_0.
  - unfold evidence. simpl. lra.
  - intros split key Hs.
    destruct (filter_two split (discrete_build_filter 2 (fun _ j => Fin (W9_init j))
                (fun _ i j => Fin (W9_tr i j)) (fun _ => W9_lls)) tt tt key Hs) as (k0 & k1 & ->).
    do 2 eexists. split; [reflexivity|].
    unfold fdist.
    cbn [filter_combine filter_prepare init_prepare discrete_build_filter discrete_filter_combine elem
         filtering_operator f_ discrete_filter_prepare discrete_init_prepare fst snd condition_on_obs].
    assert (Hrow1 : forall k, fst (condition_on_obs_vec 2 (fun j => Fin (W9_tr 1 j)) W9_lls) k
                    = ediv (cond_weights 2 (fun j => Fin (W9_tr 1 j)) W9_lls k) (Fin 0)).
    { intros k. rewrite (cond_fin_max _ _ _ 0) by reflexivity. cbn [fst]. f_equal.
      cbn. apply Fin_eq. rewrite Ropp_0, Rplus_0_r, exp_0. lra. }
    assert (Hw : forall k, (k < 2)%nat -> cond_weights 2 (fun j => Fin (W9_tr 1 j)) W9_lls k = Fin 0).
    { apply two_cases; cbn; apply Fin_eq; lra. }
    assert (Hbad : forall k, (k < 2)%nat -> fst (condition_on_obs_vec 2 (fun j => Fin (W9_tr 1 j)) W9_lls) k = NaN).
    { intros k Hk. rewrite Hrow1, Hw by auto. apply ediv_00. }
    split; unfold matmul; cbn [esum]; rewrite Hbad by lia; now rewrite emul_NaN_r, eadd_NaN_r.
Qed.

Definition W8_tr (i j : nat) : R := if Nat.eqb i j then 1 else 0.

Lemma discrete_smoother_witness :
  exists (get_init_dist : unit -> nat -> ext) (get_trans_matrix : unit -> nat -> nat -> ext)
         (get_obs_lls : unit -> nat -> ext) (init : nat -> R) (s : step),
    good_init 2 (get_init_dist tt) init /\
    good_step 2 (get_trans_matrix tt) (get_obs_lls tt) s /\
    finite_lls 2 s /\
    posterior 2 init [s] 0 0 = 1 /\ posterior 2 init [s] 0 1 = 0 /\
    forall split (key : option nat), split_ok split ->
    exists fstates s0 s1,
      filter split (discrete_build_filter 2 get_init_dist get_trans_matrix get_obs_lls)
             [tt; tt] false key = Ok fstates /\
      smoother split (fun x => x) fs_inputs (discrete_build_smoother 2 get_trans_matrix (fun x => x))
               fstates None false key = Ok [s0; s1] /\
      sdist s0 0 = NaN /\ sdist s0 1 = NaN.
Proof.
  set (gi := fun (_ : unit) j => Fin (W9_init j)).
  set (gt := fun (_ : unit) i j => Fin (W8_tr i j)).
  set (gl := fun (_ : unit) (_ : nat) => Fin 0).
  exists gi, gt, gl, W9_init, {| tr := W8_tr; lik := fun _ => 1 |}.
  split; [|split; [|split; [|split; [|split]]]].
  - split; [|auto]. split; [apply two_cases; simpl; lra | simpl; lra].
  - split; [|split; [auto|]].
    + red; apply two_cases; (split; [apply two_cases; unfold W8_tr; simpl; lra | unfold W8_tr; simpl; lra]).
    + intros j Hj. cbn. now rewrite exp_0.
  - intros j Hj. simpl. lra.
  - unfold posterior, joint_at, evidence, W8_tr. simpl. lra.
  - unfold posterior, joint_at, evidence, W8_tr. simpl. lra.
  - intros split key Hs.
    destruct (filter_two split (discrete_build_filter 2 gi gt gl) tt tt key Hs) as (k0 & k1 & ->).
    set (f0 := init_prepare _ _ _).
    set (f1 := filter_combine _ _ _).
    destruct (smoother_two split (fun x => x) fs_inputs (discrete_build_smoother 2 gt (fun x => x))
                f0 f1 key Hs) as (q0 & q1 & Hsm).
    exists [f0; f1]. do 2 eexists. split; [reflexivity|]. split; [exact Hsm|].
    unfold sdist.
    cbn [smoother_combine discrete_build_smoother discrete_smoother_combine sm_a smoothing_operator].
    assert (Hpred : esum 2 (fun j => emul (gt (fs_inputs f1) j 1%nat) (fdist f0 j)) = Fin 0).
    { unfold gt, f0, W8_tr. cbn. apply Fin_eq. lra. }
    assert (Hbad : forall k, (k < 2)%nat -> get_reverse_kernel 2 (fdist f0) (gt (fs_inputs f1)) 1 k = NaN).
    { intros k Hk. unfold get_reverse_kernel. rewrite Hpred.
      replace (emul (gt (fs_inputs f1) k 1%nat) (fdist f0 k)) with (Fin 0); [apply ediv_00|].
      revert k Hk. apply two_cases; unfold gt, f0, W8_tr; cbn; apply Fin_eq; lra. }
    assert (Hprep : sm_a (smoother_prepare (discrete_build_smoother (Key:=nat) 2 gt (fun x => x)) f0 (fs_inputs f1) q1)
                    = get_reverse_kernel 2 (fdist f0) (gt (fs_inputs f1))) by reflexivity.
    rewrite Hprep. clear Hprep.
    split; unfold smoothing_operator, matmul; cbn [esum];
      rewrite Hbad by lia; now rewrite emul_NaN_r, eadd_NaN_r.
Qed.

Lemma discrete_example :
  let init := fun _ : nat => 1 / 2 in
  let s := {| tr := fun _ _ => 1 / 2; lik := fun j => exp (INR j) |} in
  let gi := fun (_ : unit) (_ : nat) => Fin (1 / 2) in
  let gt := fun (_ : unit) (_ _ : nat) => Fin (1 / 2) in
  let gl := fun (_ : unit) (j : nat) => Fin (INR j) in
  good_init 2 (gi tt) init /\
  Forall2 (fun x s => good_step 2 (gt x) (gl x) s) [tt; tt] [s; s] /\
  Forall (finite_lls 2) [s; s] /\ Forall (rows_possible 2) [s; s] /\
  (forall t s' i, nth_error [s; s] t = Some s' -> (i < 2)%nat ->
     0 < lsum (fun j => posterior 2 init (firstn t [s; s]) t j * tr s' j i) (seq 0 2)).
Proof.
  intros init s gi gt gl.
  assert (Hinit : good_init 2 (gi tt) init).
  { split; [|auto]. unfold init. split; [intros; lra | simpl; lra]. }
  assert (Hst : stochastic 2 (tr s)).
  { intros i Hi. split; [intros; simpl; lra | simpl; lra]. }
  assert (Hgood : good_step 2 (gt tt) (gl tt) s).
  { repeat split; auto; intros; simpl; lra. }
  assert (Hfin : finite_lls 2 s) by (intros j Hj; apply exp_pos).
  assert (Hrows : rows_possible 2 s) by (apply finite_rows; auto).
  assert (Hsplit : split_ok (fun (_ : unit) n => repeat tt n)) by (intros k n; apply repeat_length).
  assert (Hsteps : Forall2 (fun x s => good_step 2 (gt x) (gl x) s) [tt; tt] [s; s]) by auto.
  assert (Hrows2 : Forall (rows_possible 2) [s; s]) by auto.
  repeat split; auto; try (apply Hinit).
  intros t s' i Ht Hi.
  assert (Hs' : s' = s) by (destruct t as [|[|t]]; simpl in Ht; try congruence; destruct t; discriminate).
  subst s'.
  destruct (discrete_filter_exact 2 ltac:(lia) (fun (_ : unit) n => repeat tt n) Hsplit gi gt gl
              tt [tt; tt] init [s; s] Hinit Hsteps Hrows2 false None) as (sts & _ & Hl & _ & Hex).
  assert (Htl : (t <= 2)%nat).
  { assert (t < 2)%nat by (change 2%nat with (length [s; s]); apply nth_error_Some; congruence). lia. }
  destruct (nth_error sts t) as [st|] eqn:E; [|apply nth_error_None in E; simpl in Hl; lia].
  destruct (Hex t st E) as (HZ & _).
  rewrite (lsum_seq_ext _ (fun j => joint_at 2 init (firstn t [s; s]) t j / evidence 2 init (firstn t [s; s]) * (1/2)))
    by (intros; reflexivity).
  rewrite lsum_scal_r, lsum_div.
  pose proof (evidence_joint_at 2 init (firstn t [s; s]) t ltac:(rewrite firstn_length; simpl length; lia)) as He.
  cbv beta in He. set (Z := evidence 2 init (firstn t [s; s])) in *.
  change (lsum (joint_at 2 init (firstn t [s; s]) t) (seq 0 2)) with
         (lsum (fun j => joint_at 2 init (firstn t [s; s]) t j) (seq 0 2)).
  rewrite <- He. replace (Z / Z) with 1 by (field; lra). lra.
Qed.
