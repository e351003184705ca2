(** Properties C01-C04: the drivers. *)
From Coq Require Import List Arith Lia.
From Verif Require Import ScanModel ScanProofs DriverSpec DriverProofs.
Import ListNotations.

(** C01: sequential filtering succeeds on every non-empty input and its output is the online forward
    pass, which determines the states uniquely. *)
Theorem C01_filter_online {Inp Key St} (split : Key -> nat -> list Key) (obj : Filter Inp Key St)
        (inputs : list Inp) (key : option Key) :
  split_ok split -> inputs <> [] ->
  exists states,
    filter split obj inputs false key = Ok states /\
    forward_run obj inputs (child_key split key (length inputs)) states /\
    (forall other, forward_run obj inputs (child_key split key (length inputs)) other ->
                   other = states).
Proof.
  intros Hs Hi. destruct (filter_sequential split Hs obj inputs key Hi) as (st & H1 & H2).
  exists st. repeat split; try apply H2; auto. intros o Ho. eapply forward_run_unique; eauto.
Qed.
Print Assumptions C01_filter_online.

(** C01: causality. Two runs over the same horizon whose inputs agree up to time [t] have the same
    states up to time [t]. *)
Theorem C01_filter_causal {Inp Key St} (split : Key -> nat -> list Key) (obj : Filter Inp Key St)
        (in1 in2 : list Inp) (key : option Key) (s1 s2 : list St) (t : nat) :
  split_ok split -> length in1 = length in2 -> firstn (S t) in1 = firstn (S t) in2 ->
  filter split obj in1 false key = Ok s1 -> filter split obj in2 false key = Ok s2 ->
  firstn (S t) s1 = firstn (S t) s2.
Proof.
  intros Hs Hl Hp H1 H2.
  destruct in1 as [|a in1]; [discriminate|]. destruct in2 as [|b in2]; [discriminate|].
  destruct (filter_sequential split Hs obj (a :: in1) key ltac:(discriminate)) as (q1 & E1 & R1).
  destruct (filter_sequential split Hs obj (b :: in2) key ltac:(discriminate)) as (q2 & E2 & R2).
  rewrite E1 in H1. rewrite E2 in H2. injection H1 as ->. injection H2 as ->.
  rewrite Hl in R1.
  eapply firstn_nth_ext; [apply R1 | apply R2 | exact Hl |].
  eapply forward_run_causal; eauto.
Qed.
Print Assumptions C01_filter_causal.

(** Empty inputs raise. *)
Theorem C01_filter_empty {Inp Key St} (split : Key -> nat -> list Key) (obj : Filter Inp Key St) p key :
  filter split obj [] p key = Err IndexError.
Proof. exact (eq_refl _). Qed.
Print Assumptions C01_filter_empty.

(** A toy filter whose states record everything that went into them; keys are paths. *)
Definition toy_split (k : list nat) (n : nat) : list (list nat) := map (fun i => i :: k) (seq 0 n).
Lemma toy_split_ok : split_ok toy_split.
Proof. intros k n. unfold toy_split. now rewrite map_length, seq_length. Qed.
Definition toy_filter : Filter nat (list nat) (list (nat * option (list nat))) :=
  MkFilter (fun x k => [(x, k)]) (fun x k => [(x, k)]) (fun a b => a ++ b).

Example C01_example :
  filter toy_split toy_filter [7; 8; 9] false (Some [])
  = Ok [ [(7, Some [0])];
         [(7, Some [0]); (8, Some [1])];
         [(7, Some [0]); (8, Some [1]); (9, Some [2])] ].
Proof. reflexivity. Qed.

(** C02: parallel = sequential for combines associative up to an equivalence on a closed domain that
    contains the prepared states. *)
Theorem C02_parallel_filter {Inp Key St} (split : Key -> nat -> list Key) (obj : Filter Inp Key St)
        (D : St -> Prop) (E : St -> St -> Prop) (inputs : list Inp) (key : option Key) :
  split_ok split -> inputs <> [] ->
  assoc_upto (filter_combine obj) D E ->
  (forall x k, nth_error inputs 0 = Some x -> D (init_prepare obj x k)) ->
  (forall t x k, nth_error inputs (S t) = Some x -> D (filter_prepare obj x k)) ->
  exists ps ss, filter split obj inputs true key = Ok ps /\
                filter split obj inputs false key = Ok ss /\ Forall2 E ps ss.
Proof. exact (fun Hs => filter_parallel split Hs obj D E inputs key). Qed.
Print Assumptions C02_parallel_filter.

(** C02 with exact associativity: the two modes return the same list. *)
Theorem C02_parallel_filter_eq {Inp Key St} (split : Key -> nat -> list Key) (obj : Filter Inp Key St)
        (inputs : list Inp) (key : option Key) :
  split_ok split ->
  (forall x y z, filter_combine obj (filter_combine obj x y) z
                 = filter_combine obj x (filter_combine obj y z)) ->
  filter split obj inputs true key = filter split obj inputs false key.
Proof. exact (filter_parallel_eq split obj inputs key). Qed.
Print Assumptions C02_parallel_filter_eq.

Example C02_example :
  (forall x y z, filter_combine toy_filter (filter_combine toy_filter x y) z
                 = filter_combine toy_filter x (filter_combine toy_filter y z)) /\
  filter toy_split toy_filter [1;2;3;4;5;6;7] true None
  = filter toy_split toy_filter [1;2;3;4;5;6;7] false None.
Proof. split; [intros; symmetry; apply app_assoc | reflexivity]. Qed.

(** Without associativity the claim is false: subtraction at time 3. *)
Example C02_assoc_needed :
  let obj := MkFilter (fun x (_ : option nat) => x) (fun x _ => x) Nat.sub in
  filter (fun _ n => repeat 0 n) obj [10;1;2;1] true None
  <> filter (fun _ n => repeat 0 n) obj [10;1;2;1] false None.
Proof. discriminate. Qed.

(** C03: sequential smoothing is the backward pass, for inputs given with or without the initial
    entry. *)
Theorem C03_smoother_backward {Inp Key FSt SSt} (split : Key -> nat -> list Key)
        (dummy_like : Inp -> Inp) (inputs_of : FSt -> Inp) (obj : Smoother Inp Key FSt SSt)
        (fstates : list FSt) (x0 : Inp) (trans' inputs : list Inp) (key : option Key) :
  let trans := x0 :: trans' in
  split_ok split -> length fstates = S (length trans) ->
  (inputs = trans \/ exists x, inputs = x :: trans) ->
  exists states,
    smoother split dummy_like inputs_of obj fstates (Some inputs) false key = Ok states /\
    backward_run obj fstates trans (dummy_like x0) (child_key split key (S (length trans))) states /\
    (forall other, backward_run obj fstates trans (dummy_like x0)
                     (child_key split key (S (length trans))) other -> other = states).
Proof.
  intros trans Hs Hl Hi.
  destruct (smoother_sequential split Hs dummy_like inputs_of obj fstates trans x0 inputs key
              ltac:(discriminate) Hl eq_refl Hi) as (st & H1 & H2).
  exists st. split; [exact H1|]. split; [exact H2|].
  intros o Ho. exact (backward_run_unique obj fstates trans _ _ _ _ Ho H2).
Qed.
Print Assumptions C03_smoother_backward.

(** C03: both accepted lengths are interchangeable, in both modes. *)
Theorem C03_smoother_lengths_agree {Inp Key FSt SSt} (split : Key -> nat -> list Key)
        (dummy_like : Inp -> Inp) (inputs_of : FSt -> Inp) (obj : Smoother Inp Key FSt SSt)
        (fstates : list FSt) (x : Inp) (trans : list Inp) (parallel : bool) (key : option Key) :
  length fstates = S (length trans) ->
  smoother split dummy_like inputs_of obj fstates (Some (x :: trans)) parallel key =
  smoother split dummy_like inputs_of obj fstates (Some trans) parallel key.
Proof. exact (smoother_drop_first split dummy_like inputs_of obj fstates x trans parallel key). Qed.
Print Assumptions C03_smoother_lengths_agree.

(** C03: any other length raises ValueError. *)
Theorem C03_smoother_bad_length {Inp Key FSt SSt} (split : Key -> nat -> list Key)
        (dummy_like : Inp -> Inp) (inputs_of : FSt -> Inp) (obj : Smoother Inp Key FSt SSt)
        (fstates : list FSt) (inputs : list Inp) (parallel : bool) (key : option Key) :
  fstates <> [] -> length inputs <> length fstates -> S (length inputs) <> length fstates ->
  smoother split dummy_like inputs_of obj fstates (Some inputs) parallel key = Err ValueError.
Proof. exact (smoother_bad_length split dummy_like inputs_of obj fstates inputs parallel key). Qed.
Print Assumptions C03_smoother_bad_length.

Definition toy_smoother
  : Smoother nat (list nat) nat (list (nat * nat * option (list nat))) :=
  MkSmoother (fun f x k => [(f, x, k)]) (fun f x k => [(f, x, k)]) (fun a b => a ++ b).

Example C03_example :
  smoother toy_split (fun _ => 99) (fun _ => 0) toy_smoother [10;11;12] (Some [5;6;7]) false (Some [])
  = Ok [ [(10, 6, Some [1]); (11, 7, Some [2]); (12, 99, Some [0])];
         [(11, 7, Some [2]); (12, 99, Some [0])];
         [(12, 99, Some [0])] ].
Proof. reflexivity. Qed.

(** C04: parallel = sequential smoothing. *)
Theorem C04_parallel_smoother {Inp Key FSt SSt} (split : Key -> nat -> list Key)
        (dummy_like : Inp -> Inp) (inputs_of : FSt -> Inp) (obj : Smoother Inp Key FSt SSt)
        (D : SSt -> Prop) (E : SSt -> SSt -> Prop)
        (fstates : list FSt) (trans : list Inp) (key : option Key) :
  split_ok split -> trans <> [] -> length fstates = S (length trans) ->
  assoc_upto (smoother_combine obj) D E ->
  (forall f x k, nth_error fstates (length trans) = Some f ->
     D (convert_filter_to_smoother_state obj f x k)) ->
  (forall t f x k, nth_error fstates t = Some f -> nth_error trans t = Some x ->
     D (smoother_prepare obj f x k)) ->
  exists ps ss,
    smoother split dummy_like inputs_of obj fstates (Some trans) true key = Ok ps /\
    smoother split dummy_like inputs_of obj fstates (Some trans) false key = Ok ss /\
    Forall2 E ps ss.
Proof. exact (fun Hs => smoother_parallel split Hs dummy_like inputs_of obj D E fstates trans key). Qed.
Print Assumptions C04_parallel_smoother.

Example C04_example :
  smoother toy_split (fun _ => 99) (fun _ => 0) toy_smoother [10;11;12;13;14] (Some [5;6;7;8]) true (Some [])
  = smoother toy_split (fun _ => 99) (fun _ => 0) toy_smoother [10;11;12;13;14] (Some [5;6;7;8]) false (Some []).
Proof. reflexivity. Qed.

(** C03: one filter state only (T = 0): both accepted lengths lead to indexing an empty array. *)
Example C03_T0 :
  smoother toy_split (fun _ => 99) (fun _ => 0) toy_smoother [10] (Some [5]) false (Some []) = Err IndexError
  /\ smoother toy_split (fun _ => 99) (fun _ => 0) toy_smoother [10] (Some []) false (Some []) = Err IndexError.
Proof. split; reflexivity. Qed.
