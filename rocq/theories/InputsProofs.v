(** Which model inputs the states of a run carry: generic facts about the drivers. *)
From Coq Require Import List Arith Lia.
From Verif Require Import ScanModel DriverSpec DriverProofs InputsSpec.
Import ListNotations.

Lemma carried_map {St Inp} (proj : St -> Inp) (states : list St) (inputs : list Inp) :
  length states = length inputs -> carried (fun s x => proj s = x) states inputs ->
  map proj states = inputs.
Proof.
  revert inputs. induction states as [|s states IH]; intros [|x inputs] Hl Hc; try discriminate; auto.
  simpl. f_equal.
  - apply (Hc 0); reflexivity.
  - apply IH; [now injection Hl|]. intros t s' x'. apply (Hc (S t)).
Qed.

(** States that may be missing (a NaN or an exception): the ones that are there. *)
Lemma carried_map_list {St St' Inp} (f : St' -> St) (proj : St' -> Inp) (rec : St -> Inp -> Prop)
      (ss : list St') (inputs : list Inp) :
  (forall s x, rec (f s) x -> proj s = x) ->
  length (map f ss) = length inputs -> carried rec (map f ss) inputs -> map proj ss = inputs.
Proof.
  intros Hf Hl Hc. rewrite map_length in Hl. apply carried_map; [exact Hl|].
  intros t s x Hs Hx. apply Hf. apply (Hc t); [|exact Hx]. now rewrite nth_error_map, Hs.
Qed.

Section Filter.
  Context {Inp Key St : Type}.
  Variable split : Key -> nat -> list Key.
  Hypothesis split_spec : split_ok split.
  Variable obj : Filter Inp Key St.
  Variable rec : St -> Inp -> Prop.
  Hypothesis rec_init : forall x k, rec (init_prepare obj x k) x.
  Hypothesis rec_prepare : forall x k, rec (filter_prepare obj x k) x.
  Hypothesis rec_combine : forall s1 s2 x, rec s2 x -> rec (filter_combine obj s1 s2) x.

  Lemma filter_carried (inputs : list Inp) (parallel : bool) (key : option Key) :
    inputs <> [] ->
    exists states, filter split obj inputs parallel key = Ok states /\
      length states = length inputs /\ carried rec states inputs.
  Proof.
    intros Hne.
    destruct (filter_interval split obj
                (fun i k s => forall x, nth_error inputs (k - 1) = Some x -> rec s x)
                inputs parallel key split_spec Hne) as (states & E & L & H).
    - intros i j k x y _ _ _ _ Hy z Hz. apply rec_combine. auto.
    - intros x k Hx y Hy. cbn [Nat.sub] in Hy. assert (x = y) as <- by congruence. apply rec_init.
    - intros t x k Hx y Hy. replace (S (S t) - 1) with (S t) in Hy by lia.
      assert (x = y) as <- by congruence. apply rec_prepare.
    - exists states. split; [exact E|]. split; [exact L|]. intros t s x Hs Hx.
      apply (H t s Hs). now replace (S t - 1) with t by lia.
  Qed.
End Filter.

Section Smoother.
  Context {Inp Key FSt SSt : Type}.
  Variable split : Key -> nat -> list Key.
  Hypothesis split_spec : split_ok split.
  Variable dummy_like : Inp -> Inp.
  Variable inputs_of : FSt -> Inp.
  Variable obj : Smoother Inp Key FSt SSt.
  Variable rec : SSt -> Inp -> Prop.
  Hypothesis rec_convert : forall f x k, rec (convert_filter_to_smoother_state obj f x k) (dummy_like x).
  Hypothesis rec_prepare : forall f x k, rec (smoother_prepare obj f x k) x.
  Hypothesis rec_combine : forall s1 s2 x, rec s1 x -> rec (smoother_combine obj s1 s2) x.

  Lemma smoother_carried (fstates : list FSt) (inputs trans : list Inp) (parallel : bool) (key : option Key) :
    trans <> [] -> length fstates = S (length trans) ->
    (inputs = trans \/ exists x, inputs = x :: trans) ->
    exists states,
      smoother split dummy_like inputs_of obj fstates (Some inputs) parallel key = Ok states /\
      length states = S (length trans) /\ carried rec states trans /\
      (forall s, nth_error states (length trans) = Some s -> exists x, rec s (dummy_like x)).
  Proof.
    intros Hne Hl Hi.
    assert (E : smoother split dummy_like inputs_of obj fstates (Some inputs) parallel key
              = smoother split dummy_like inputs_of obj fstates (Some trans) parallel key).
    { destruct Hi as [->|[x ->]]; [reflexivity|]. now apply smoother_drop_first. }
    destruct (smoother_interval split dummy_like inputs_of obj
                (fun i k s => (forall x, nth_error trans i = Some x -> rec s x) /\
                              (i = length trans -> exists x, rec s (dummy_like x)))
                fstates trans parallel key split_spec Hne Hl) as (states & Es & L & H).
    - intros i j k x y _ _ _ [Hx1 Hx2] _. split.
      + intros z Hz. apply rec_combine. auto.
      + intros Ei. destruct (Hx2 Ei) as [z Hz]. exists z. now apply rec_combine.
    - intros f x k _. split; [|intros _; exists x; apply rec_convert].
      intros y Hy. exfalso. assert (length trans < length trans); [|lia].
      apply nth_error_Some. congruence.
    - intros t f x k _ Hx. split.
      + intros y Hy. assert (x = y) as <- by congruence. apply rec_prepare.
      + intros ->. exfalso. assert (length trans < length trans); [|lia].
        apply nth_error_Some. congruence.
    - exists states. rewrite E. split; [exact Es|]. split; [exact L|]. split.
      + intros t s x Hs Hx. now apply (H t s Hs).
      + intros s Hs. now apply (H _ s Hs).
  Qed.
End Smoother.
