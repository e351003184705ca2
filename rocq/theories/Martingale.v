(** Expectations of runs that draw independent seeds from distinct keys. *)
From Coq Require Import Reals List Arith Bool Lia Lra FunctionalExtensionality.
From Verif Require Import Ext ScanModel ScanProofs DriverSpec DriverProofs DiscreteSpec Sums
  ResamplingModel ResamplingSpec SmcModel SmcSpec SmcProofs UnbiasedSpec KeyProofs.
Import ListNotations.
Open Scope R_scope.

Section Expect.
  Context {Key U : Type}.
  Variable keq : forall a b : Key, {a = b} + {a <> b}.
  Variable mean : (U -> R) -> R.
  Variable good : (U -> R) -> Prop.
  Hypothesis Hm : expectation_ok mean good.

  Lemma assign_same (w : Key -> U) k u : assign keq w k u k = u.
  Proof. unfold assign. destruct keq; congruence. Qed.
  Lemma assign_other (w : Key -> U) k u k' : k <> k' -> assign keq w k u k' = w k'.
  Proof. unfold assign. destruct keq; congruence. Qed.

  (** only the values on assignments that differ from [w] at most on [ks] matter *)
  Lemma expectation_ext ks : forall F G w, (forall w', (forall k, ~ In k ks -> w' k = w k) -> F w' = G w') ->
    expectation keq mean ks F w = expectation keq mean ks G w.
  Proof.
    induction ks as [|k ks IH]; intros F G w H; simpl.
    - apply H. auto.
    - f_equal. apply functional_extensionality. intros u. apply IH. intros w' Hw'. apply H.
      intros k' Hk'. rewrite Hw' by (intros ?; apply Hk'; now right). apply assign_other. intros ->. apply Hk'. now left.
  Qed.
  Lemma expectation_app ks ks' : forall F w,
    expectation keq mean (ks ++ ks') F w = expectation keq mean ks (fun w1 => expectation keq mean ks' F w1) w.
  Proof.
    induction ks as [|k ks IH]; intros F w; simpl; auto.
    f_equal. apply functional_extensionality. intros u. apply IH.
  Qed.

  (** a sum of functions of one seed each *)
  Lemma expectation_sum ks : forall (ags : list (R * (U -> R))) C w, NoDup ks -> length ags = length ks ->
    (forall ag, In ag ags -> good (snd ag)) ->
    expectation keq mean ks (fun w => C + lsum (fun p => fst (snd p) * snd (snd p) (w (fst p))) (combine ks ags)) w
    = C + lsum (fun ag => fst ag * mean (snd ag)) ags.
  Proof using Hm.
    induction ks as [|k ks IH]; intros ags C w Hnd L Hg; destruct ags as [|[a g] ags]; try discriminate; [reflexivity|].
    simpl in L. injection L as L. inversion_clear Hnd as [|? ? Hk Hnd'].
    cbn [expectation combine lsum fst snd].
    assert (E : (fun u => expectation keq mean ks (fun w0 => C + (a * g (w0 k) +
        lsum (fun p => fst (snd p) * snd (snd p) (w0 (fst p))) (combine ks ags))) (assign keq w k u))
      = (fun u => 1 * (C + lsum (fun ag => fst ag * mean (snd ag)) ags) + a * g u)).
    { apply functional_extensionality. intros u.
      rewrite (expectation_ext ks _ (fun w0 => (C + a * g u) +
        lsum (fun p => fst (snd p) * snd (snd p) (w0 (fst p))) (combine ks ags))).
      - rewrite IH; auto. { ring. } intros ag Hag. apply Hg. now right.
      - intros w' Hw'. rewrite (Hw' k Hk), assign_same. ring. }
    rewrite E. destruct Hm as (Hc & Hl).
    destruct (Hc (C + lsum (fun ag => fst ag * mean (snd ag)) ags)) as (Gc & Mc).
    destruct (Hl (fun _ => C + lsum (fun ag => fst ag * mean (snd ag)) ags) g 1 a Gc (Hg (a, g) (or_introl eq_refl))) as (_ & M).
    rewrite M, Mc. ring.
  Qed.
End Expect.

(** ** runs *)
Section Run.
  Context {Key U St Inp : Type}.
  Variable keq : forall a b : Key, {a = b} + {a <> b}.
  Variable mean : (U -> R) -> R.
  Variable split : Key -> nat -> list Key.
  Variable n : nat.
  Variable stepf : (Key -> U) -> St -> Inp -> Key -> result St.
  Variable state_key : St -> Key.
  Variable inv : St -> Prop.
  Variable V : list Inp -> St -> R.
  Definition run_val (r : list Inp) (s : result St) : R := match s with Ok s => V r s | Err _ => 0 end.
  Hypothesis Hok : forall w s x k, inv s -> exists s', stepf w s x k = Ok s' /\ inv s' /\ state_key s' = k.
  Hypothesis Hloc : forall w w' s x k, inv s -> (forall k', In k' (split (state_key s) n) -> w k' = w' k') ->
    stepf w s x k = stepf w' s x k.
  Definition fair (r : list Inp) : Prop := forall x r' s k w, r = x :: r' -> inv s -> NoDup (split (state_key s) n) ->
    expectation keq mean (split (state_key s) n) (fun w => run_val r' (stepf w s x k)) w = V r s.

  Fixpoint used (c : Key) (steps : list (Inp * Key)) : list Key :=
    match steps with [] => [] | (x, k) :: r => split c n ++ used k r end.
  Definition final (w : Key -> U) (s : St) (steps : list (Inp * Key)) : result St :=
    fold_left (fun r xk => bind r (fun s => stepf w s (fst xk) (snd xk))) steps (Ok s).

  Lemma final_ok w steps : forall s, inv s -> exists s', final w s steps = Ok s' /\ inv s'.
  Proof using Hok.
    induction steps as [|[x k] steps IH]; intros s Hs; [exists s; auto|].
    unfold final. simpl. destruct (Hok w s x k Hs) as (s' & E & I & _). rewrite E. now apply IH.
  Qed.

  Lemma NoDup_app_inv {A} (l m : list A) : NoDup (l ++ m) -> NoDup l /\ NoDup m /\ forall x, In x l -> ~ In x m.
  Proof.
    induction l as [|a l IH]; simpl; intros H; [repeat split; auto; constructor|].
    inversion_clear H as [|? ? H1 H2]. destruct (IH H2) as (A1 & A2 & A3).
    split; [constructor; auto; intros ?; apply H1; apply in_or_app; auto|]. split; [exact A2|].
    intros x [<-|Hx] Hm; [apply H1; apply in_or_app; auto|]. now apply (A3 x).
  Qed.

  Lemma run_expectation steps : forall s w, inv s -> NoDup (used (state_key s) steps) ->
    (forall i, fair (skipn i (map fst steps))) ->
    expectation keq mean (used (state_key s) steps) (fun w => run_val [] (final w s steps)) w = V (map fst steps) s.
  Proof using Hok Hloc.
    induction steps as [|[x k] steps IH]; intros s w Hs Hnd Hf; [reflexivity|].
    cbn [used] in *. destruct (NoDup_app_inv _ _ Hnd) as (N1 & N2 & N3).
    rewrite expectation_app. cbn [map fst].
    pose proof (Hf 0%nat x (map fst steps) s k w eq_refl Hs N1) as HF. cbn [skipn map fst] in HF. rewrite <- HF.
    apply expectation_ext. intros w1 _.
    destruct (Hok w1 s x k Hs) as (s1 & E1 & I1 & K1). rewrite E1. cbn [run_val].
    rewrite <- (IH s1 w1 I1).
    - rewrite K1. apply expectation_ext. intros w2 Hw2.
      assert (E2 : stepf w2 s x k = Ok s1).
      { rewrite <- E1. apply Hloc; [exact Hs|]. intros k' Hk'. apply Hw2. now apply N3. }
      unfold final. simpl. now rewrite E2.
    - now rewrite K1.
    - intros i. exact (Hf (S i)).
  Qed.
End Run.

(** consumed keys of a run, step by step *)
Lemma used_flat {Key Inp} (split : Key -> nat -> list Key) n (inputs : list Inp) : forall ks c, length ks = length inputs ->
  used split n c (combine inputs ks) = flat_map (fun k => split k n) (firstn (length inputs) (c :: ks)).
Proof.
  induction inputs as [|x inputs IH]; intros [|k ks] c L; try discriminate; [reflexivity|].
  simpl in L. injection L as L. simpl. f_equal. now apply IH.
Qed.
Lemma scan_last {S X} (body : S -> X -> S) (xs : list X) : forall s,
  nth_error (s :: scan_states body s xs) (length xs) = Some (fold_left body xs s).
Proof. induction xs as [|x xs IH]; intros s; [reflexivity|]. simpl. apply IH. Qed.
