(** Expectations of runs: integrability, linearity, functions of one or two seeds. *)
From Coq Require Import Reals List Arith Bool Lia Lra FunctionalExtensionality.
From Verif Require Import Ext ScanModel DiscreteSpec Sums UnbiasedSpec Martingale PairSpec.
Import ListNotations.
Open Scope R_scope.

Section Integrable.
  Context {Key U : Type}.
  Variable keq : forall a b : Key, {a = b} + {a <> b}.
  Variable mean : (U -> R) -> R.
  Variable good : (U -> R) -> Prop.
  Hypothesis Hm : expectation_ok mean good.
  Notation E := (expectation keq mean).
  Notation ok := (integrable keq mean good).

  Lemma integrable_ext ks : forall F G w, (forall w', (forall k, ~ In k ks -> w' k = w k) -> F w' = G w') -> ok ks F w -> ok ks G w.
  Proof.
    induction ks as [|k ks IH]; intros F G w H; [easy|]. cbn [integrable]. intros (A & B).
    assert (Q : forall u w', (forall k', ~ In k' ks -> w' k' = assign keq w k u k') -> F w' = G w').
    { intros u w' Hw. apply H. intros k' Hk'. rewrite Hw by (intros ?; apply Hk'; now right). apply assign_other. intros ->. apply Hk'. now left. }
    split.
    - rewrite (functional_extensionality _ (fun u => E ks F (assign keq w k u))); [exact A|].
      intros u. symmetry. apply expectation_ext. apply Q.
    - intros u. apply IH with F; [apply Q|apply B].
  Qed.
  Lemma integrable_const ks c : forall w, ok ks (fun _ => c) w /\ E ks (fun _ => c) w = c.
  Proof using Hm.
    destruct Hm as (Hc & _). induction ks as [|k ks IH]; intros w; [easy|]. cbn [integrable expectation].
    rewrite (functional_extensionality _ (fun _ => c) (fun u => proj2 (IH (assign keq w k u)))). split; [split|]; try apply Hc. intros u. apply IH.
  Qed.
  Lemma integrable_lin ks F G a b : forall w, ok ks F w -> ok ks G w ->
    ok ks (fun w => a * F w + b * G w) w /\ E ks (fun w => a * F w + b * G w) w = a * E ks F w + b * E ks G w.
  Proof using Hm.
    destruct Hm as (_ & Hl). induction ks as [|k ks IH]; intros w; [easy|]. cbn [integrable expectation]. intros (F1 & F2) (G1 & G2).
    rewrite (functional_extensionality _ (fun u => a * E ks F (assign keq w k u) + b * E ks G (assign keq w k u)) (fun u => proj2 (IH _ (F2 u) (G2 u)))).
    split; [split|]; try now apply Hl. intros u. now apply IH.
  Qed.
  Lemma integrable_lsum {A} ks (l : list A) (c : A -> R) (F : A -> (Key -> U) -> R) w : (forall a, In a l -> ok ks (F a) w) ->
    ok ks (fun w => lsum (fun a => c a * F a w) l) w /\ E ks (fun w => lsum (fun a => c a * F a w) l) w = lsum (fun a => c a * E ks (F a) w) l.
  Proof using Hm.
    induction l as [|a l IH]; intros H; cbn [lsum]; [apply integrable_const|].
    destruct IH as (A1 & A2); [intros; apply H; now right|].
    destruct (integrable_lin ks (F a) (fun w => lsum (fun a => c a * F a w) l) (c a) 1 w (H a (or_introl eq_refl)) A1) as (B1 & B2).
    rewrite A2 in B2.
    assert (Q : (fun w => c a * F a w + 1 * lsum (fun a => c a * F a w) l) = (fun w => c a * F a w + lsum (fun a => c a * F a w) l))
      by (apply functional_extensionality; intros; ring).
    rewrite Q in B1, B2. split; [exact B1|]. rewrite B2. ring.
  Qed.
  Lemma integrable_app ks ks' F : forall w, (forall w1, (forall k, ~ In k ks -> w1 k = w k) -> ok ks' F w1) ->
    ok ks (fun w1 => E ks' F w1) w -> ok (ks ++ ks') F w.
  Proof.
    induction ks as [|k ks IH]; intros w H; cbn [app integrable]; [intros _; now apply H|].
    intros (A & B). split.
    - rewrite (functional_extensionality _ (fun u => E ks (fun w1 => E ks' F w1) (assign keq w k u))); [exact A|]. intros u. apply expectation_app.
    - intros u. apply IH; [|apply B]. intros w1 Hw. apply H. intros k' Hk'. rewrite Hw by (intros ?; apply Hk'; now right).
      apply assign_other. intros ->. apply Hk'. now left.
  Qed.
  (** a function of one seed *)
  Lemma expect_at ks d (g : U -> R) : good g -> forall j w, (j < length ks)%nat -> NoDup ks ->
    ok ks (fun w => g (w (nth j ks d))) w /\ E ks (fun w => g (w (nth j ks d))) w = mean g.
  Proof using Hm.
    intros Hg. induction ks as [|k ks IH]; intros j w Hj Hn; [simpl in Hj; lia|]. inversion_clear Hn as [|? ? Hk Hn'].
    destruct j as [|j]; cbn [nth integrable expectation].
    - assert (Q : forall u, ok ks (fun w => g (w k)) (assign keq w k u) /\ E ks (fun w => g (w k)) (assign keq w k u) = g u).
      { intros u. destruct (integrable_const ks (g u) (assign keq w k u)) as (A & B). split.
        - apply integrable_ext with (2 := A). intros w' Hw. now rewrite Hw, assign_same by exact Hk.
        - etransitivity; [|exact B]. apply expectation_ext. intros w' Hw. now rewrite Hw, assign_same by exact Hk. }
      rewrite (functional_extensionality _ g (fun u => proj2 (Q u))). split; [split|]; auto. apply Q.
    - cbn [length] in Hj. pose proof (fun u => IH j (assign keq w k u) ltac:(lia) Hn') as Q.
      rewrite (functional_extensionality _ (fun _ => mean g) (fun u => proj2 (Q u))). destruct Hm as (Hc & _). split; [split|]; try apply Hc. apply Q.
  Qed.
  (** a function of two seeds; the one drawn first is the first argument *)
  Lemma expect_two ks d (g : U -> U -> R) : (forall u, good (g u)) -> good (fun u => mean (g u)) -> forall j k w, (j < k < length ks)%nat -> NoDup ks ->
    ok ks (fun w => g (w (nth j ks d)) (w (nth k ks d))) w /\ E ks (fun w => g (w (nth j ks d)) (w (nth k ks d))) w = mean (fun u => mean (g u)).
  Proof using Hm.
    intros Hg Hg'. induction ks as [|a ks IH]; intros j k w Hj Hn; [simpl in Hj; lia|]. inversion_clear Hn as [|? ? Hk Hn'].
    destruct k as [|k]; [lia|]. cbn [length] in Hj. destruct j as [|j]; cbn [nth integrable expectation].
    - assert (Q : forall u, ok ks (fun w => g (w a) (w (nth k ks d))) (assign keq w a u) /\ E ks (fun w => g (w a) (w (nth k ks d))) (assign keq w a u) = mean (g u)).
      { intros u. destruct (expect_at ks d (g u) (Hg u) k (assign keq w a u) ltac:(lia) Hn') as (A & B). split.
        - apply integrable_ext with (2 := A). intros w' Hw. now rewrite (Hw a), assign_same by exact Hk.
        - rewrite <- B. apply expectation_ext. intros w' Hw. now rewrite (Hw a), assign_same by exact Hk. }
      rewrite (functional_extensionality _ (fun u => mean (g u)) (fun u => proj2 (Q u))). split; [split|]; auto. apply Q.
    - pose proof (fun u => IH j k (assign keq w a u) ltac:(lia) Hn') as Q.
      rewrite (functional_extensionality _ (fun _ => mean (fun u => mean (g u))) (fun u => proj2 (Q u))).
      destruct Hm as (Hc & _). split; [split|]; try apply Hc. apply Q.
  Qed.
  Lemma expect_pair ks d (g : U -> U -> R) : (forall u, good (fun v => g u v)) -> (forall v, good (fun u => g u v)) ->
    good (fun u => mean (fun v => g u v)) -> good (fun v => mean (fun u => g u v)) ->
    forall j k w, (j < length ks)%nat -> (k < length ks)%nat -> j <> k -> NoDup ks ->
    ok ks (fun w => g (w (nth j ks d)) (w (nth k ks d))) w /\
    E ks (fun w => g (w (nth j ks d)) (w (nth k ks d))) w = (if (j <? k)%nat then mean (fun u => mean (fun v => g u v)) else mean (fun v => mean (fun u => g u v))).
  Proof using Hm.
    intros A B C D j k w Hj Hk H Hn. destruct (Nat.ltb_spec j k).
    - apply expect_two; auto; lia.
    - apply (expect_two ks d (fun v u => g u v) B D k j); auto; lia.
  Qed.
End Integrable.

(** runs with integrable values *)
Section Run.
  Context {Key U St Inp : Type}.
  Variable keq : forall a b : Key, {a = b} + {a <> b}.
  Variable mean : (U -> R) -> R.
  Variable good : (U -> R) -> Prop.
  Variable split : Key -> nat -> list Key.
  Variable n : nat.
  Variable stepf : (Key -> U) -> St -> Inp -> Key -> result St.
  Variable state_key : St -> Key.
  Variable inv : St -> Prop.
  Variable V : list Inp -> St -> R.
  Hypothesis Hok : forall w s x k, inv s -> exists s', stepf w s x k = Ok s' /\ inv s' /\ state_key s' = k.
  Hypothesis Hloc : forall w w' s x k, inv s -> (forall k', In k' (split (state_key s) n) -> w k' = w' k') ->
    stepf w s x k = stepf w' s x k.
  Definition fair_integrable (r : list Inp) : Prop := forall x r' s k w, r = x :: r' -> inv s -> NoDup (split (state_key s) n) ->
    integrable keq mean good (split (state_key s) n) (fun w => run_val V r' (stepf w s x k)) w /\
    expectation keq mean (split (state_key s) n) (fun w => run_val V r' (stepf w s x k)) w = V r s.
  Lemma fair_from r : fair_integrable r -> fair keq mean split n stepf state_key inv V r.
  Proof. intros H x r' s k w E I Hn. now apply H. Qed.
  Lemma run_integrable steps : forall s w, inv s -> NoDup (used split n (state_key s) steps) ->
    (forall i, fair_integrable (skipn i (map fst steps))) ->
    integrable keq mean good (used split n (state_key s) steps) (fun w => run_val V [] (final stepf w s steps)) w.
  Proof using Hok Hloc.
    induction steps as [|[x k] steps IH]; intros s w Hs Hnd Hf; [exact I|].
    cbn [used] in *. destruct (NoDup_app_inv _ _ Hnd) as (N1 & N2 & N3).
    destruct (Hf 0%nat x (map fst steps) s k w eq_refl Hs N1) as (HI & _).
    assert (T : forall w1, exists s1, stepf w1 s x k = Ok s1 /\ inv s1 /\ state_key s1 = k /\
      forall w2, (forall k', ~ In k' (used split n k steps) -> w2 k' = w1 k') -> final stepf w2 s ((x, k) :: steps) = final stepf w2 s1 steps).
    { intros w1. destruct (Hok w1 s x k Hs) as (s1 & E1 & I1 & K1). exists s1. split; [exact E1|]. split; [exact I1|]. split; [exact K1|].
      intros w2 Hw2. assert (E2 : stepf w2 s x k = Ok s1).
      { rewrite <- E1. apply Hloc; [exact Hs|]. intros k' Hk'. apply Hw2. now apply N3. }
      unfold final. simpl. now rewrite E2. }
    apply integrable_app.
    - intros w1 _. destruct (T w1) as (s1 & E1 & I1 & K1 & F).
      apply integrable_ext with (F := fun w => run_val V [] (final stepf w s1 steps)).
      + intros w2 Hw2. now rewrite F.
      + rewrite <- K1. apply IH; [exact I1|now rewrite K1|]. intros i. exact (Hf (S i)).
    - apply integrable_ext with (2 := HI). intros w1 _. destruct (T w1) as (s1 & E1 & I1 & K1 & F). rewrite E1. cbn [run_val].
      rewrite (expectation_ext keq mean _ _ (fun w => run_val V [] (final stepf w s1 steps))).
      + symmetry. rewrite <- K1. apply (run_expectation keq mean split n stepf state_key inv V Hok Hloc steps s1 w1 I1); [now rewrite K1|].
        intros i. apply fair_from. exact (Hf (S i)).
      + intros w2 Hw2. now rewrite F.
  Qed.
End Run.
