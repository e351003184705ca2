(** Iterated means. *)
From Coq Require Import Reals List Arith Bool Lia Lra FunctionalExtensionality.
From Coquelicot Require Import Coquelicot.
From Verif Require Import DiscreteSpec Sums IterSpec.
Import ListNotations.
Open Scope R_scope.

Ltac inR := match goal with |- @eq _ ?a ?b => change (@eq R a b) end.
Lemma min01 : Rmin 0 1 = 0. Proof. apply Rmin_left; lra. Qed.
Lemma max01 : Rmax 0 1 = 1. Proof. apply Rmax_right; lra. Qed.
Lemma RInt_ext01 (f g : R -> R) : (forall u, 0 < u < 1 -> f u = g u) -> RInt f 0 1 = RInt g 0 1.
Proof. intros H. apply RInt_ext. rewrite min01, max01. exact H. Qed.
Lemma ex_RInt_ext01 (f g : R -> R) : (forall u, 0 < u < 1 -> f u = g u) -> ex_RInt f 0 1 -> ex_RInt g 0 1.
Proof. intros H. apply ex_RInt_ext. rewrite min01, max01. exact H. Qed.
Lemma RInt_lin (f g : R -> R) a b : ex_RInt f 0 1 -> ex_RInt g 0 1 ->
  ex_RInt (fun u => a * f u + b * g u) 0 1 /\ RInt (fun u => a * f u + b * g u) 0 1 = a * RInt f 0 1 + b * RInt g 0 1.
Proof.
  intros Hf Hg. assert (H : is_RInt (fun u => a * f u + b * g u) 0 1 (a * RInt f 0 1 + b * RInt g 0 1)).
  { apply (is_RInt_plus (V := R_NormedModule) (fun u => a * f u) (fun u => b * g u)).
    - apply (is_RInt_scal (V := R_NormedModule)). now apply (RInt_correct (V := R_CompleteNormedModule)).
    - apply (is_RInt_scal (V := R_NormedModule)). now apply (RInt_correct (V := R_CompleteNormedModule)). }
  split; [eexists; exact H|now apply is_RInt_unique].
Qed.
Lemma RInt_c (c : R) : ex_RInt (fun _ => c) 0 1 /\ RInt (fun _ => c) 0 1 = c.
Proof. split; [apply ex_RInt_const|]. rewrite RInt_const. unfold scal; simpl. unfold mult; simpl. ring. Qed.

(** equality on draws in the open interval is enough *)
Definition inside (us : list R) : Prop := List.Forall (fun u => 0 < u < 1) us.
Lemma imean_ext k : forall f g, (forall us, length us = k -> inside us -> f us = g us) -> imean k f = imean k g.
Proof.
  induction k; intros f g H; cbn [imean]; [apply H; [reflexivity|constructor]|].
  apply RInt_ext01. intros u Hu. apply IHk. intros us L I. apply H; [simpl; lia|now constructor].
Qed.
Lemma igood_ext k : forall f g, (forall us, length us = k -> inside us -> f us = g us) -> igood k f -> igood k g.
Proof.
  induction k; intros f g H; cbn [igood]; [easy|]. intros (A & B). split.
  - intros u Hu. apply IHk with (fun us => f (u :: us)); [|now apply A]. intros us L I. apply H; [simpl; lia|now constructor].
  - apply ex_RInt_ext01 with (2 := B). intros u Hu. apply imean_ext. intros us L I. apply H; [simpl; lia|now constructor].
Qed.
Lemma imean_const k c : igood k (fun _ => c) /\ imean k (fun _ => c) = c.
Proof.
  induction k as [|k (G & M)]; [split; [exact I|reflexivity]|]. cbn [imean igood]. rewrite M. split; [|apply RInt_c].
  split; [easy|apply RInt_c].
Qed.
Lemma imean_lin k : forall f g a b, igood k f -> igood k g ->
  igood k (fun us => a * f us + b * g us) /\ imean k (fun us => a * f us + b * g us) = a * imean k f + b * imean k g.
Proof.
  induction k; intros f g a b; cbn [imean igood]; [easy|]. intros (F1 & F2) (G1 & G2).
  assert (E : forall u, 0 < u < 1 -> imean k (fun us => a * f (u :: us) + b * g (u :: us))
    = a * imean k (fun us => f (u :: us)) + b * imean k (fun us => g (u :: us))) by (intros u Hu; apply IHk; auto).
  destruct (RInt_lin _ _ a b F2 G2) as (L1 & L2). split; [split|].
  - intros u Hu. apply IHk; auto.
  - apply ex_RInt_ext01 with (2 := L1). intros u Hu. now rewrite E.
  - rewrite (RInt_ext01 _ _ E). exact L2.
Qed.
Lemma imean_lsum {A} k (l : list A) (c : A -> R) (f : A -> list R -> R) : (forall a, In a l -> igood k (f a)) ->
  igood k (fun us => lsum (fun a => c a * f a us) l) /\
  imean k (fun us => lsum (fun a => c a * f a us) l) = lsum (fun a => c a * imean k (f a)) l.
Proof.
  induction l as [|a l IH]; intros H; [apply (imean_const k 0)|]. cbn [lsum].
  destruct IH as (A1 & A2); [intros; apply H; now right|].
  destruct (imean_lin k (f a) (fun us => lsum (fun a => c a * f a us) l) (c a) 1) as (B1 & B2); [apply H; now left|exact A1|].
  split.
  - apply igood_ext with (2 := B1). intros; ring.
  - rewrite <- A2. rewrite (imean_ext k _ (fun us => c a * f a us + 1 * lsum (fun a => c a * f a us) l)) by (intros; ring).
    rewrite B2. ring.
Qed.
Lemma imean_app a b : forall f, imean (a + b) f = imean a (fun us => imean b (fun vs => f (us ++ vs))).
Proof. induction a; intros f; [reflexivity|]. change (S a + b)%nat with (S (a + b)). cbn [imean]. f_equal. apply functional_extensionality. intros u. apply IHa. Qed.
Lemma igood_app a b : forall f, (forall us, length us = a -> inside us -> igood b (fun vs => f (us ++ vs))) ->
  igood a (fun us => imean b (fun vs => f (us ++ vs))) -> igood (a + b) f.
Proof.
  induction a; intros f H; [|change (S a + b)%nat with (S (a + b)); cbn [igood]].
  - intros _. apply (H []); [reflexivity|constructor].
  - intros (A & B). split.
    + intros u Hu. apply IHa; [|now apply A]. intros us L I. apply (H (u :: us)); [simpl; lia|now constructor].
    + apply ex_RInt_ext01 with (2 := B). intros u Hu. now rewrite imean_app.
Qed.
(** a function of one coordinate *)
Lemma imean_coord k : forall j h, (j < k)%nat -> ex_RInt h 0 1 ->
  igood k (fun us => h (nth j us 0)) /\ imean k (fun us => h (nth j us 0)) = RInt h 0 1.
Proof.
  induction k; intros j h Hj Hh; [lia|]. cbn [imean igood]. destruct j as [|j]; cbn [nth].
  - assert (E : forall u, imean k (fun _ => h u) = h u) by (intros; apply imean_const).
    split; [split|].
    + intros. apply imean_const.
    + apply ex_RInt_ext01 with (2 := Hh). intros. now rewrite E.
    + apply RInt_ext01. intros; apply E.
  - destruct (IHk j h ltac:(lia) Hh) as (A & B). rewrite B. split; [split; [easy|apply RInt_c]|apply RInt_c].
Qed.
(** expectations over draws and an independent source *)
Lemma igood_expect k : (forall c, igood k (fun _ => c) /\ imean k (fun _ => c) = c).
Proof. exact (imean_const k). Qed.
