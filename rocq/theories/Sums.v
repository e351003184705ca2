(** Finite sums over lists. *)
From Coq Require Import Reals List Arith Lia Lra.
From Verif Require Import DiscreteSpec.
Import ListNotations.
Open Scope R_scope.

Lemma lsum_ext {A} (f g : A -> R) l : (forall a, In a l -> f a = g a) -> lsum f l = lsum g l.
Proof. induction l; simpl; intros H; auto. rewrite H, IHl; auto. Qed.

Lemma lsum_app {A} (f : A -> R) l m : lsum f (l ++ m) = lsum f l + lsum f m.
Proof. induction l; simpl; [lra|]. rewrite IHl; lra. Qed.

Lemma lsum_plus {A} (f g : A -> R) l : lsum (fun a => f a + g a) l = lsum f l + lsum g l.
Proof. induction l; simpl; [lra|]. rewrite IHl; lra. Qed.

Lemma lsum_scal {A} (f : A -> R) c l : lsum (fun a => c * f a) l = c * lsum f l.
Proof. induction l; simpl; [lra|]. rewrite IHl; lra. Qed.

Lemma lsum_scal_r {A} (f : A -> R) c l : lsum (fun a => f a * c) l = lsum f l * c.
Proof. induction l; simpl; [lra|]. rewrite IHl; lra. Qed.

Lemma lsum_div {A} (f : A -> R) c l : lsum (fun a => f a / c) l = lsum f l / c.
Proof. unfold Rdiv. apply lsum_scal_r. Qed.

Lemma lsum_zero {A} (l : list A) : lsum (fun _ => 0) l = 0.
Proof. induction l; simpl; lra. Qed.

Lemma lsum_swap {A B} (f : A -> B -> R) l m :
  lsum (fun a => lsum (fun b => f a b) m) l = lsum (fun b => lsum (fun a => f a b) l) m.
Proof.
  induction l as [|a l IH]; simpl; [now rewrite lsum_zero|].
  now rewrite IH, lsum_plus.
Qed.

Lemma lsum_map {A B} (f : B -> R) (g : A -> B) l : lsum f (map g l) = lsum (fun a => f (g a)) l.
Proof. induction l; simpl; congruence. Qed.

Lemma lsum_flat_map {A B} (f : B -> R) (g : A -> list B) l :
  lsum f (flat_map g l) = lsum (fun a => lsum f (g a)) l.
Proof. induction l; simpl; auto. now rewrite lsum_app, IHl. Qed.

Lemma lsum_nonneg {A} (f : A -> R) l : (forall a, In a l -> 0 <= f a) -> 0 <= lsum f l.
Proof. induction l; simpl; intros H; [lra|]. pose proof (H a (or_introl eq_refl)). specialize (IHl ltac:(auto)). lra. Qed.

Lemma lsum_le {A} (f g : A -> R) l : (forall a, In a l -> f a <= g a) -> lsum f l <= lsum g l.
Proof. induction l; simpl; intros H; [lra|]. pose proof (H a (or_introl eq_refl)). specialize (IHl ltac:(auto)). lra. Qed.

Lemma lsum_pos {A} (f : A -> R) l a :
  (forall a, In a l -> 0 <= f a) -> In a l -> 0 < f a -> 0 < lsum f l.
Proof.
  induction l as [|b l IH]; simpl; intros H Hin Hp; [tauto|].
  assert (0 <= f b) by auto. assert (0 <= lsum f l) by (apply lsum_nonneg; auto).
  destruct Hin as [->|Hin]; [lra|]. specialize (IH ltac:(auto) Hin Hp). lra.
Qed.

Lemma lsum_pos_ex {A} (f : A -> R) l : 0 < lsum f l -> exists a, In a l /\ 0 < f a.
Proof.
  induction l as [|b l IH]; simpl; intros H; [lra|].
  destruct (Rlt_dec 0 (f b)) as [Hb|Hb]; [eauto|].
  destruct IH as (a & Ha & Hp); [lra|]. eauto.
Qed.

Lemma lsum_zero_all {A} (f : A -> R) l :
  (forall a, In a l -> 0 <= f a) -> lsum f l = 0 -> forall a, In a l -> f a = 0.
Proof.
  intros Hn H0 a Ha. destruct (Req_dec (f a) 0) as [|Hne]; auto.
  assert (0 <= f a) by auto. assert (0 < lsum f l) by (eapply lsum_pos; eauto; lra). lra.
Qed.

(** Sums over [seq 0 n] *)
Lemma lsum_seq_S (f : nat -> R) n : lsum f (seq 0 (S n)) = lsum f (seq 0 n) + f n.
Proof. rewrite seq_S, lsum_app. simpl. lra. Qed.

Lemma lsum_seq_ext (f g : nat -> R) n :
  (forall i, (i < n)%nat -> f i = g i) -> lsum f (seq 0 n) = lsum g (seq 0 n).
Proof. intros H. apply lsum_ext. intros a Ha. apply in_seq in Ha. apply H. lia. Qed.

Lemma lsum_seq_delta (f : nat -> R) n i :
  (i < n)%nat -> lsum (fun j => if Nat.eqb i j then f j else 0) (seq 0 n) = f i.
Proof.
  induction n; intros Hi; [lia|]. rewrite lsum_seq_S.
  destruct (Nat.eqb_spec i n) as [->|Hne].
  - rewrite (lsum_seq_ext _ (fun _ => 0)); [rewrite lsum_zero; lra|].
    intros j Hj. destruct (Nat.eqb_spec n j); [lia|auto].
  - rewrite IHn by lia. lra.
Qed.

Lemma lsum_seq_delta' (f : nat -> R) n i :
  (i < n)%nat -> lsum (fun j => if Nat.eqb j i then f j else 0) (seq 0 n) = f i.
Proof.
  intros Hi. rewrite <- (lsum_seq_delta f n i Hi). apply lsum_seq_ext.
  intros j _. now rewrite Nat.eqb_sym.
Qed.
