(** Coq's real numbers as a mathcomp real field.  Only stdlib axioms are used: those of the reals and,
    for the choice structure that mathcomp asks of every ring, constructive indefinite description. *)
From Coq Require Import Reals ClassicalEpsilon FunctionalExtensionality Lra.
From mathcomp Require Import all_ssreflect all_algebra.
Set Implicit Arguments.
Unset Strict Implicit.
Unset Printing Implicit Defensive.
Local Open Scope R_scope.

Definition eqr (x y : R) : bool := if Req_EM_T x y then true else false.
Lemma eqrP : Equality.axiom eqr.
Proof. by move=> x y; rewrite /eqr; case: Req_EM_T => ?; constructor. Qed.
Canonical R_eqMixin := EqMixin eqrP.
Canonical R_eqType := Eval hnf in EqType R R_eqMixin.

Definition pickR (P : pred R) (n : nat) : option R :=
  match excluded_middle_informative (exists x, P x) with
  | left h => Some (proj1_sig (constructive_indefinite_description _ h))
  | right _ => None
  end.
Fact pickR_some P n x : pickR P n = Some x -> P x.
Proof.
rewrite /pickR; case: excluded_middle_informative => // h [<-].
exact: (proj2_sig (constructive_indefinite_description _ h)).
Qed.
Fact pickR_ex (P : pred R) : (exists x : R, P x) -> exists n, pickR P n.
Proof. by move=> h; exists 0%N; rewrite /pickR; case: excluded_middle_informative. Qed.
Fact pickR_ext (P Q : pred R) : P =1 Q -> pickR P =1 pickR Q.
Proof.
move=> PQ n; have -> : P = Q; last by [].
exact: functional_extensionality_dep PQ.
Qed.
Definition R_choiceMixin : choiceMixin R := Choice.Mixin pickR_some pickR_ex pickR_ext.
Canonical R_choiceType := Eval hnf in ChoiceType R R_choiceMixin.

Fact RplusA : associative Rplus. Proof. by move=> x y z; rewrite Rplus_assoc. Qed.
Definition R_zmodMixin := ZmodMixin RplusA Rplus_comm Rplus_0_l Rplus_opp_l.
Canonical R_zmodType := Eval hnf in ZmodType R R_zmodMixin.
Fact RmultA : associative Rmult. Proof. by move=> x y z; rewrite Rmult_assoc. Qed.
Fact R1_neq0 : R1 != R0. Proof. by apply/eqP; exact: R1_neq_R0. Qed.
Fact Rmult_pl : left_distributive Rmult Rplus. Proof. by move=> x y z; rewrite Rmult_plus_distr_r. Qed.
Definition R_comRingMixin := ComRingMixin RmultA Rmult_comm Rmult_1_l Rmult_pl R1_neq0.
Canonical R_ringType := Eval hnf in RingType R R_comRingMixin.
Canonical R_comRingType := Eval hnf in ComRingType R Rmult_comm.

Definition Rinvx (r : R) : R := if (r != 0) then / r else r.
Fact mulVR (x : R) : x != 0 -> Rmult (Rinvx x) x = 1.
Proof. by move=> h; rewrite /Rinvx h; apply: Rinv_l; apply/eqP. Qed.
Fact Rinv_0x : Rinvx 0 = 0. Proof. by rewrite /Rinvx eqxx. Qed.
Definition R_fieldUnitMixin := FieldUnitMixin mulVR Rinv_0x.
Canonical R_unitRingType := Eval hnf in UnitRingType R R_fieldUnitMixin.
Canonical R_comUnitRingType := Eval hnf in [comUnitRingType of R].
Fact R_fieldMixin : GRing.Field.mixin_of [unitRingType of R].
Proof. by move=> x. Qed.
Definition R_idomainMixin := FieldIdomainMixin R_fieldMixin.
Canonical R_idomainType := Eval hnf in IdomainType R R_idomainMixin.
Canonical R_fieldType := Eval hnf in FieldType R R_fieldMixin.

Definition Rleb (x y : R) : bool := if Rle_dec x y then true else false.
Definition Rltb (x y : R) : bool := if Rlt_dec x y then true else false.
Lemma RlebP x y : reflect (x <= y) (Rleb x y).
Proof. by rewrite /Rleb; case: Rle_dec => ?; constructor. Qed.
Lemma RltbP x y : reflect (x < y) (Rltb x y).
Proof. by rewrite /Rltb; case: Rlt_dec => ?; constructor. Qed.
Fact Rle0D x y : Rleb 0 x -> Rleb 0 y -> Rleb 0 (x + y).
Proof. by move=> /RlebP ? /RlebP ?; apply/RlebP; lra. Qed.
Fact Rle0M x y : Rleb 0 x -> Rleb 0 y -> Rleb 0 (x * y).
Proof. by move=> /RlebP ? /RlebP ?; apply/RlebP; apply: Rmult_le_pos. Qed.
Fact Rle0_anti x : Rleb 0 x -> Rleb x 0 -> x = 0.
Proof. by move=> /RlebP ? /RlebP ?; lra. Qed.
Fact Rsub_ge0 x y : Rleb 0 (y - x) = Rleb x y.
Proof. by apply/RlebP/RlebP => ?; lra. Qed.
Fact Rle0_total x : Rleb 0 x || Rleb x 0.
Proof. by case: (RlebP 0 x) => //= ?; apply/RlebP; lra. Qed.
Fact Rnorm_ge0 x : Rleb 0 x -> Rabs x = x.
Proof. by move=> /RlebP ?; rewrite Rabs_pos_eq. Qed.
Fact Rlt_defb x y : Rltb x y = (y != x) && Rleb x y.
Proof.
apply/RltbP/andP => [h|[/eqP h /RlebP ?]]; last lra.
by split; [apply/eqP; lra|apply/RlebP; lra].
Qed.
Definition R_leMixin : realLeMixin R_idomainType :=
  RealLeMixin Rle0D Rle0M Rle0_anti Rsub_ge0 Rle0_total Rabs_Ropp Rnorm_ge0 Rlt_defb.
Canonical R_porderType := POrderType ring_display R R_leMixin.
Canonical R_latticeType := LatticeType R R_leMixin.
Canonical R_distrLatticeType := DistrLatticeType R R_leMixin.
Canonical R_orderType := OrderType R R_leMixin.
Canonical R_numDomainType := NumDomainType R R_leMixin.
Canonical R_normedZmodType := NormedZmodType R R R_leMixin.
Canonical R_numFieldType := [numFieldType of R].
Canonical R_realDomainType := [realDomainType of R].
Canonical R_realFieldType := [realFieldType of R].

(** Translating mathcomp operations back to the Reals library. *)
Local Open Scope ring_scope.
Import GRing.Theory Num.Theory.
Lemma RplusE (x y : R) : x + y = Rplus x y. Proof. by []. Qed.
Lemma RmultE (x y : R) : x * y = Rmult x y. Proof. by []. Qed.
Lemma RoppE (x : R) : - x = Ropp x. Proof. by []. Qed.
Lemma RminusE (x y : R) : x - y = Rminus x y. Proof. by []. Qed.
Lemma R0E : (0 : R) = IZR 0. Proof. by []. Qed.
Lemma R1E : (1 : R) = IZR 1. Proof. by []. Qed.
Lemma RinvE (x : R) : x != 0 -> x^-1 = Rinv x.
Proof. by move=> h; rewrite /GRing.inv /= /Rinvx h. Qed.
Lemma RdivE (x y : R) : y != 0 -> x / y = Rdiv x y.
Proof. by move=> h; rewrite RinvE. Qed.
Lemma RleP (x y : R) : reflect (Rle x y) (x <= y). Proof. exact: RlebP. Qed.
Lemma RltP (x y : R) : reflect (Rlt x y) (x < y). Proof. exact: RltbP. Qed.
Lemma RnormE (x : R) : `|x| = Rabs x. Proof. by []. Qed.
Lemma RnatE (n : nat) : n%:R = INR n.
Proof. by elim: n => // n IH; rewrite -addn1 natrD IH plus_INR. Qed.
Definition RE := (RplusE, RmultE, RoppE, RnormE, R0E, R1E).

(** From here on real arguments are read in [ring_scope]. *)
#[global] Bind Scope ring_scope with R.
#[global] Arguments Rlt _%ring_scope _%ring_scope.
#[global] Arguments Rle _%ring_scope _%ring_scope.
#[global] Arguments ln _%ring_scope.
#[global] Arguments exp _%ring_scope.
#[global] Arguments sqrt _%ring_scope.

Lemma RtwoE : 2%:R = IZR 2.
Proof. by rewrite RnatE. Qed.
Lemma RhalfE : (2%:R^-1 : R) = Rinv (IZR 2).
Proof. by rewrite RinvE ?RtwoE //; apply/eqP; exact: (not_eq_sym (Rlt_not_eq _ _ Rlt_0_2)). Qed.
(** translate ring operations to those of the standard library and call its tactics *)
Ltac toR := rewrite ?(RhalfE, RtwoE, RnatE) ?RE; try lazymatch goal with |- @eq _ ?a ?b => change (@eq R a b) end.
