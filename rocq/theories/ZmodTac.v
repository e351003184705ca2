(** A small reflexive tactic for equalities in an abelian group (used for matrices). *)
From mathcomp Require Import all_ssreflect all_algebra.
Set Implicit Arguments.
Unset Strict Implicit.
Unset Printing Implicit Defensive.
Local Open Scope ring_scope.
Import GRing.Theory.

Inductive zexp := ZAtom of nat | ZAdd of zexp & zexp | ZOpp of zexp | ZZero.
Fixpoint zeval (V : zmodType) (env : seq V) (e : zexp) : V :=
  match e with
  | ZAtom i => nth 0 env i
  | ZAdd a b => zeval env a + zeval env b
  | ZOpp a => - zeval env a
  | ZZero => 0
  end.
Fixpoint zcoef (e : zexp) (i : nat) : int :=
  match e with
  | ZAtom j => if i == j then 1%Z else 0%Z
  | ZAdd a b => zcoef a i + zcoef b i
  | ZOpp a => - zcoef a i
  | ZZero => 0
  end.
Fixpoint zbound (e : zexp) : nat :=
  match e with
  | ZAtom i => i.+1
  | ZAdd a b => maxn (zbound a) (zbound b)
  | ZOpp a => zbound a
  | ZZero => 0
  end.
Lemma zevalE (V : zmodType) (env : seq V) e n : (zbound e <= n)%N ->
  zeval env e = \sum_(i < n) nth 0 env i *~ zcoef e i.
Proof.
elim: e => [j|a IHa b IHb|a IHa|] /=.
- move=> jn; rewrite (bigD1 (Ordinal jn)) //= eqxx mulr1z big1 ?addr0 // => i /eqP ij.
  by case: eqP => // e; case: ij; apply: val_inj.
- rewrite geq_max => /andP[ha hb]; rewrite IHa // IHb // -big_split /=.
  by apply: eq_bigr => i _; rewrite mulrzDl.
- by move=> ha; rewrite IHa // -sumrN; apply: eq_bigr => i _; rewrite mulrNz.
- by rewrite big1 // => i _; rewrite mulr0z.
Qed.
Definition zcheck (a b : zexp) : bool :=
  all (fun i => zcoef a i == zcoef b i) (iota 0 (maxn (zbound a) (zbound b))).
Lemma zcheckP (V : zmodType) (env : seq V) a b : zcheck a b -> zeval env a = zeval env b.
Proof.
move=> /allP h; set n := maxn (zbound a) (zbound b).
rewrite (@zevalE _ env a n) ?leq_maxl // (@zevalE _ env b n) ?leq_maxr //.
by apply: eq_bigr => i _; rewrite (eqP (h i _)) // mem_iota add0n /=.
Qed.

Ltac z_index x env :=
  match env with
  | cons ?y _ => let _ := match goal with _ => unify x y end in constr:(O)
  | cons _ ?env' => let i := z_index x env' in constr:(S i)
  end.
Ltac z_mem x env :=
  match env with
  | nil => constr:(false)
  | cons ?y _ => let _ := match goal with _ => unify x y end in constr:(true)
  | cons _ ?env' => z_mem x env'
  end.
Ltac z_atoms e env :=
  lazymatch e with
  | GRing.add ?a ?b => let env := z_atoms a env in z_atoms b env
  | GRing.opp ?a => z_atoms a env
  | GRing.zero _ => env
  | _ => lazymatch z_mem e env with true => env | false => constr:(cons e env) end
  end.
Ltac z_reify e env :=
  lazymatch e with
  | GRing.add ?a ?b => let a := z_reify a env in let b := z_reify b env in constr:(ZAdd a b)
  | GRing.opp ?a => let a := z_reify a env in constr:(ZOpp a)
  | GRing.zero _ => constr:(ZZero)
  | _ => let i := z_index e env in constr:(ZAtom i)
  end.
(** prove an equality that holds in every abelian group *)
Ltac zmod :=
  lazymatch goal with
  | |- @eq ?T ?a ?b =>
    let env := z_atoms a (@nil T) in
    let env := z_atoms b env in
    let ra := z_reify a env in
    let rb := z_reify b env in
    refine (@zcheckP _ env ra rb _); vm_compute; reflexivity
  end.
(** expand products of matrices and cancel *)
Ltac mxexpand :=
  rewrite ?(mulmxDl, mulmxDr, mulmxBl, mulmxBr, mulNmx, mulmxN, mulmx1, mul1mx, mulmx0, mul0mx, mulmxA,
            opprD, opprK, oppr0).
Ltac mxzmod := mxexpand; zmod.
Goal forall (V : zmodType) (x y z : V), x + (y - z) = y + (x - z) + 0.
Proof. by move=> *; zmod. Qed.
Goal forall (F : fieldType) n (A B C : 'M[F]_n), A *m (B - C) + A *m C = A *m B.
Proof. by move=> *; mxzmod. Qed.

Section Tr.
Variable F : fieldType.
Lemma trmxD m n (A B : 'M[F]_(m, n)) : (A + B)^T = A^T + B^T. Proof. exact: linearD. Qed.
Lemma trmxB m n (A B : 'M[F]_(m, n)) : (A - B)^T = A^T - B^T. Proof. exact: linearB. Qed.
Lemma trmxN m n (A : 'M[F]_(m, n)) : (- A)^T = - A^T. Proof. exact: linearN. Qed.
Lemma trmxZ m n a (A : 'M[F]_(m, n)) : (a *: A)^T = a *: A^T. Proof. exact: linearZ. Qed.
End Tr.
Definition trmxE := (trmxD, trmxB, trmxN, @trmx_mul, @trmxK, @trmx1, @trmx0).
