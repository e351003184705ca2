(** Proofs about generated models: keys, simulated data, second moments. *)
From Coq Require Import Reals Lra Lia List FunctionalExtensionality.
From mathcomp Require Import all_ssreflect all_algebra.
From Verif Require Import RStruct MxBase GenModel GenSpec GenMoments UnbiasedSpec Martingale.
Set Implicit Arguments.
Unset Strict Implicit.
Unset Printing Implicit Defensive.
Local Open Scope ring_scope.
Import GRing.Theory Num.Theory.

Section Keys.
Variables (Key : Type) (split : Key -> nat -> list Key) (depth : Key -> nat).
Hypothesis tree : key_tree split depth.
Notation ka := (key_at split).

(** the draws of one step: Q, state noise, c, F, R, observation noise, d, H *)
Definition trans_keys k := [:: ka (ka k 4 0) 3 2; ka k 4 1; ka (ka k 4 0) 3 1; ka (ka k 4 0) 3 0].
Definition obs_keys k := [:: ka (ka k 4 2) 3 2; ka k 4 3; ka (ka k 4 2) 3 1; ka (ka k 4 2) 3 0].
Definition step_keys k := trans_keys k ++ obs_keys k.
(** P0, the initial noise, m0 *)
Definition init_keys k := [:: ka (ka k 5 1) 2 1; ka k 5 2; ka (ka k 5 1) 2 0].
Definition gen_keys k T := init_keys k ++ List.flat_map step_keys (split (ka k 5 0) T).

Lemma ka_nth k n i : (i < n)%N -> List.nth_error (split k n) i = Some (ka k n i).
Proof. by move=> /ltP h; apply: List.nth_error_nth'; have [-> _ _] := tree. Qed.
Lemma ka_depth k n i : (i < n)%N -> depth (ka k n i) = (depth k).+1.
Proof. by move=> h; have [_ _] := tree; apply; apply: List.nth_error_In; exact: ka_nth h. Qed.
Lemma ka_inj k n i k' n' i' : ka k n i = ka k' n' i' -> (i < n)%N -> (i' < n')%N -> k = k' /\ i = i'.
Proof.
move=> e h h'; have [_ H _] := tree; apply: (H k n i k' n' i' (ka k n i)); first exact: ka_nth.
by rewrite e; exact: ka_nth.
Qed.

Ltac dep := repeat (rewrite ka_depth //).
Ltac sep := let e := fresh "e" in
  intro e;
  first [ by have := congr1 depth e; rewrite !ka_depth //; lia
        | by have [] := ka_inj e isT isT
        | by have [e1 e2] := ka_inj e isT isT; have [] := ka_inj e1 isT isT ].

Lemma step_keys_NoDup k : List.NoDup (step_keys k).
Proof.
rewrite /step_keys /=.
repeat (constructor; first by move=> /= H; repeat (case: H => [H|H]; first by move: H; sep)).
by constructor.
Qed.
Lemma step_keys_depth k c : List.In c (step_keys k) -> depth c = (depth k).+1 \/ depth c = (depth k).+2.
Proof. by rewrite /step_keys /=; repeat (case; [move=> <-; rewrite !ka_depth //; auto|]). Qed.
Lemma step_keys_parent k c : List.In c (step_keys k) ->
  (exists i, (i < 4)%N /\ c = ka k 4 i) \/ (exists i j, [/\ (i < 4)%N, (j < 3)%N & c = ka (ka k 4 i) 3 j]).
Proof.
rewrite /step_keys /=.
case=> [<-|]; first by right; exists 0%N, 2%N.
case=> [<-|]; first by left; exists 1%N.
case=> [<-|]; first by right; exists 0%N, 1%N.
case=> [<-|]; first by right; exists 0%N, 0%N.
case=> [<-|]; first by right; exists 2%N, 2%N.
case=> [<-|]; first by left; exists 3%N.
case=> [<-|]; first by right; exists 2%N, 1%N.
by case=> [<-|//]; right; exists 2%N, 0%N.
Qed.
Lemma step_keys_disjoint k k' c : depth k = depth k' -> List.In c (step_keys k) -> List.In c (step_keys k') -> k = k'.
Proof.
move=> d /step_keys_parent [[i [hi ->]]|[i [j [hi hj ->]]]] /step_keys_parent [[i' [hi' e]]|[i' [j' [hi' hj' e]]]].
- by have [] := ka_inj e hi hi'.
- by have := congr1 depth e; rewrite !ka_depth //; lia.
- by have := congr1 depth e; rewrite !ka_depth //; lia.
- by have [e1 _] := ka_inj e hj hj'; have [] := ka_inj e1 hi hi'.
Qed.
Lemma rest_disjoint k ks d c : List.NoDup (k :: ks) -> (forall k', List.In k' (k :: ks) -> depth k' = d) ->
  List.In c (step_keys k) -> ~ List.In c (List.flat_map step_keys ks).
Proof.
move=> /List.NoDup_cons_iff [nk _] dd hc /List.in_flat_map [k' [hk' hc']].
have e : k = k' by apply: (step_keys_disjoint _ hc hc'); rewrite (dd k) ?(dd k') //; [right|left].
by subst k'.
Qed.
Lemma split_NoDup' k n : List.NoDup (split k n).
Proof.
have [_ H _] := tree; apply/List.NoDup_nth_error => i j lt e.
case Ei: (List.nth_error (split k n) i) => [c|]; last by move/List.nth_error_None: Ei; lia.
by have [] := H k n i k n j c Ei; rewrite -?e.
Qed.
Lemma flat_map_step_NoDup ks d : List.NoDup ks -> (forall k, List.In k ks -> depth k = d) ->
  List.NoDup (List.flat_map step_keys ks).
Proof.
elim: ks => [|k ks IH] /=; first by constructor.
move=> /List.NoDup_cons_iff [nk nd] dd.
have NDapp A (l1 l2 : list A) : List.NoDup l1 -> List.NoDup l2 -> (forall c, List.In c l1 -> ~ List.In c l2) -> List.NoDup (l1 ++ l2)%list.
  elim: l1 => [//|a l1 IHl] /List.NoDup_cons_iff [na n1] n2 H /=; constructor.
    by move=> hin; case: (List.in_app_or _ _ _ hin) => // h2; apply: (H a _ h2); left.
  by apply: IHl => // c hc; apply: H; right.
change (List.NoDup (step_keys k ++ List.flat_map step_keys ks)%list).
apply: NDapp; first exact: step_keys_NoDup.
  by apply: IH => // k' h; apply: dd; right.
move=> c hc /List.in_flat_map [k' [hk' hc']].
have e : k = k' by apply: (step_keys_disjoint _ hc hc'); rewrite (dd k) ?(dd k') //; [right|left].
by subst k'.
Qed.
Lemma scan_depth k n c : List.In c (split k n) -> depth c = (depth k).+1.
Proof. by have [_ _] := tree; apply. Qed.
Lemma gen_keys_NoDup k T : List.NoDup (gen_keys k T).
Proof.
rewrite /gen_keys; set r := List.flat_map _ _.
have nr : List.NoDup r.
  apply: (@flat_map_step_NoDup _ (depth k).+2); first exact: split_NoDup'.
  by move=> c /scan_depth ->; rewrite ka_depth.
have dr c : List.In c r -> (depth c > (depth k).+2)%coq_nat.
  move=> /List.in_flat_map [k' [/scan_depth hk' /step_keys_depth]]; rewrite hk' ka_depth //; lia.
rewrite /init_keys /=; constructor.
  case; first by sep.
  case; first by sep.
  by move=> /dr; rewrite !ka_depth //; lia.
constructor.
  case; first by sep.
  by move=> /dr; rewrite !ka_depth //; lia.
constructor=> //.
by move=> /dr; rewrite !ka_depth //; lia.
Qed.
End Keys.

(** ** the scan *)
Section Scan.
Variables (S X Y : Type) (body : S -> X -> S * Y).
Lemma lax_cons x k ks : lax_scan body x (k :: ks) =
  ((lax_scan body (body x k).1 ks).1, (body x k).2 :: (lax_scan body (body x k).1 ks).2).
Proof. by rewrite /=; case: (body x k) => x' s /=; case: (lax_scan _ _ _). Qed.
Lemma scan_length x ks : List.length (lax_scan body x ks).2 = List.length ks.
Proof. by elim: ks x => [//|k ks IH] x; rewrite lax_cons /= IH. Qed.
Fixpoint scan_path (x : S) (ks : list X) (t : nat) : S :=
  match t, ks with
  | t'.+1, k :: ks' => scan_path (body x k).1 ks' t'
  | _, _ => x
  end.
Lemma scan_nth x ks t k : List.nth_error ks t = Some k ->
  List.nth_error (lax_scan body x ks).2 t = Some (body (scan_path x ks t) k).2 /\
  scan_path x ks t.+1 = (body (scan_path x ks t) k).1.
Proof.
elim: t ks x => [|t IH] [|k0 ks] x // Et; rewrite lax_cons.
  by move: Et => /= [->]; split=> //; case: (ks).
exact: (IH ks _ Et).
Qed.
End Scan.

(** ** second moments *)
Section Second.
Variables (Key U : Type) (keq : forall a b : Key, {a = b} + {a <> b}).
Variable mean : (U -> R) -> R.
Variable good : (U -> R) -> Prop.
Hypothesis Hm : expectation_ok mean good.
Variables (split : Key -> nat -> list Key) (depth : Key -> nat).
Hypothesis tree : key_tree split depth.
Variables nrm uni : U -> forall m n : nat, 'M[R]_(m, n).
Variables nx ny : nat.
Hypothesis n_x1 : normal_moments mean good (fun u => nrm u nx 1).
Hypothesis n_xx : normal_moments mean good (fun u => nrm u nx nx).
Hypothesis n_yx : normal_moments mean good (fun u => nrm u ny nx).
Hypothesis n_y1 : normal_moments mean good (fun u => nrm u ny 1).
Hypothesis u_xx : uniform_entries mean good (fun u => uni u nx nx).
Hypothesis u_yy : uniform_entries mean good (fun u => uni u ny ny).
Notation ka := (key_at split).
Notation E := (expectation keq mean).
Let normal (w : Key -> U) k := nrm (w k).
Let uniform (w : Key -> U) k := uni (w k).
Notation body w := (@gen_body Key split (normal w) (uniform w) nx ny).

Lemma mean_aff f A B : good f -> mean (fun u => A * f u + B) = A * mean f + B.
Proof.
move=> hf; have [g e] := mean_scale Hm A hf.
by have [_ ->] := mean_add Hm g (mean_const Hm B).1; rewrite e (mean_const Hm B).2.
Qed.
Lemma E_const ks (c : R) w : E ks (fun _ => c) w = c.
Proof. by elim: ks w => [//|k ks IH] w /=; rewrite -[RHS](mean_const Hm c).2; congr mean; apply: functional_extensionality. Qed.

Definition tri n (u : U) : 'M[R]_n := \matrix_(i, j) (if (i < j)%N then 0 else uni u n n i j).
Lemma factorE w k n : generate_cholesky_factor (uniform w) k n = tri n (w k).
Proof. by apply/matrixP => i j; rewrite !mxE addn1. Qed.
Lemma bodyE w x k : let x' := (exp_eig_max / sqrt nx%:R) *: (nrm (w (ka (ka k 4 0) 3 0)) nx nx *m x)
     + (10%:R^-1 *: nrm (w (ka (ka k 4 0) 3 1)) nx 1 + tri nx (w (ka (ka k 4 0) 3 2)) *m nrm (w (ka k 4 1)) nx 1) in
  (body w x k).1 = x' /\
  gy (body w x k).2 = 1 *: (nrm (w (ka (ka k 4 2) 3 0)) ny nx *m x')
     + (1 *: nrm (w (ka (ka k 4 2) 3 1)) ny 1 + tri ny (w (ka (ka k 4 2) 3 2)) *m nrm (w (ka k 4 3)) ny 1).
Proof.
set F := \matrix_(i, j) (exp_eig_max * normal w (ka (ka k 4 0) 3 0) nx nx i j / sqrt nx%:R) : 'M[R]_nx.
have FE : F = (exp_eig_max / sqrt nx%:R) *: nrm (w (ka (ka k 4 0) 3 0)) nx nx.
  by apply/matrixP => i j; rewrite !mxE mulrAC.
rewrite /gen_body /generate_trans_model /generate_obs_model /= -/F FE !factorE !scale1r -scalemxAl.
by split; rewrite !addrA.
Qed.

Let a : R := exp_eig_max ^+ 2.
Definition offset n : R := n%:R / 100%:R + n%:R * n.+1%:R / 6%:R.
Lemma gain_sq (x : 'cV[R]_nx) : (exp_eig_max / sqrt nx%:R) ^+ 2 * nx%:R * normsq x = a * normsq x.
Proof.
case: nx x => [|n] x; first by rewrite /normsq big_ord0 !mulr0.
rewrite exprMn exprVn; have -> : sqrt n.+1%:R ^+ 2 = n.+1%:R :> R.
  by rewrite expr2 RnatE; apply: sqrt_sqrt; exact: pos_INR.
by rewrite mulfVK // pnatr_eq0.
Qed.
Lemma tenth_sq : (10%:R^-1 : R) ^+ 2 = 100%:R^-1.
Proof. by rewrite exprVn -natrX. Qed.

Lemma E4 (k1 k2 k3 k4 : Key) (G : U -> U -> U -> U -> R) w : List.NoDup [:: k1; k2; k3; k4] ->
  E [:: k1; k2; k3; k4] (fun w => G (w k1) (w k2) (w k3) (w k4)) w
  = mean (fun u1 => mean (fun u2 => mean (fun u3 => mean (fun u4 => G u1 u2 u3 u4)))).
Proof.
move=> /List.NoDup_cons_iff [m1 /List.NoDup_cons_iff [m2 /List.NoDup_cons_iff [m3 _]]].
have n12 : k2 <> k1 by move=> e; apply: m1; left.
have n13 : k3 <> k1 by move=> e; apply: m1; right; left.
have n14 : k4 <> k1 by move=> e; apply: m1; right; right; left.
have n23 : k3 <> k2 by move=> e; apply: m2; left.
have n24 : k4 <> k2 by move=> e; apply: m2; right; left.
have n34 : k4 <> k3 by move=> e; apply: m3; left.
rewrite /=; congr mean; apply: functional_extensionality => u1; congr mean; apply: functional_extensionality => u2.
congr mean; apply: functional_extensionality => u3; congr mean; apply: functional_extensionality => u4.
by rewrite !(assign_same, assign_other).
Qed.
Lemma NoDup_left A (l l' : list A) : List.NoDup (l ++ l')%list -> List.NoDup l /\ List.NoDup l'.
Proof.
elim: l => [|x l IH] /=; first by split=> //; constructor.
move=> /List.NoDup_cons_iff [nx' /IH [h1 h2]]; split=> //; constructor=> // h; apply: nx'.
by apply: List.in_or_app; left.
Qed.

Lemma NoDup_app_disjoint A (l l' : list A) c : List.NoDup (l ++ l')%list -> List.In c l -> ~ List.In c l'.
Proof.
elim: l => [//|x l IH] /= /List.NoDup_cons_iff [nx' nd] [e|h]; last exact: IH.
by subst x => h; apply: nx'; apply: List.in_or_app; right.
Qed.
(** E |a Z x + b z + L e|^2, drawing L, e, z, Z *)
Lemma E_affine m n (zz : U -> 'M[R]_(m, n)) (z e : U -> 'cV[R]_m) (uu : U -> 'M[R]_m) (g b : R) (x : 'cV[R]_n) A B :
  normal_moments mean good zz -> normal_moments mean good z -> normal_moments mean good e ->
  uniform_entries mean good uu ->
  let L u : 'M[R]_m := \matrix_(i, j) (if (i < j)%N then 0 else uu u i j) in
  mean (fun u1 => mean (fun u2 => mean (fun u3 => mean (fun u4 =>
    A * normsq (g *: (zz u4 *m x) + (b *: z u3 + L u1 *m e u2)) + B))))
  = A * (g ^+ 2 * m%:R * normsq x + (b ^+ 2 * m%:R + m%:R * m.+1%:R / 6%:R)) + B.
Proof.
move=> hzz hz he hu L.
transitivity (mean (fun u1 => A * (\sum_i \sum_j L u1 i j ^+ 2) + (A * (g ^+ 2 * m%:R * normsq x + b ^+ 2 * m%:R) + B))).
  congr mean; apply: functional_extensionality => u1.
  transitivity (mean (fun u2 => A * normsq (L u1 *m e u2) + (A * (g ^+ 2 * m%:R * normsq x + b ^+ 2 * m%:R) + B))).
    congr mean; apply: functional_extensionality => u2.
    transitivity (mean (fun u3 => A * normsq (b *: z u3 + L u1 *m e u2) + (A * (g ^+ 2 * m%:R * normsq x) + B))).
      congr mean; apply: functional_extensionality => u3.
      have [g1 e1] := mean_mul Hm g x (b *: z u3 + L u1 *m e u2) hzz.
      by rewrite (mean_aff A B g1) e1 mulrDr [A * normsq _ + _]addrCA addrA.
    have [g1 e1] := mean_add_noise Hm b (L u1 *m e u2) hz.
    by rewrite (mean_aff _ _ g1) e1; toR; ring.
  have [g1 e1] := mean_factor Hm (L u1) he.
  by rewrite (mean_aff _ _ g1) e1.
have [g1 e1] := mean_triangle Hm hu.
by rewrite (mean_aff _ _ g1) e1 addrA -mulrDr; congr (A * _ + B); rewrite addrC addrA.
Qed.

Lemma E_trans w x k A B :
  E (trans_keys split k) (fun w => A * normsq (body w x k).1 + B) w = A * (a * normsq x + offset nx) + B.
Proof.
have [nd _] := @NoDup_left _ (trans_keys split k) (obs_keys split k) (step_keys_NoDup tree k).
rewrite (_ : (fun w => A * normsq (body w x k).1 + B) = (fun w => A * normsq (
   (exp_eig_max / sqrt nx%:R) *: (nrm (w (ka (ka k 4 0) 3 0)) nx nx *m x)
     + (10%:R^-1 *: nrm (w (ka (ka k 4 0) 3 1)) nx 1 + tri nx (w (ka (ka k 4 0) 3 2)) *m nrm (w (ka k 4 1)) nx 1)) + B)); last first.
  by apply: functional_extensionality => w'; have [-> _] := bodyE w' x k.
rewrite (E4 (fun u1 u2 u3 u4 => A * normsq (
   (exp_eig_max / sqrt nx%:R) *: (nrm u4 nx nx *m x)
     + (10%:R^-1 *: nrm u3 nx 1 + tri nx u1 *m nrm u2 nx 1)) + B) w nd).
rewrite (E_affine (exp_eig_max / sqrt nx%:R) (10%:R^-1) x A B n_xx n_x1 n_x1 u_xx) gain_sq tenth_sq.
by rewrite /offset [100%:R^-1 * _]mulrC.
Qed.
Definition obs_offset n : R := n%:R + n%:R * n.+1%:R / 6%:R.
Lemma E_obs w x k : E (obs_keys split k) (fun w => normsq (
    1 *: (nrm (w (ka (ka k 4 2) 3 0)) ny nx *m x)
     + (1 *: nrm (w (ka (ka k 4 2) 3 1)) ny 1 + tri ny (w (ka (ka k 4 2) 3 2)) *m nrm (w (ka k 4 3)) ny 1))) w
  = ny%:R * normsq x + obs_offset ny.
Proof.
have [_ nd] := @NoDup_left _ (trans_keys split k) (obs_keys split k) (step_keys_NoDup tree k).
rewrite (_ : (fun w => _) = (fun w => 1 * normsq (
    1 *: (nrm (w (ka (ka k 4 2) 3 0)) ny nx *m x)
     + (1 *: nrm (w (ka (ka k 4 2) 3 1)) ny 1 + tri ny (w (ka (ka k 4 2) 3 2)) *m nrm (w (ka k 4 3)) ny 1)) + 0)); last first.
  by apply: functional_extensionality => w'; rewrite mul1r addr0.
rewrite (E4 (fun u1 u2 u3 u4 => 1 * normsq (
   1 *: (nrm u4 ny nx *m x) + (1 *: nrm u3 ny 1 + tri ny u1 *m nrm u2 ny 1)) + 0) w nd).
by rewrite (E_affine 1 1 x 1 0 n_yx n_y1 n_y1 u_yy) !expr1n !mul1r addr0.
Qed.

(** a step only reads its own draws *)
Lemma body_ext w w' x k : (forall c, List.In c (step_keys split k) -> w c = w' c) -> body w x k = body w' x k.
Proof.
move=> h; rewrite /gen_body /generate_trans_model /generate_obs_model /generate_cholesky_factor /normal /uniform /=.
by rewrite !h //=; auto 10.
Qed.
Definition outY w x ks t : R :=
  match List.nth_error (lax_scan (body w) x ks).2 t with Some s => normsq (gy s) | None => 0 end.
Lemma outY_cons w x k ks t : outY w x (k :: ks) t.+1 = outY w (body w x k).1 ks t.
Proof. by rewrite /outY lax_cons. Qed.
Fixpoint moment (t : nat) (q : R) : R := if t is t'.+1 then moment t' (a * q + offset nx) else a * q + offset nx.
Lemma moment_affine t q : moment t q = a ^+ t.+1 * q + moment t 0.
Proof.
elim: t q => [|t IH] q /=; first by rewrite mulr0 add0r expr1.
rewrite IH [in RHS]IH mulr0 add0r mulrDr -addrA; congr (_ + _).
by rewrite mulrA -exprSr.
Qed.
Lemma trans_not_obs k c : List.In c (trans_keys split k) -> ~ List.In c (obs_keys split k).
Proof.
move=> h1 h2; have nd := step_keys_NoDup tree k; rewrite /step_keys in nd.
by apply: (NoDup_app_disjoint (l := trans_keys split k) (l' := obs_keys split k) nd h1 h2).
Qed.
Lemma x_ext w w' x k : (forall c, List.In c (trans_keys split k) -> w c = w' c) -> (body w x k).1 = (body w' x k).1.
Proof. by move=> h; have [-> _] := bodyE w x k; have [-> _] := bodyE w' x k; rewrite !h //=; auto 10. Qed.
Lemma E_step_x w x k A B :
  E (step_keys split k) (fun w => A * normsq (body w x k).1 + B) w = A * (a * normsq x + offset nx) + B.
Proof.
rewrite (expectation_app keq mean (trans_keys split k) (obs_keys split k)).
rewrite -(E_trans w x k A B); apply: (f_equal (fun F => E (trans_keys split k) F w)); apply: functional_extensionality => w1.
rewrite -[RHS](E_const (obs_keys split k) _ w1); apply: expectation_ext => w' hw'; congr (A * normsq _ + B).
by apply: x_ext => c hc; apply: hw'; exact: trans_not_obs.
Qed.
Lemma E_step_y w x k :
  E (step_keys split k) (fun w => normsq (gy (body w x k).2)) w = ny%:R * (a * normsq x + offset nx) + obs_offset ny.
Proof.
rewrite (expectation_app keq mean (trans_keys split k) (obs_keys split k)).
rewrite -(E_trans w x k); apply: (f_equal (fun F => E (trans_keys split k) F w)); apply: functional_extensionality => w1.
rewrite -(E_obs w1 _ k); apply: expectation_ext => w' hw'; have [e1 ->] := bodyE w' x k; congr (normsq (_ *: (_ *m _) + _)).
by rewrite -e1; apply: x_ext => c hc; apply: hw'; exact: trans_not_obs.
Qed.
Lemma E_run t : forall ks d w x, List.NoDup ks -> (forall k, List.In k ks -> depth k = d) -> (t < List.length ks)%coq_nat ->
  E (List.flat_map (step_keys split) ks) (fun w => outY w x ks t) w
  = ny%:R * moment t (normsq x) + obs_offset ny.
Proof.
elim: t => [|t IH] [|k ks] d w x nd dd lt; [by move: lt => /= h; lia| |by move: lt => /= h; lia|].
- rewrite (expectation_app keq mean (step_keys split k) (List.flat_map (step_keys split) ks)) [moment _ _]/= -(E_step_y w x k).
  apply: (f_equal (fun F => E (step_keys split k) F w)); apply: functional_extensionality => w1.
  rewrite -[RHS](E_const (List.flat_map (step_keys split) ks) _ w1); apply: expectation_ext => w' hw'.
  rewrite /outY lax_cons; congr (normsq (gy _.2)); apply: body_ext => c hc; apply: hw'.
  exact: (rest_disjoint tree nd dd hc).
- rewrite (expectation_app keq mean (step_keys split k) (List.flat_map (step_keys split) ks)) [moment _ _]/= (moment_affine t) mulrDr -addrA mulrA -(E_step_x w x k).
  apply: (f_equal (fun F => E (step_keys split k) F w)); apply: functional_extensionality => w1.
  rewrite -mulrA addrA -mulrDr -moment_affine.
  have nd' : List.NoDup ks by move/List.NoDup_cons_iff: nd => [].
  rewrite -(IH ks d w1 (body w1 x k).1 nd'); last first.
  + by move: lt => /=; lia.
  + by move=> k' h; apply: dd; right.
  apply: expectation_ext => w' hw'; rewrite outY_cons.
  have -> // : body w' x k = body w1 x k.
  by apply: body_ext => c hc; apply: hw'; exact: (rest_disjoint tree nd dd hc).
Qed.

(** the initial state *)
Lemma E_init w k A B :
  E (init_keys split k) (fun w => A * normsq (nrm (w (ka (ka k 5 1) 2 0)) nx 1 + tri nx (w (ka (ka k 5 1) 2 1)) *m nrm (w (ka k 5 2)) nx 1) + B) w
  = A * obs_offset nx + B.
Proof.
have nd := gen_keys_NoDup tree k 0.
have [{}nd _] := @NoDup_left _ (init_keys split k) _ nd.
rewrite /init_keys in nd *; move: nd; set k1 := ka _ 2 1; set k2 := ka k 5 2; set k3 := ka _ 2 0.
move=> /List.NoDup_cons_iff [m1 /List.NoDup_cons_iff [m2 _]].
have n12 : k2 <> k1 by move=> e; apply: m1; left.
have n13 : k3 <> k1 by move=> e; apply: m1; right; left.
have n23 : k3 <> k2 by move=> e; apply: m2; left.
transitivity (mean (fun u1 => mean (fun u2 => mean (fun u3 => A * normsq (1 *: nrm u3 nx 1 + tri nx u1 *m nrm u2 nx 1) + B)))).
  rewrite /=; congr mean; apply: functional_extensionality => u1; congr mean; apply: functional_extensionality => u2.
  congr mean; apply: functional_extensionality => u3.
  by rewrite !(assign_same, assign_other) // scale1r.
transitivity (mean (fun u1 => A * (\sum_i \sum_j (tri nx u1) i j ^+ 2) + (A * nx%:R + B))).
  congr mean; apply: functional_extensionality => u1.
  transitivity (mean (fun u2 => A * normsq (tri nx u1 *m nrm u2 nx 1) + (A * nx%:R + B))).
    congr mean; apply: functional_extensionality => u2.
    have [g1 e1] := mean_add_noise Hm 1 (tri nx u1 *m nrm u2 nx 1) n_x1.
    by rewrite (mean_aff _ _ g1) e1 expr1n mul1r; toR; ring.
  have [g1 e1] := mean_factor Hm (tri nx u1) n_x1.
  by rewrite (mean_aff _ _ g1) e1.
have [g1 e1] := mean_triangle Hm u_xx.
by rewrite (mean_aff _ _ g1) e1 addrA -mulrDr; congr (A * _ + B); rewrite addrC.
Qed.
Lemma E_gen t k T w : (t < T)%N ->
  E (gen_keys split k T) (fun w => outY w
     (nrm (w (ka (ka k 5 1) 2 0)) nx 1 + tri nx (w (ka (ka k 5 1) 2 1)) *m nrm (w (ka k 5 2)) nx 1) (split (ka k 5 0) T) t) w
  = ny%:R * moment t (obs_offset nx) + obs_offset ny.
Proof.
move=> lt; set ks := split _ T; have [ksL _ kd] := tree.
rewrite (expectation_app keq mean (init_keys split k) (List.flat_map (step_keys split) ks)).
rewrite moment_affine mulrDr -addrA mulrA -(E_init w k).
apply: (f_equal (fun F => E (init_keys split k) F w)); apply: functional_extensionality => w1.
rewrite -mulrA addrA -mulrDr -moment_affine.
rewrite -(@E_run t ks (depth k).+2 w1); first last.
- by rewrite ksL; apply/ltP.
- by move=> c /kd ->; rewrite (ka_depth tree).
- exact: (split_NoDup' tree).
apply: expectation_ext => w' hw'.
have dj c : List.In c (init_keys split k) -> w' c = w1 c.
  move=> hc; apply: hw'; exact: (NoDup_app_disjoint (l := init_keys split k) (l' := List.flat_map (step_keys split) ks) (gen_keys_NoDup tree k T) hc).
by rewrite !dj //=; auto.
Qed.
(** closed form of the recursion, when its fixed point is q0 *)
Lemma moment_closed t q q0 : a * q0 + offset nx = q0 -> moment t q = a ^+ t.+1 * (q - q0) + q0.
Proof.
move=> fx; have off : offset nx = q0 - a * q0 by rewrite -[X in X - _]fx addrC addKr.
elim: t q => [|t IH] q /=; first by rewrite expr1 off mulrBr addrA addrAC.
rewrite IH off [a ^+ t.+2]exprSr -mulrA; congr (_ * _ + _).
by rewrite mulrBr addrA addrAC addrK.
Qed.
Lemma run_ext k T w w' x : (forall c, List.In c (List.flat_map (step_keys split) (split (ka k 5 0) T)) -> w c = w' c) ->
  lax_scan (body w) x (split (ka k 5 0) T) = lax_scan (body w') x (split (ka k 5 0) T).
Proof.
elim: (split _ T) x => [//|c ks IH] x h; rewrite !lax_cons (_ : body w x c = body w' x c).
  by rewrite IH // => c' hc'; apply: h; apply: List.in_or_app; right.
by apply: body_ext => c' hc'; apply: h; apply: List.in_or_app; left.
Qed.
End Second.
