(** Second moments of the estimates of the particle filter. *)
From Coq Require Import Reals List Arith Bool Lia Lra FunctionalExtensionality.
From Verif Require Import Ext ScanModel ScanProofs DriverSpec DriverProofs DiscreteSpec Sums
  ResamplingModel ResamplingSpec ResamplingProofs ConditionalProofs KillingProofs SystematicProofs
  ConditionalLaw SmcModel SmcSpec SmcProofs SmcRuns UnbiasedSpec KeyProofs Martingale SmcUnbiased PairMean PairSpec Moments
  IterSpec Iter Spacings SpacingPairs MultinomialPairs PropUnbiased.
Import ListNotations.
Open Scope R_scope.

(** ** Sums over ordered pairs *)
Lemma sq_off n f : sq n f = lsum (fun j => f j j) (seq 0 n) + offsum n f.
Proof. rewrite offsum_full. ring. Qed.
Lemma offsum_scal n c f : offsum n (fun j k => c * f j k) = c * offsum n f.
Proof.
  unfold offsum. rewrite <- lsum_scal. apply lsum_ext. intros j _. rewrite <- lsum_scal. apply lsum_ext. intros k _. destruct (j =? k)%nat; ring.
Qed.
Lemma offsum_plus n f g : offsum n (fun j k => f j k + g j k) = offsum n f + offsum n g.
Proof.
  unfold offsum. rewrite <- lsum_plus. apply lsum_ext. intros j _. rewrite <- lsum_plus. apply lsum_ext. intros k _. destruct (j =? k)%nat; ring.
Qed.
Lemma offsum_one n : offsum n (fun _ _ => 1) = INR n * (INR n - 1).
Proof.
  rewrite offsum_full. unfold sq.
  assert (C : forall m, lsum (fun _ : nat => 1) (seq 0 m) = INR m) by (intros m; rewrite lsum_const, seq_length; ring).
  rewrite (lsum_ext _ (fun _ => INR n * 1)) by (intros; rewrite C; ring). rewrite lsum_scal, C. ring.
Qed.
Lemma offsum_order n a b : offsum n (fun j k => if (j <? k)%nat then a else b) = INR n * (INR n - 1) * ((a + b) / 2).
Proof.
  assert (S : offsum n (fun j k => if (j <? k)%nat then a else b) = offsum n (fun j k => if (j <? k)%nat then b else a)).
  { rewrite <- offsum_swap. apply offsum_ext. intros j k _ _ H. destruct (Nat.ltb_spec k j), (Nat.ltb_spec j k); try reflexivity; lia. }
  assert (T : offsum n (fun j k => if (j <? k)%nat then a else b) + offsum n (fun j k => if (j <? k)%nat then b else a) = INR n * (INR n - 1) * (a + b)).
  { rewrite <- offsum_plus, (offsum_ext n _ (fun _ _ => (a + b) * 1)), offsum_scal, offsum_one; [ring|]. intros j k _ _ _. destruct (j <? k)%nat; ring. }
  lra.
Qed.
(** the ordered pairs as a list *)
Definition pairs (n : nat) : list (nat * nat) := List.filter (fun p => negb (fst p =? snd p)%nat) (list_prod (seq 0 n) (seq 0 n)).
Lemma filter_lsum {A} (p : A -> bool) (f : A -> R) l : lsum f (List.filter p l) = lsum (fun a => if p a then f a else 0) l.
Proof. induction l as [|a l IH]; [reflexivity|]. cbn [List.filter lsum]. destruct (p a); cbn [lsum]; rewrite IH; ring. Qed.
Lemma prod_lsum {A B} (f : A -> B -> R) l m : lsum (fun p => f (fst p) (snd p)) (list_prod l m) = lsum (fun a => lsum (f a) m) l.
Proof. induction l as [|a l IH]; [reflexivity|]. cbn [list_prod lsum]. rewrite lsum_app, lsum_map, IH. reflexivity. Qed.
Lemma offsum_list n f : offsum n f = lsum (fun p => f (fst p) (snd p)) (pairs n).
Proof.
  unfold pairs. rewrite filter_lsum. unfold offsum. rewrite <- prod_lsum. apply lsum_ext. intros [a b] _. cbn [fst snd].
  destruct (a =? b)%nat; reflexivity.
Qed.
Lemma pairs_in n p : In p (pairs n) -> (fst p < n)%nat /\ (snd p < n)%nat /\ fst p <> snd p.
Proof.
  destruct p as [a b]. unfold pairs. rewrite filter_In, in_prod_iff, !in_seq. cbn [fst snd]. destruct (Nat.eqb_spec a b); simpl; intros; lia.
Qed.

Section Second.
  Context {Key U X Inp : Type}.
  Variable keq : forall a b : Key, {a = b} + {a <> b}.
  Variable mean : (U -> R) -> R.
  Variable good : (U -> R) -> Prop.
  Hypothesis Hm : expectation_ok mean good.
  Variable dX : X.
  Variable split : Key -> nat -> list Key.
  Hypothesis Hsplit : split_ok split.
  Variable initial : U -> Inp -> X.
  Variable propagate : U -> X -> Inp -> X.
  Variable log_potential : X -> X -> Inp -> ext.
  Hypothesis Hfin : forall a b x, exists r, log_potential a b x = Fin r.
  Variable res : U -> list ext -> list X -> nat -> result (list nat * list ext * list X).
  Hypothesis Hres : resampler_ok dX res.
  Hypothesis Htot : resampler_total res.
  Hypothesis Huni : resampler_uniform res.
  Variable N : nat.
  Hypothesis Hpair : resampler_pairwise mean good N res.
  Hypothesis HN : (0 < N)%nat.
  Variable dummy : X.
  Variable phi : X -> R.
  Notation step := (pf_step split propagate log_potential res N dummy).
  Notation inv := (pf_inv N).
  Notation E := (expectation keq mean).
  Notation ok := (integrable keq mean good).
  Notation pair := (pair_from mean propagate log_potential N).
  Notation fk := (fk_from mean propagate log_potential).

  Definition lin (f : X -> R) (s : PFState Key X Inp) : R :=
    uw (pf_log_normalizing_constant s) * lsum (fun i => wt (pf_log_weights s) i * f (nth i (pf_particles s) dX)) (seq 0 N).
  Definition quad (P : X -> X -> R) (s : PFState Key X Inp) : R :=
    uw (pf_log_normalizing_constant s) * uw (pf_log_normalizing_constant s) *
    lsum (fun i => lsum (fun k => wt (pf_log_weights s) i * wt (pf_log_weights s) k *
      P (nth i (pf_particles s) dX) (nth k (pf_particles s) dX)) (seq 0 N)) (seq 0 N).
  Lemma quad_lin P s : quad P s = lin (fun a => lin (fun b => P a b) s) s.
  Proof.
    unfold quad, lin. rewrite Rmult_assoc. f_equal. rewrite <- lsum_scal. apply lsum_ext. intros i _.
    rewrite <- !lsum_scal. apply lsum_ext. intros k _. ring.
  Qed.
  (** one step, for given seeds *)
  Lemma step_facts w s x k : inv s -> exists kr kp s' idx anc,
    split (pf_key s) (N + 1) = kr :: kp /\ length kp = N /\
    res (w kr) (pf_log_weights s) (pf_particles s) N = Ok (idx, repeat (Fin 0) N, anc) /\
    (forall j, (j < N)%nat -> nth j anc dX = nth (nth j idx 0%nat) (pf_particles s) dX) /\
    step w s x k = Ok s' /\ inv s' /\ pf_key s' = k /\
    let y j := propagate (w (nth j kp kr)) (nth j anc dX) x in
    let G j := uw (log_potential (nth j anc dX) (y j) x) in
    (forall f, lin f s' = uw (pf_log_normalizing_constant s) * / INR N * lsum (fun j => G j * f (y j)) (seq 0 N)) /\
    (forall P, quad P s' = uw (pf_log_normalizing_constant s) * uw (pf_log_normalizing_constant s) * (/ INR N * / INR N) *
       sq N (fun i j => G i * G j * P (y i) (y j))).
  Proof using Hsplit Hfin Hres Htot HN Huni mean phi.
    intros Hs. destruct (pf_step_facts mean dX split Hsplit propagate log_potential Hfin res Hres Htot N HN dummy phi w s x k Hs)
      as (kr & kp & s' & idx & lw & anc & E1 & Lk & Er & Ll & La & Hj & Es & I' & K' & _).
    pose proof (Huni _ _ _ _ _ _ _ Er) as ->.
    exists kr, kp, s', idx, anc. do 7 (split; [assumption|]). intros y G.
    assert (L : forall f, lin f s' = uw (pf_log_normalizing_constant s) * / INR N * lsum (fun j => G j * f (y j)) (seq 0 N)).
    { intros f. destruct (pf_step_facts mean dX split Hsplit propagate log_potential Hfin res Hres Htot N HN dummy f w s x k Hs)
        as (kr2 & kp2 & s2 & idx2 & lw2 & anc2 & E2 & _ & Er2 & _ & _ & _ & Es2 & _ & _ & Hv).
      rewrite E1 in E2. injection E2 as <- <-. rewrite Er in Er2. injection Er2 as <- <- <-. rewrite Es in Es2. injection Es2 as <-.
      specialize (Hv []). unfold pf_val in Hv. cbn [fk_from] in Hv. unfold lin. rewrite Hv, Rmult_assoc. f_equal.
      rewrite <- lsum_scal. apply lsum_seq_ext. intros j Hlt. change (repeat (Fin 0) N) with (zeros N). rewrite (wt_zeros N j Hlt). cbv zeta. unfold G, y. rewrite (map_nth w). reflexivity. }
    split; [exact L|]. intros P. rewrite quad_lin, L.
    rewrite (lsum_ext _ (fun i => uw (pf_log_normalizing_constant s) * / INR N * lsum (fun j => G i * G j * P (y i) (y j)) (seq 0 N))).
    - rewrite lsum_scal. unfold sq. ring.
    - intros i _. rewrite L, <- !lsum_scal. apply lsum_ext. intros j _. ring.
  Qed.

  Variables al be : R.
  Definition val (r : list Inp) (s : PFState Key X Inp) : R := al * quad (pair r phi) s + be * lin (fk r phi) s.
  Lemma step_value x r s k w : pair_from_good mean good propagate log_potential N (x :: r) phi -> fk_from_good mean good propagate log_potential (x :: r) phi ->
    inv s -> NoDup (split (pf_key s) (N + 1)) ->
    ok (split (pf_key s) (N + 1)) (fun w => run_val val r (step w s x k)) w /\
    E (split (pf_key s) (N + 1)) (fun w => run_val val r (step w s x k)) w = val (x :: r) s.
  Proof using Hm Hsplit Hfin Hres Htot Huni Hpair HN.
    intros (HP & _) (HF & _) Hs Hnd.
    destruct (step_facts w s x k Hs) as (kr & kp & _ & _ & _ & E1 & Lk & _).
    rewrite E1 in Hnd |- *. inversion_clear Hnd as [|? ? Hkr Hnd']. cbn [expectation integrable].
    set (z := uw (pf_log_normalizing_constant s)). set (n := / INR N).
    set (xs := pf_particles s). set (lw := pf_log_weights s).
    set (P := pair r phi). set (f := fk r phi).
    (* the four kinds of integrals for ancestors a and b *)
    set (H := fun a b => weighted propagate log_potential x P (nth a xs dX) (nth b xs dX)).
    set (K1 := fun a b => mean (fun u => mean (fun v => H a b u v))).
    set (K2 := fun a b => mean (fun v => mean (fun u => H a b u v))).
    set (D := fun a => mean (fun u => H a a u u)).
    set (h := fun a u => let y := propagate u (nth a xs dX) x in uw (log_potential (nth a xs dX) y x) * f y).
    set (M := fun a => mean (h a)).
    set (inner := fun idx => al * (z * z * (n * n)) * lsum (fun j => D (nth j idx 0%nat)) (seq 0 N)
      + al * (z * z * (n * n)) * offsum N (fun i j => if (i <? j)%nat then K1 (nth i idx 0%nat) (nth j idx 0%nat) else K2 (nth i idx 0%nat) (nth j idx 0%nat))
      + be * (z * n) * lsum (fun j => M (nth j idx 0%nat)) (seq 0 N)).
    assert (Hw : valid_logits lw) by apply Hs. assert (LN : length lw = N) by apply Hs.
    assert (Lx : length xs = length lw) by (destruct Hs as ((A & B) & _); unfold xs, lw; congruence).
    assert (Q : forall u, ok kp (fun w => run_val val r (step w s x k)) (assign keq w kr u) /\
       E kp (fun w => run_val val r (step w s x k)) (assign keq w kr u) = match res u lw xs N with Ok (idx, _, _) => inner idx | Err _ => 0 end).
    { intros u.
      destruct (step_facts (assign keq w kr u) s x k Hs) as (kr' & kp' & s1 & idx & anc & E1' & _ & Er & Hj & _).
      rewrite E1 in E1'. injection E1' as <- <-. rewrite assign_same in Er. fold lw xs in Er. rewrite Er.
      set (a := fun j => nth j idx 0%nat).
      assert (Ev : forall w', (forall k', ~ In k' kp -> w' k' = assign keq w kr u k') ->
        1 * lsum (fun j => al * (z * z * (n * n)) * H (a j) (a j) (w' (nth j kp kr)) (w' (nth j kp kr))) (seq 0 N)
        + 1 * (1 * lsum (fun p => al * (z * z * (n * n)) * H (a (fst p)) (a (snd p)) (w' (nth (fst p) kp kr)) (w' (nth (snd p) kp kr))) (pairs N)
               + 1 * lsum (fun j => be * (z * n) * h (a j) (w' (nth j kp kr))) (seq 0 N))
        = run_val val r (step w' s x k)).
      { intros w' Hw'. assert (Hu : w' kr = u) by (rewrite (Hw' kr Hkr); apply assign_same).
        destruct (step_facts w' s x k Hs) as (kr' & kp' & s2 & idx' & anc' & E2' & _ & Er' & _ & Es & _ & _ & Hl & Hq).
        rewrite E1 in E2'. injection E2' as <- <-. rewrite Hu in Er'. fold lw xs in Er'. rewrite Er in Er'. injection Er' as <- <-.
        rewrite Es. cbn [run_val]. unfold val. fold P f. rewrite Hl, Hq, sq_off, offsum_list. fold z n.
        rewrite !lsum_scal.
        rewrite (lsum_ext (fun j => H (a j) (a j) (w' (nth j kp kr)) (w' (nth j kp kr)))
           (fun j => uw (log_potential (nth j anc dX) (propagate (w' (nth j kp kr)) (nth j anc dX) x) x) *
              uw (log_potential (nth j anc dX) (propagate (w' (nth j kp kr)) (nth j anc dX) x) x) *
              P (propagate (w' (nth j kp kr)) (nth j anc dX) x) (propagate (w' (nth j kp kr)) (nth j anc dX) x))).
        2:{ intros j Hlt. apply in_seq in Hlt. rewrite Hj by lia. reflexivity. }
        rewrite (lsum_ext (fun p => H (a (fst p)) (a (snd p)) (w' (nth (fst p) kp kr)) (w' (nth (snd p) kp kr)))
           (fun p => uw (log_potential (nth (fst p) anc dX) (propagate (w' (nth (fst p) kp kr)) (nth (fst p) anc dX) x) x) *
              uw (log_potential (nth (snd p) anc dX) (propagate (w' (nth (snd p) kp kr)) (nth (snd p) anc dX) x) x) *
              P (propagate (w' (nth (fst p) kp kr)) (nth (fst p) anc dX) x) (propagate (w' (nth (snd p) kp kr)) (nth (snd p) anc dX) x))).
        2:{ intros p Hp. apply pairs_in in Hp. rewrite !Hj by lia. reflexivity. }
        rewrite (lsum_ext (fun j => h (a j) (w' (nth j kp kr)))
           (fun j => uw (log_potential (nth j anc dX) (propagate (w' (nth j kp kr)) (nth j anc dX) x) x) * f (propagate (w' (nth j kp kr)) (nth j anc dX) x))).
        2:{ intros j Hlt. apply in_seq in Hlt. rewrite Hj by lia. reflexivity. }
        ring. }
      destruct (integrable_lsum keq mean good Hm kp (seq 0 N) (fun _ => al * (z * z * (n * n))) (fun j w' => H (a j) (a j) (w' (nth j kp kr)) (w' (nth j kp kr))) (assign keq w kr u)) as (A1 & B1).
      { intros j Hlt. apply in_seq in Hlt. apply (expect_at keq mean good Hm kp kr (fun u => H (a j) (a j) u u)); [|lia|exact Hnd'].
        apply (HP (nth (a j) xs dX) (nth (a j) xs dX)). }
      destruct (integrable_lsum keq mean good Hm kp (pairs N) (fun _ => al * (z * z * (n * n))) (fun p w' => H (a (fst p)) (a (snd p)) (w' (nth (fst p) kp kr)) (w' (nth (snd p) kp kr))) (assign keq w kr u)) as (A2 & B2).
      { intros p Hp. apply pairs_in in Hp. destruct (HP (nth (a (fst p)) xs dX) (nth (a (snd p)) xs dX)) as (G1 & G2 & G3 & G4 & _).
        apply (expect_pair keq mean good Hm kp kr (fun u v => H (a (fst p)) (a (snd p)) u v)); auto; lia. }
      destruct (integrable_lsum keq mean good Hm kp (seq 0 N) (fun _ => be * (z * n)) (fun j w' => h (a j) (w' (nth j kp kr))) (assign keq w kr u)) as (A3 & B3).
      { intros j Hlt. apply in_seq in Hlt. apply (expect_at keq mean good Hm kp kr (h (a j))); [|lia|exact Hnd']. apply HF. }
      destruct (integrable_lin keq mean good Hm kp _ _ 1 1 _ A2 A3) as (A4 & B4).
      destruct (integrable_lin keq mean good Hm kp _ _ 1 1 _ A1 A4) as (A5 & B5).
      rewrite (lsum_seq_ext _ (fun j => al * (z * z * (n * n)) * D (nth j idx 0%nat))) in B1.
      2:{ intros j Hlt. f_equal. apply (expect_at keq mean good Hm kp kr (fun u => H (a j) (a j) u u)); [|lia|exact Hnd'].
          apply (HP (nth (a j) xs dX) (nth (a j) xs dX)). }
      rewrite (lsum_ext _ (fun p => al * (z * z * (n * n)) * if (fst p <? snd p)%nat then K1 (nth (fst p) idx 0%nat) (nth (snd p) idx 0%nat) else K2 (nth (fst p) idx 0%nat) (nth (snd p) idx 0%nat)) (pairs N)) in B2.
      2:{ intros p Hp. f_equal. apply pairs_in in Hp. destruct (HP (nth (a (fst p)) xs dX) (nth (a (snd p)) xs dX)) as (G1 & G2 & G3 & G4 & _).
          apply (expect_pair keq mean good Hm kp kr (fun u v => H (a (fst p)) (a (snd p)) u v)); auto; lia. }
      rewrite (lsum_seq_ext _ (fun j => be * (z * n) * M (nth j idx 0%nat))) in B3.
      2:{ intros j Hlt. f_equal. apply (expect_at keq mean good Hm kp kr (h (a j))); [|lia|exact Hnd']. apply HF. }
      rewrite lsum_scal in B1. rewrite lsum_scal in B2. rewrite lsum_scal in B3.
      split; [apply (integrable_ext keq mean good kp _ _ _ Ev A5)|].
      rewrite <- (expectation_ext keq mean kp _ _ _ Ev), B5, B4, B1, B2, B3. unfold inner. rewrite offsum_list. ring. }
    rewrite (functional_extensionality _ _ (fun u => proj2 (Q u))).
    destruct (Hpair lw xs Hw LN Lx) as (R1 & R2). rewrite LN in R1, R2.
    (* the mean over the resampling seed *)
    set (at1 := fun (g : nat -> R) j u => match res u lw xs N with Ok (idx, _, _) => g (nth j idx 0%nat) | Err _ => 0 end).
    set (at2 := fun (g : nat -> nat -> R) i j u => match res u lw xs N with Ok (idx, _, _) => g (nth i idx 0%nat) (nth j idx 0%nat) | Err _ => 0 end).
    set (W1 := fun g : nat -> R => lsum (fun a => wt lw a * g a) (seq 0 N)).
    set (W2 := fun g : nat -> nat -> R => lsum (fun a => lsum (fun b => wt lw a * wt lw b * g a b) (seq 0 N)) (seq 0 N)).
    assert (I1 : integral mean good (fun u => lsum (fun j => at1 D j u) (seq 0 N)) (lsum (fun _ => W1 D) (seq 0 N))).
    { apply integral_lsum; [exact Hm|]. intros j Hlt. apply in_seq in Hlt. apply (R1 j D). lia. }
    assert (I2 : integral mean good (fun u => lsum (fun p => at2 (if (fst p <? snd p)%nat then K1 else K2) (fst p) (snd p) u) (pairs N))
                   (lsum (fun p => if (fst p <? snd p)%nat then W2 K1 else W2 K2) (pairs N))).
    { apply integral_lsum; [exact Hm|]. intros p Hp. apply pairs_in in Hp.
      destruct (R2 (fst p) (snd p) (if (fst p <? snd p)%nat then K1 else K2) ltac:(lia) ltac:(lia) ltac:(lia)) as (A & B).
      split; [exact A|]. unfold at2. rewrite B. destruct (fst p <? snd p)%nat; reflexivity. }
    assert (I3 : integral mean good (fun u => lsum (fun j => at1 M j u) (seq 0 N)) (lsum (fun _ => W1 M) (seq 0 N))).
    { apply integral_lsum; [exact Hm|]. intros j Hlt. apply in_seq in Hlt. apply (R1 j M). lia. }
    pose proof (integral_add mean good Hm _ _ _ _ (integral_add mean good Hm _ _ _ _ (integral_scal mean good Hm (al * (z * z * (n * n))) _ _ I1)
       (integral_scal mean good Hm (al * (z * z * (n * n))) _ _ I2)) (integral_scal mean good Hm (be * (z * n)) _ _ I3)) as I4.
    match type of I4 with integral _ _ ?g _ => assert (Eg : g = (fun u => match res u lw xs N with Ok (idx, _, _) => inner idx | Err _ => 0 end)) end.
    { apply functional_extensionality. intros u. unfold at1, at2, inner. destruct (res u lw xs N) as [[[idx ?] ?]|].
      - rewrite offsum_list. do 3 f_equal. apply lsum_ext. intros p _. destruct (fst p <? snd p)%nat; reflexivity.
      - rewrite !lsum_zero. ring. }
    match type of I4 with integral _ _ _ ?v =>
      assert (I6 : integral mean good (fun u => match res u lw xs N with Ok (idx, _, _) => inner idx | Err _ => 0 end) v) by (rewrite <- Eg; exact I4) end.
    clear I4 Eg. destruct I6 as (I4 & I5). split; [split; [exact I4|intros u; apply Q]|]. rewrite I5.
    rewrite <- (offsum_list N (fun i j => if (i <? j)%nat then W2 K1 else W2 K2)), offsum_order, !lsum_const, seq_length.
    assert (PN : INR N <> 0) by (apply not_0_INR; lia).
    (* compare with the value before the step *)
    unfold val, quad, lin. fold z xs lw.
    assert (EM : lsum (fun i => wt lw i * fk (x :: r) phi (nth i xs dX)) (seq 0 N) = W1 M) by reflexivity.
    assert (S1 : lsum (wt lw) (seq 0 N) = 1) by (pose proof (wt_sum lw Hw) as S1; unfold cdf in S1; rewrite LN in S1; exact S1).
    assert (EP : lsum (fun i => lsum (fun k => wt lw i * wt lw k * pair (x :: r) phi (nth i xs dX) (nth k xs dX)) (seq 0 N)) (seq 0 N)
       = (1 - n) * ((W2 K1 + W2 K2) / 2) + n * W1 D).
    { assert (ED : W1 D = W2 (fun a _ => D a)).
      { unfold W1, W2. apply lsum_ext. intros i _. rewrite <- (Rmult_1_l (wt lw i * D i)), <- S1, <- lsum_scal_r. apply lsum_ext. intros j _. ring. }
      rewrite ED.
      transitivity (W2 (fun a b => (1 - n) * ((K1 a b + K2 a b) / 2) + n * D a)); [reflexivity|].
      unfold W2. unfold Rdiv. rewrite (Rmult_comm (_ + _) (/ 2)), <- lsum_plus, <- !lsum_scal, <- lsum_plus. apply lsum_ext. intros i _.
      rewrite <- lsum_plus, <- !lsum_scal, <- lsum_plus. apply lsum_ext. intros j _. ring. }
    rewrite EM, EP. unfold n. field. exact PN.
  Qed.

  Lemma pair_good_skipn inputs : pair_from_good mean good propagate log_potential N inputs phi ->
    forall i, pair_from_good mean good propagate log_potential N (skipn i inputs) phi.
  Proof. induction inputs as [|x inputs IH]; intros H [|i]; simpl; auto. apply IH. apply H. Qed.
  Lemma quad_square s : quad (fun a b => phi a * phi b) s = lin phi s * lin phi s.
  Proof.
    rewrite quad_lin. unfold lin at 1. rewrite (lsum_ext _ (fun i => (wt (pf_log_weights s) i * phi (nth i (pf_particles s) dX)) * lin phi s)).
    - rewrite lsum_scal_r. unfold lin. ring.
    - intros i _. unfold lin. rewrite (lsum_ext _ (fun k => phi (nth i (pf_particles s) dX) * (wt (pf_log_weights s) k * phi (nth k (pf_particles s) dX)))) by (intros; ring).
      rewrite lsum_scal. ring.
  Qed.
End Second.

Section Moments.
  Context {Key U X Inp : Type}.
  Variable keq : forall a b : Key, {a = b} + {a <> b}.
  Variable mean : (U -> R) -> R.
  Variable good : (U -> R) -> Prop.
  Hypothesis Hm : expectation_ok mean good.
  Variable dX : X.
  Variable split : Key -> nat -> list Key.
  Hypothesis Hsplit : split_ok split.
  Variable initial : U -> Inp -> X.
  Variable propagate : U -> X -> Inp -> X.
  Variable log_potential : X -> X -> Inp -> ext.
  Hypothesis Hfin : forall a b x, exists r, log_potential a b x = Fin r.
  Variable res : U -> list ext -> list X -> nat -> result (list nat * list ext * list X).
  Hypothesis Hres : resampler_ok dX res.
  Hypothesis Htot : resampler_total res.
  Hypothesis Huni : resampler_uniform res.
  Variable N : nat.
  Hypothesis Hpair : resampler_pairwise mean good N res.
  Hypothesis HN : (0 < N)%nat.
  Variable dummy : X.
  Notation step := (pf_step split propagate log_potential res N dummy).

  Theorem pf_moments x0 inputs key w0 : NoDup (consumed split key N (length inputs)) ->
    exists last : (Key -> U) -> PFState Key X Inp,
      (forall w, exists states z,
         filter split (seeded_pf split initial propagate log_potential res N dummy w) (x0 :: inputs) false (Some key) = Ok (map Ok states) /\
         nth_error states (length inputs) = Some (last w) /\
         pf_log_normalizing_constant (last w) = Fin z /\ valid_logits (pf_log_weights (last w)) /\ length (pf_log_weights (last w)) = N) /\
      forall phi al be,
        fk_good mean good initial propagate log_potential x0 inputs phi ->
        pair_good mean good initial propagate log_potential N x0 inputs phi ->
        let F w := al * (lin dX N phi (last w) * lin dX N phi (last w)) + be * lin dX N phi (last w) in
        integrable keq mean good (consumed split key N (length inputs)) F w0 /\
        expectation keq mean (consumed split key N (length inputs)) F w0
        = al * second_moment mean initial propagate log_potential N x0 inputs phi
          + be * feynman_kac mean initial propagate log_potential x0 inputs phi.
  Proof using Hm Hsplit Hfin Hres Htot Huni Hpair HN.
    intros Hnd.
    pose proof (Hsplit key (length (x0 :: inputs))) as L.
    destruct (split key (length (x0 :: inputs))) as [|c0 ks] eqn:Ec; [discriminate|].
    simpl in L. injection L as L.
    set (s0 := fun w : Key -> U => match pf_init_prepare split (fun k => initial (w k)) N x0 (Some c0) with Ok s => s | Err _ => pf_prepared N dummy x0 c0 end).
    assert (Hs0 : forall w, pf_init_prepare split (fun k => initial (w k)) N x0 (Some c0) = Ok (s0 w)) by reflexivity.
    assert (Hi : forall w, pf_inv N (s0 w) /\ pf_key (s0 w) = c0).
    { intros w. destruct (init_facts split Hsplit (fun k => initial (w k)) N HN _ _ _ (Hs0 w)) as (A & B & C & D & E & F).
      split; [|exact E]. split; [exact A|]. split; eauto. }
    set (steps := combine inputs ks).
    assert (Hst : map fst steps = inputs).
    { unfold steps. clear - L. revert ks L. induction inputs; intros [|k ks] L; try discriminate; simpl; auto. f_equal. apply IHinputs. simpl in L. lia. }
    assert (Hstep : forall w s x k, pf_inv N s -> exists s', step w s x k = Ok s' /\ pf_inv N s' /\ pf_key s' = k).
    { intros w' s x k Hs. destruct (step_facts mean dX split Hsplit propagate log_potential Hfin res Hres Htot Huni N HN dummy (fun _ => 0) w' s x k Hs)
        as (? & ? & s' & ? & ? & _ & _ & _ & _ & E & I & K & _). eauto. }
    assert (Hfinal : forall w, exists s, final step w (s0 w) steps = Ok s /\ pf_inv N s).
    { intros w. apply (final_ok step pf_key (pf_inv N)); [exact Hstep|apply Hi]. }
    exists (fun w => match final step w (s0 w) steps with Ok s => s | Err _ => s0 w end). split.
    - intros w. destruct (Hfinal w) as (s & E & I). rewrite E.
      destruct (pf_run_exists dX split Hsplit (fun k => initial (w k)) (fun k => propagate (w k)) log_potential Hfin
                  (fun k => res (w k)) (fun k => Hres (w k)) (fun k => Htot (w k)) N HN dummy (x0 :: inputs) key ltac:(discriminate)) as (states & Er & Ls & _).
      destruct I as (W & V & z & Z). exists states, z. split; [exact Er|]. split; [|split; [exact Z|split; [exact V|apply W]]].
      assert (Hn : nth_error (map Ok states) (length inputs) = Some (final step w (s0 w) steps)).
      { unfold filter, prepare_keys in Er. rewrite Ec in Er. cbn [map] in Er. cbv zeta in Er. cbn [init_prepare pf_build_filter] in Er.
        rewrite Hs0 in Er. injection Er as <-.
        assert (Lc : length inputs = length (combine inputs (map Some ks))) by (rewrite combine_length, map_length; lia).
        rewrite Lc at 1. rewrite scan_last. f_equal. unfold final, steps.
        generalize (Ok (s0 w)). clear - L. revert ks L. induction inputs as [|x inputs IH]; intros [|k ks] L r; try discriminate; [reflexivity|].
        simpl in L. cbn [combine map fold_left fst snd]. apply IH. lia. }
      rewrite E in Hn. rewrite nth_error_map in Hn. destruct (nth_error states (length inputs)); [|discriminate]. simpl in Hn. congruence.
    - intros phi al be (Hg0 & Hg) (Hp0 & Hp). set (V := val (Key := Key) mean dX propagate log_potential N phi al be).
      assert (Ecs : consumed split key N (length inputs) = split c0 N ++ used split (N + 1) c0 steps).
      { unfold consumed. change (S (length inputs)) with (length (x0 :: inputs)). rewrite Ec. simpl firstn at 1. cbn [flat_map].
        rewrite app_nil_r. f_equal. unfold steps. now rewrite used_flat. }
      rewrite Ecs in Hnd |- *. destruct (NoDup_app_inv _ _ Hnd) as (N1 & N2 & N3).
      assert (Hfair : forall i, fair_integrable keq mean good split (N + 1) step pf_key (pf_inv N) V (skipn i (map fst steps))).
      { rewrite Hst. intros i x r s k w Er Hs Hn. pose proof (pair_good_skipn mean good propagate log_potential N phi inputs Hp i) as Q1.
        pose proof (good_skipn mean good propagate log_potential phi inputs Hg i) as Q2. rewrite Er in Q1, Q2 |- *.
        apply (step_value keq mean good Hm dX split Hsplit propagate log_potential Hfin res Hres Htot Huni N Hpair HN dummy phi al be x r s k w); auto. }
      assert (Hloc : forall w w' s x k, pf_inv N s -> (forall k', In k' (split (pf_key s) (N + 1)) -> w k' = w' k') -> step w s x k = step w' s x k).
      { intros w w' s x k Hs. apply pf_step_local. apply Hs. }
      set (F := fun w => al * _ + be * _).
      assert (EF : forall w, F w = run_val V [] (final step w (s0 w) steps)).
      { intros w. unfold F. destruct (Hfinal w) as (s & -> & _). cbn [run_val]. unfold V, val.
        rewrite <- quad_square. reflexivity. }
      assert (Es0 : forall w1 w2, (forall k, ~ In k (used split (N + 1) c0 steps) -> w2 k = w1 k) -> s0 w2 = s0 w1).
      { intros w1 w2 Hw2. unfold s0. cbn [pf_init_prepare]. f_equal. apply map_ext_in. intros k' Hk'. now rewrite Hw2 by (now apply N3). }
      assert (R : forall w1, integrable keq mean good (used split (N + 1) c0 steps) F w1 /\
         expectation keq mean (used split (N + 1) c0 steps) F w1 = V inputs (s0 w1)).
      { intros w1. destruct (Hi w1) as (I1 & K1).
        assert (Eq : forall w', (forall k, ~ In k (used split (N + 1) c0 steps) -> w' k = w1 k) -> run_val V [] (final step w' (s0 w1) steps) = F w').
        { intros w2 Hw2. now rewrite EF, (Es0 w1 w2 Hw2). }
        split.
        - apply (integrable_ext keq mean good _ _ _ _ Eq). rewrite <- K1. apply (run_integrable keq mean good split (N + 1) step pf_key (pf_inv N) V); auto.
        - rewrite <- (expectation_ext keq mean _ _ _ _ Eq). rewrite <- K1 at 1. rewrite <- Hst.
          apply (run_expectation keq mean split (N + 1) step pf_key (pf_inv N) V); auto.
          intros i. apply (fair_from keq mean good). apply Hfair. }
      (* the initial particles *)
      set (P := pair_from mean propagate log_potential N inputs phi). set (f := fk_from mean propagate log_potential inputs phi).
      set (n := / INR N).
      assert (PN : INR N <> 0) by (apply not_0_INR; lia).
      assert (Lk : length (split c0 N) = N) by apply Hsplit.
      assert (Ev : forall w', (forall k, ~ In k (split c0 N) -> w' k = w0 k) ->
         1 * lsum (fun j => al * (n * n) * P (initial (w' (nth j (split c0 N) c0)) x0) (initial (w' (nth j (split c0 N) c0)) x0)) (seq 0 N)
         + 1 * (1 * lsum (fun p => al * (n * n) * P (initial (w' (nth (fst p) (split c0 N) c0)) x0) (initial (w' (nth (snd p) (split c0 N) c0)) x0)) (pairs N)
                + 1 * lsum (fun j => be * n * f (initial (w' (nth j (split c0 N) c0)) x0)) (seq 0 N))
         = expectation keq mean (used split (N + 1) c0 steps) F w').
      { intros w' _. rewrite (proj2 (R w')). unfold V, val, quad, lin. fold P f.
        destruct (init_facts split Hsplit (fun k => initial (w' k)) N HN _ _ _ (Hs0 w')) as (_ & _ & D & _ & _ & C).
        assert (Ew : forall j, (j < N)%nat -> wt (pf_log_weights (s0 w')) j = n).
        { intros j Hj. change (pf_log_weights (s0 w')) with (zeros N). now apply wt_zeros. }
        assert (Ex : forall j, (j < N)%nat -> nth j (pf_particles (s0 w')) dX = initial (w' (nth j (split c0 N) c0)) x0).
        { intros j Hj. rewrite C. rewrite (nth_indep _ dX (initial (w' c0) x0)) by (rewrite map_length; lia).
          apply (map_nth (fun k' => initial (w' k') x0)). }
        rewrite D. cbn [uw]. rewrite exp_0, !Rmult_1_l.
        rewrite (lsum_seq_ext (fun i => wt (pf_log_weights (s0 w')) i * f (nth i (pf_particles (s0 w')) dX))
          (fun j => n * f (initial (w' (nth j (split c0 N) c0)) x0))) by (intros j Hj; now rewrite Ew, Ex).
        rewrite (lsum_seq_ext (fun i => lsum _ _) (fun i => lsum (fun j => n * n * P (initial (w' (nth i (split c0 N) c0)) x0) (initial (w' (nth j (split c0 N) c0)) x0)) (seq 0 N))).
        2:{ intros i Hlt. apply lsum_seq_ext. intros j Hj. now rewrite !Ew, !Ex. }
        change (lsum (fun i => lsum (fun j => n * n * P (initial (w' (nth i (split c0 N) c0)) x0) (initial (w' (nth j (split c0 N) c0)) x0)) (seq 0 N)) (seq 0 N))
          with (sq N (fun i j => n * n * P (initial (w' (nth i (split c0 N) c0)) x0) (initial (w' (nth j (split c0 N) c0)) x0))).
        rewrite sq_off, offsum_list, !lsum_scal. ring. }
      destruct Hp0 as (G1 & G2 & G3 & G4 & G5).
      destruct (integrable_lsum keq mean good Hm (split c0 N) (seq 0 N) (fun _ => al * (n * n))
        (fun j w' => P (initial (w' (nth j (split c0 N) c0)) x0) (initial (w' (nth j (split c0 N) c0)) x0)) w0) as (A1 & B1).
      { intros j Hlt. apply in_seq in Hlt. apply (expect_at keq mean good Hm (split c0 N) c0 (fun u => P (initial u x0) (initial u x0)) G5); [lia|exact N1]. }
      destruct (integrable_lsum keq mean good Hm (split c0 N) (pairs N) (fun _ => al * (n * n))
        (fun p w' => P (initial (w' (nth (fst p) (split c0 N) c0)) x0) (initial (w' (nth (snd p) (split c0 N) c0)) x0)) w0) as (A2 & B2).
      { intros p Hlt. apply pairs_in in Hlt. apply (expect_pair keq mean good Hm (split c0 N) c0 (fun u v => P (initial u x0) (initial v x0)) G1 G2 G3 G4); auto; lia. }
      destruct (integrable_lsum keq mean good Hm (split c0 N) (seq 0 N) (fun _ => be * n)
        (fun j w' => f (initial (w' (nth j (split c0 N) c0)) x0)) w0) as (A3 & B3).
      { intros j Hlt. apply in_seq in Hlt. apply (expect_at keq mean good Hm (split c0 N) c0 (fun u => f (initial u x0)) Hg0); [lia|exact N1]. }
      rewrite (lsum_seq_ext _ (fun j => al * (n * n) * mean (fun u => P (initial u x0) (initial u x0)))) in B1.
      2:{ intros j Hlt. f_equal. apply (expect_at keq mean good Hm (split c0 N) c0 (fun u => P (initial u x0) (initial u x0)) G5); [lia|exact N1]. }
      rewrite (lsum_ext _ (fun p => al * (n * n) * if (fst p <? snd p)%nat then mean (fun u => mean (fun v => P (initial u x0) (initial v x0)))
        else mean (fun v => mean (fun u => P (initial u x0) (initial v x0)))) (pairs N)) in B2.
      2:{ intros p Hlt. f_equal. apply pairs_in in Hlt. apply (expect_pair keq mean good Hm (split c0 N) c0 (fun u v => P (initial u x0) (initial v x0)) G1 G2 G3 G4); auto; lia. }
      rewrite (lsum_seq_ext _ (fun j => be * n * mean (fun u => f (initial u x0)))) in B3.
      2:{ intros j Hlt. f_equal. apply (expect_at keq mean good Hm (split c0 N) c0 (fun u => f (initial u x0)) Hg0); [lia|exact N1]. }
      rewrite lsum_const, seq_length in B1. rewrite lsum_const, seq_length in B3. rewrite lsum_scal in B2.
      rewrite <- (offsum_list N (fun i j => if (i <? j)%nat then mean (fun u => mean (fun v => P (initial u x0) (initial v x0)))
        else mean (fun v => mean (fun u => P (initial u x0) (initial v x0))))), offsum_order in B2.
      destruct (integrable_lin keq mean good Hm (split c0 N) _ _ 1 1 _ A2 A3) as (A4 & B4).
      destruct (integrable_lin keq mean good Hm (split c0 N) _ _ 1 1 _ A1 A4) as (A5 & B5).
      split.
      + apply integrable_app; [intros; apply R|]. apply (integrable_ext keq mean good (split c0 N) _ _ _ Ev A5).
      + rewrite expectation_app. etransitivity; [symmetry; apply (expectation_ext keq mean (split c0 N) _ _ _ Ev)|]. rewrite B5, B4, B1, B2, B3.
        unfold second_moment, mix, feynman_kac. fold P f. unfold n. field. exact PN.
  Qed.
End Moments.
