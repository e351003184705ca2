(** The trajectories returned by the exact backward sampler estimate path integrals without bias. *)
From Coq Require Import Reals List Arith Bool Lia Lra FunctionalExtensionality.
From Verif Require Import Ext ScanModel ScanProofs DriverSpec DriverProofs DiscreteSpec Sums
  ResamplingModel ResamplingSpec ResamplingProofs ConditionalProofs KillingProofs SystematicProofs
  ConditionalLaw SmcModel SmcSpec SmcProofs BackwardProofs BackwardKernels SmcRuns UnbiasedSpec KeyProofs Martingale SmcUnbiased
  PathSpec PathProofs PathTracing FfbsSpec FfbsProofs.
Import ListNotations.
Open Scope R_scope.

Lemma nth_error_skipn {A} (l : list A) : forall n t, nth_error (skipn n l) t = nth_error l (n + t).
Proof. induction l as [|a l IH]; intros [|n] t; cbn [skipn Nat.add nth_error]; auto. destruct t; reflexivity. Qed.

Section Back.
  Context {Key U X Inp : Type}.
  Variable keq : forall a b : Key, {a = b} + {a <> b}.
  Variable mean : (U -> R) -> R.
  Variable good : (U -> R) -> Prop.
  Hypothesis Hm : expectation_ok mean good.
  Variable dX : X.
  Variable split : Key -> nat -> list Key.
  Hypothesis Hsplit : split_ok split.
  Variable h : X -> X -> R.
  Variable cat : U -> list ext -> nat.
  Hypothesis Hcat : categorical_law mean good cat.
  Variable N M : nat.
  Hypothesis HN : (0 < N)%nat.
  Variable phi : list X -> R.
  Notation St := (PFState Key X Inp).
  Notation pinv := (pf_inv (Key := Key) (X := X) (Inp := Inp) N).
  Notation x_ s i := (nth i (pf_particles s) dX).
  Notation ld := (fun a b : X => Fin (h a b)).

  (** log weights of the ancestors of [y], and the ancestor drawn *)
  Definition blw (s : St) (y : X) : list ext := backward_log_weights (pf_particles s) y (pf_log_weights s) ld.
  Definition pick (u : U) (s : St) (y : X) : X := x_ s (cat u (blw s y)).
  (** all trajectories, extended backwards in time *)
  Fixpoint back (w : Key -> U) (steps : list (Key * St)) (cur : list (list X)) : list (list X) :=
    match steps with
    | [] => cur
    | (k, s) :: r => back w r (map2 (fun k' tr => pick (w k') s (hd dX tr) :: tr) (split k M) cur)
    end.
  Lemma back_app w a b : forall cur, back w (a ++ b) cur = back w b (back w a cur).
  Proof. induction a as [|[k s] a IH]; intros cur; [reflexivity|]. simpl. apply IH. Qed.

  Lemma pick_law s y (f : X -> R) : pinv s ->
    good (fun u => f (pick u s y)) /\ mean (fun u => f (pick u s y)) = lsum (fun i => bprob dX h s y i * f (x_ s i)) (seq 0 N).
  Proof using Hcat HN.
    intros ((W1 & W2) & V & _). unfold pick.
    destruct (backward_log_weights_spec dX (pf_particles s) y (pf_log_weights s) ld) as (L & Hl & S1 & Hp).
    { split; [congruence|]. split; [apply V|]. split; [intros; right; eauto|].
      destruct V as (_ & V). apply Exists_exists in V. destruct V as (e & He & r & ->).
      apply In_nth_error in He. destruct He as (i & He). exists i, r, (h (x_ s i) y). auto. }
    fold (blw s y) in L, Hl, S1, Hp.
    assert (Vb : valid_logits (blw s y)).
    { split; [exact Hl|]. apply Exists_exists.
      destruct (List.Exists_dec (fun e => exists r, e = Fin r) (blw s y)) as [D|D].
      - intros [r| | |]; [left; eauto|right|right|right]; intros (r & E); discriminate.
      - apply Exists_exists in D. exact D.
      - exfalso. assert (Z : lsum uw (blw s y) = 0); [|lra].
        clear - Hl D. induction (blw s y) as [|e l IH]; [reflexivity|]. cbn [lsum]. inversion_clear Hl as [|? ? A B].
        rewrite IH; auto. destruct A as [->|(r & ->)]; [cbn [uw]; lra|]. exfalso. apply D. left. eauto. }
    destruct (Hcat (blw s y) (fun i => f (x_ s i)) Vb) as (G & E). split; [exact G|]. rewrite E, L, W2.
    apply lsum_seq_ext. intros i Hi. f_equal. unfold wt. rewrite S1, Hp by lia. unfold bprob. field.
  Qed.

  Lemma back_expectation : forall steps cur w, length cur = M ->
    NoDup (flat_map (fun ks => split (fst ks) M) steps) -> List.Forall (fun ks => pinv (snd ks)) steps ->
    expectation keq mean (flat_map (fun ks => split (fst ks) M) steps) (fun w => lsum phi (back w steps cur)) w
    = lsum (fun tr => bsum dX h N (map snd steps) (hd dX tr) (fun past => phi (past ++ tr))) cur.
  Proof using Hm Hsplit Hcat HN.
    induction steps as [|[k s] steps IH]; intros cur w Lc Hnd HF; [reflexivity|].
    cbn [flat_map fst snd] in *. destruct (NoDup_app_inv _ _ Hnd) as (N1 & N2 & N3). inversion_clear HF as [|? ? Hs HF']. cbn [snd] in Hs.
    rewrite expectation_app.
    set (cur' := fun w : Key -> U => map2 (fun k' tr => pick (w k') s (hd dX tr) :: tr) (split k M) cur).
    set (g := fun tr => bsum dX h N (map snd steps) (hd dX tr) (fun past => phi (past ++ tr))).
    rewrite (expectation_ext keq mean (split k M) _ (fun w => 0 + lsum (fun p => fst (snd p) * snd (snd p) (w (fst p)))
       (combine (split k M) (map (fun tr => (1, fun u => g (pick u s (hd dX tr) :: tr))) cur)))).
    - assert (Gg : forall tr, good (fun u => g (pick u s (hd dX tr) :: tr)) /\
         mean (fun u => g (pick u s (hd dX tr) :: tr)) = lsum (fun i => bprob dX h s (hd dX tr) i * g (x_ s i :: tr)) (seq 0 N)).
      { intros tr. exact (pick_law s (hd dX tr) (fun x => g (x :: tr)) Hs). }
      rewrite (expectation_sum keq mean good Hm).
      + rewrite lsum_map, Rplus_0_l. cbn [fst snd]. apply lsum_ext. intros tr _. rewrite Rmult_1_l, (proj2 (Gg tr)).
        cbn [map bsum snd]. apply lsum_seq_ext. intros i _. f_equal. unfold g. cbn [hd]. apply bsum_ext. intros p. now rewrite <- app_assoc.
      + exact N1.
      + now rewrite map_length, Hsplit.
      + intros ag Hag. apply in_map_iff in Hag. destruct Hag as (tr & <- & _). apply Gg.
    - intros w1 _.
      rewrite (expectation_ext keq mean _ _ (fun w => lsum phi (back w steps (cur' w1)))).
      + rewrite (IH (cur' w1)); auto.
        * fold g. unfold cur'. rewrite Rplus_0_l. assert (L : length (split k M) = length cur) by (rewrite Hsplit; lia).
          revert L. generalize (split k M). clear. intros ks. revert ks. induction cur as [|tr cur IH]; intros [|k' ks] L; try discriminate; [reflexivity|].
          cbn [map2 lsum map combine fst snd]. rewrite (IH ks) by (simpl in L; lia). ring.
        * unfold cur'. rewrite map2_len, Hsplit. lia.
      + intros w2 Hw2. cbn [back]. do 2 f_equal. unfold cur'.
        assert (Hw : forall k', In k' (split k M) -> w2 k' = w1 k') by (intros; apply Hw2; now apply N3).
        revert Hw. generalize (split k M) as ks. clear. intros ks. revert cur. induction ks as [|k' ks IH]; intros [|tr cur] Hw; try reflexivity.
        cbn [map2]. rewrite (Hw k') by now left. rewrite (IH cur); [reflexivity|]. intros k2 H2. apply Hw. now right.
  Qed.

  (** ** the smoother run *)
  Variable blp : X -> X -> Inp -> ext.
  Hypothesis Hblp : forall a b x, blp a b x = Fin (h a b).
  Variable sres : U -> list ext -> list X -> nat -> result (list nat * list ext * list X).
  Variable dummy_like : Inp -> Inp.
  Notation sm w := (ps_build_smoother split blp (exact_simulate dX split (fun k => cat (w k))) (fun k : Key => sres (w k)) M dummy_like).

  Lemma back_length w : forall steps cur, length cur = M -> length (back w steps cur) = M.
  Proof using Hsplit HN.
    induction steps as [|[k s] steps IH]; intros cur L; [exact L|]. cbn [back]. apply IH. rewrite map2_len, Hsplit. lia.
  Qed.

  (** column [j] of the smoother states, from time [t] on *)
  Definition column (sstates : list (PSState Key X Inp)) (j : nat) : list X := map (fun s => nth j (ps_particles s) dX) sstates.

  Lemma trajectories w x1 trans' inputs skey fstates sstates k0 ks k1 rk fT idx lw ys :
    let trans := x1 :: trans' in
    let T := length trans in
    (inputs = trans \/ exists x, inputs = x :: trans) ->
    length fstates = S T -> nth_error fstates T = Some fT ->
    split skey (S T) = k0 :: ks -> split k0 2 = [k1; rk] ->
    sres (w rk) (pf_log_weights fT) (pf_particles fT) M = Ok (idx, lw, ys) -> length ys = M ->
    smoother split dummy_like pf_model_inputs (sm w) fstates (Some inputs) false (Some skey) = Ok (map Ok sstates) ->
    length sstates = S T /\
    map (column sstates) (seq 0 M) = back w (rev (combine ks (removelast fstates))) (map (fun x => [x]) ys).
  Proof using Hsplit Hblp HN.
    intros trans T Hin L EfT Ek Erk Er Ly H.
    destruct (smoother_sequential split Hsplit dummy_like pf_model_inputs (sm w) fstates trans x1 inputs (Some skey)
                ltac:(discriminate) L eq_refl Hin) as (st & E & (_ & L2 & R0 & RS)).
    rewrite E in H. injection H as ->. rewrite map_length in L2. fold T in R0, RS, L2. split; [exact L2|].
    assert (Lks : length ks = T). { pose proof (Hsplit skey (S T)) as A. rewrite Ek in A. simpl in A. lia. }
    assert (Hlast : exists s, nth_error sstates T = Some s /\ ps_particles s = ys).
    { specialize (R0 fT EfT). unfold child_key in R0. rewrite Ek in R0. cbn [nth_error] in R0.
      rewrite nth_error_map in R0. destruct (nth_error sstates T) as [s|]; [|discriminate]. exists s. split; [reflexivity|].
      cbn [option_map convert_filter_to_smoother_state ps_build_smoother ps_convert] in R0. rewrite Erk in R0.
      rewrite Er in R0. cbn [bind] in R0. injection R0 as ->. reflexivity. }
    assert (Hstep : forall t f k s', nth_error fstates t = Some f -> nth_error ks t = Some k -> nth_error sstates (S t) = Some s' ->
       exists s, nth_error sstates t = Some s /\
         ps_particles s = map2 (fun k' x1 => pick (w k') f x1) (split k (length (ps_particles s'))) (ps_particles s')).
    { intros t f k s' Hf Hk Hs'. assert (Ht : (t < T)%nat) by (rewrite <- Lks; apply nth_error_Some; congruence).
      destruct (nth_error trans t) as [x|] eqn:Ex; [|apply nth_error_None in Ex; fold T in Ex; lia].
      specialize (RS t f x (Ok s') Hf ltac:(first [exact Ex|exact eq_refl])). rewrite !nth_error_map, Hs' in RS. specialize (RS eq_refl).
      unfold child_key in RS. rewrite Ek in RS. cbn [nth_error] in RS. rewrite Hk in RS.
      destruct (nth_error sstates t) as [s|]; [|discriminate]. exists s. split; [reflexivity|].
      cbn [option_map smoother_prepare smoother_combine ps_build_smoother ps_prepare bind] in RS. unfold ps_combine in RS.
      cbn [exact_simulate bind ps_key ps_particles ps_log_weights] in RS. injection RS as ->. cbn [ps_particles].
      generalize (split k (length (ps_particles s'))). generalize (ps_particles s'). clear - Hblp.
      assert (Eb : forall y, backward_log_weights (pf_particles f) y (pf_log_weights f) (fun s1 s2 => blp s1 s2 (ps_model_inputs s'))
                = blw f y).
      { intros y. unfold blw. replace (fun s1 s2 => blp s1 s2 (ps_model_inputs s')) with (fun a b => Fin (h a b)); [reflexivity|].
        apply functional_extensionality. intros a. apply functional_extensionality. intros b. now rewrite Hblp. }
      intros xs kk. revert kk. induction xs as [|y xs IH]; intros [|k' kk]; try reflexivity.
      cbn [map2 map fst]. f_equal; [|apply IH]. unfold simulate_single, pick. cbn [fst]. now rewrite Eb. }
    assert (Hlen : forall n t s, (t + n = T)%nat -> nth_error sstates t = Some s -> length (ps_particles s) = M).
    { induction n as [|n IH]; intros t s Ht Es.
      - assert (t = T) by lia. subst t. destruct Hlast as (s' & E' & <-). congruence.
      - destruct (nth_error sstates (S t)) as [s'|] eqn:Es'; [|apply nth_error_None in Es'; lia].
        destruct (nth_error fstates t) as [f|] eqn:Ef; [|apply nth_error_None in Ef; lia].
        destruct (nth_error ks t) as [k|] eqn:Ekt; [|apply nth_error_None in Ekt; lia].
        destruct (Hstep t f k s' Ef Ekt Es') as (s2 & E2 & Q). rewrite Es in E2. injection E2 as <-.
        rewrite Q, map2_len, Hsplit. rewrite (IH (S t) s' ltac:(lia) Es'). lia. }
    assert (A : forall n t, (t + n = T)%nat ->
       map (fun j => column (skipn t sstates) j) (seq 0 M) = back w (rev (skipn t (combine ks (removelast fstates)))) (map (fun x => [x]) ys)).
    { induction n as [|n IH]; intros t Ht.
      - assert (t = T) by lia. subst t. destruct Hlast as (s & Es & Ep).
        assert (E1 : skipn T sstates = [s]).
        { apply list_nth_error_ext. intros i. rewrite nth_error_skipn. destruct i as [|i]; [now rewrite Nat.add_0_r|].
          transitivity (@None (PSState Key X Inp)); [apply nth_error_None; lia|symmetry; apply nth_error_None; simpl; lia]. }
        rewrite E1. rewrite skipn_all2 by (rewrite combine_length; lia). cbn [rev back]. unfold column. cbn [map].
        apply list_nth_error_ext. intros i. rewrite !nth_error_map. rewrite Ep. destruct (lt_dec i M) as [Hi|Hi].
        + rewrite (nth_error_nth' (seq 0 M) 0%nat) by (rewrite seq_length; lia). rewrite seq_nth by lia.
          rewrite (nth_error_nth' ys dX) by lia. reflexivity.
        + rewrite !(proj2 (nth_error_None _ _)); [reflexivity|lia|rewrite seq_length; lia].
      - destruct (nth_error sstates (S t)) as [s'|] eqn:Es'; [|apply nth_error_None in Es'; lia].
        destruct (nth_error fstates t) as [f|] eqn:Ef; [|apply nth_error_None in Ef; lia].
        destruct (nth_error ks t) as [k|] eqn:Ekt; [|apply nth_error_None in Ekt; lia].
        destruct (Hstep t f k s' Ef Ekt Es') as (s & Es & Q).
        assert (Ls' : length (ps_particles s') = M) by (apply (Hlen n (S t) s'); auto; lia). rewrite Ls' in Q.
        assert (Ec : skipn t (combine ks (removelast fstates)) = (k, f) :: skipn (S t) (combine ks (removelast fstates))).
        { apply list_nth_error_ext. intros i. rewrite nth_error_skipn. destruct i as [|i].
          - rewrite Nat.add_0_r. cbn [nth_error]. apply nth_error_combine; [exact Ekt|]. rewrite <- Ef.
            rewrite removelast_firstn_len. apply nth_error_firstn_lt. lia.
          - cbn [nth_error]. rewrite nth_error_skipn. f_equal. lia. }
        assert (Es2 : skipn t sstates = s :: skipn (S t) sstates).
        { apply list_nth_error_ext. intros i. rewrite nth_error_skipn. destruct i as [|i].
          - rewrite Nat.add_0_r. exact Es.
          - cbn [nth_error]. rewrite nth_error_skipn. f_equal. lia. }
        assert (Es3 : skipn (S t) sstates = s' :: skipn (S (S t)) sstates).
        { apply list_nth_error_ext. intros i. rewrite nth_error_skipn. destruct i as [|i].
          - rewrite Nat.add_0_r. exact Es'.
          - cbn [nth_error]. rewrite nth_error_skipn. f_equal. lia. }
        rewrite Ec. cbn [rev]. rewrite back_app, <- (IH (S t) ltac:(lia)). cbn [back]. rewrite Es2.
        apply list_nth_error_ext. intros i. destruct (lt_dec i M) as [Hi|Hi].
        + rewrite nth_error_map. rewrite (nth_error_nth' (seq 0 M) 0%nat) by (rewrite seq_length; lia). rewrite seq_nth by lia. cbn [option_map].
          match goal with |- _ = nth_error ?l i => rewrite (nth_error_nth' l []) by (rewrite map2_len, Hsplit, map_length, seq_length; lia) end.
          f_equal. rewrite (map2_nth_d _ rk []) by (rewrite ?Hsplit, ?map_length, ?seq_length; lia).
          rewrite (nth_indep _ [] (column (skipn (S t) sstates) 0)) by (rewrite map_length, seq_length; lia).
          rewrite (map_nth (fun j => column (skipn (S t) sstates) j)), seq_nth by lia.
          unfold column at 1. cbn [map]. fold (column (skipn (S t) sstates) (0 + i)). f_equal.
          rewrite Q. rewrite (map2_nth_d _ rk dX) by (rewrite ?Hsplit; lia). f_equal. rewrite Es3. reflexivity.
        + rewrite !(proj2 (nth_error_None _ _)); [reflexivity|rewrite map2_len, Hsplit; lia|rewrite map_length, seq_length; lia]. }
    exact (A T 0%nat eq_refl).
  Qed.
End Back.

Section FfbsUnbiased.
  Context {Key U X Inp : Type}.
  Variable keq : forall a b : Key, {a = b} + {a <> b}.
  Variable mean : (U -> R) -> R.
  Variable good : (U -> R) -> Prop.
  Hypothesis Hm : expectation_ok mean good.
  Variable dX : X.
  Variable split : Key -> nat -> list Key.
  Hypothesis Hsplit : split_ok split.
  Hypothesis Hinj : split_injective split.
  Variable initial : U -> Inp -> X.
  Variable propagate : U -> X -> Inp -> X.
  Variable log_potential : X -> X -> Inp -> ext.
  Hypothesis Hfin : forall a b x, exists r, log_potential a b x = Fin r.
  Variable h : X -> X -> R.
  Variable blp : X -> X -> Inp -> ext.
  Hypothesis Hblp : forall a b x, blp a b x = Fin (h a b).
  Variable cat : U -> list ext -> nat.
  Hypothesis Hcat : categorical_law mean good cat.
  Variable res sres : U -> list ext -> list X -> nat -> result (list nat * list ext * list X).
  Hypothesis Hres : resampler_ok dX res.
  Hypothesis Htot : resampler_total res.
  Hypothesis Hsres : resampler_ok dX sres.
  Variable N M : nat.
  Hypothesis Hstot : forall u l xs, valid_logits l -> length l = N -> length xs = N -> exists out, sres u l xs M = Ok out.
  Hypothesis Hunb : resampler_unbiased mean good N res.
  Hypothesis Hsunb : resampler_unbiased_to mean good N M sres.
  Hypothesis HN : (0 < N)%nat.
  Hypothesis HM : (0 < M)%nat.
  Variable dummy : X.
  Variable dummy_like : Inp -> Inp.
  Variable phi : list X -> R.
  Notation pf w := (seeded_pf split initial propagate log_potential res N dummy w).
  Notation sm w := (ps_build_smoother split blp (exact_simulate dX split (fun k => cat (w k))) (fun k : Key => sres (w k)) M dummy_like).
  Notation St := (PFState Key X Inp).
  Notation pinv := (pf_inv (Key := Key) (X := X) (Inp := Inp) N).
  Notation x_ s i := (nth i (pf_particles s) dX).

  Lemma backward_keys_NoDup skey T : NoDup (backward_keys split skey M T).
  Proof using Hinj.
    unfold backward_keys. apply flat_map_NoDup; auto. apply NoDup_rev.
    pose proof (split_NoDup split Hinj skey (S T)) as H. destruct (split skey (S T)); [constructor|]. now inversion_clear H.
  Qed.
  Lemma backward_keys_parent skey T c : In c (backward_keys split skey M T) ->
    exists k i j, nth_error (split skey (S T)) (S j) = Some k /\ nth_error (split k M) i = Some c.
  Proof using.
    intros H. apply in_flat_map in H. destruct H as (k & Hk & H). apply in_rev in Hk. apply In_nth_error in H. destruct H as (i & H).
    destruct (split skey (S T)) as [|k0 ks]; [contradiction|]. cbn [tl] in Hk. apply In_nth_error in Hk. destruct Hk as (j & Hk).
    exists k, i, j. auto.
  Qed.
  Lemma backward_keys_fresh fkey skey T kT k1 rk : fkey <> skey ->
    nth_error (split skey (S T)) 0 = Some kT -> split kT 2 = [k1; rk] ->
    ~ In rk (backward_keys split skey M T) /\ forall c, In c (backward_keys split skey M T) -> ~ In c (consumed split fkey N T).
  Proof using Hinj.
    intros Hne H1 H2. split.
    - intros H. destruct (backward_keys_parent _ _ _ H) as (k & i & j & Hk & Hc).
      assert (Hrk : nth_error (split kT 2) 1 = Some rk) by now rewrite H2.
      destruct (Hinj _ _ _ _ _ _ _ Hrk Hc) as (-> & _ & _). destruct (Hinj _ _ _ _ _ _ _ H1 Hk) as (_ & _ & E). discriminate.
    - intros c H H3. destruct (backward_keys_parent _ _ _ H) as (k & i & j & Hk & Hc).
      assert (A : forall n l, incl l (split fkey (S T)) -> ~ In c (flat_map (fun k => split k n) l)).
      { intros n l Hl Hc'. apply in_flat_map in Hc'. destruct Hc' as (k' & Hk' & Hc'). apply In_nth_error in Hc'. destruct Hc' as (i' & Hc').
        destruct (Hinj _ _ _ _ _ _ _ Hc Hc') as (-> & _ & _). apply Hl, In_nth_error in Hk'. destruct Hk' as (j' & Hk').
        destruct (Hinj _ _ _ _ _ _ _ Hk Hk') as (E & _ & _). congruence. }
      assert (F : forall n, incl (firstn n (split fkey (S T))) (split fkey (S T))).
      { intros n c' Hc'. rewrite <- (firstn_skipn n (split fkey (S T))). apply in_or_app. now left. }
      unfold consumed in H3. apply in_app_or in H3. destruct H3 as [H3|H3]; eapply A; eauto.
  Qed.

  Definition oks {A} (r : result (list (result A))) : list A :=
    match r with Ok l => flat_map (fun r => match r with Ok s => [s] | Err _ => [] end) l | Err _ => [] end.
  Lemma oks_Ok {A} (l : list A) : oks (Ok (map Ok l)) = l.
  Proof using. unfold oks. induction l as [|a l IH]; [reflexivity|]. simpl. now rewrite IH. Qed.

  Theorem ffbs_unbiased x0 x1 trans' inputs fkey skey w0 :
    let trans := x1 :: trans' in
    let T := length trans in
    (inputs = trans \/ exists x, inputs = x :: trans) ->
    fkey <> skey ->
    (forall x, In x trans -> backward_potential mean good propagate log_potential h x) ->
    path_good mean good initial propagate log_potential x0 trans phi ->
    backward_good mean good propagate log_potential h trans phi ->
    exists kT k1 rk, nth_error (split skey (S T)) 0 = Some kT /\ split kT 2 = [k1; rk] /\
    NoDup (consumed split fkey N T ++ rk :: backward_keys split skey M T) /\
    exists est : (Key -> U) -> R,
      (forall w, exists fstates s sstates,
         filter split (pf w) (x0 :: trans) false (Some fkey) = Ok (map Ok fstates) /\
         nth_error fstates T = Some s /\
         smoother split dummy_like pf_model_inputs (sm w) fstates (Some inputs) false (Some skey) = Ok (map Ok sstates) /\
         length sstates = S T /\
         exists z, pf_log_normalizing_constant s = Fin z /\
            est w = exp z * (lsum (fun k => phi (map (fun s => nth k (ps_particles s) dX) sstates)) (seq 0 M) / INR M)) /\
      expectation keq mean (consumed split fkey N T ++ rk :: backward_keys split skey M T) est w0
      = path_integral mean initial propagate log_potential x0 trans phi.
  Proof using Hm Hsplit Hinj Hfin Hblp Hcat Hres Htot Hsres Hstot Hunb Hsunb HN HM.
    intros trans T Hin Hne Hb Hg Hbg.
    pose proof (Hsplit skey (S T)) as L0. destruct (split skey (S T)) as [|k0 ks] eqn:Ek; [discriminate|]. simpl in L0. injection L0 as Lks.
    pose proof (Hsplit k0 2%nat) as L1. destruct (split k0 2) as [|k1 [|rk [|? ?]]] eqn:Erk; try discriminate. clear L1.
    assert (EkT : nth_error (split skey (S T)) 0 = Some k0) by now rewrite Ek.
    pose proof (rk_fresh split Hinj N _ _ _ _ _ _ Hne EkT Erk) as Hfresh.
    destruct (backward_keys_fresh _ _ _ _ _ _ Hne EkT Erk) as (Hrkb & Hbf).
    pose proof (backward_keys_NoDup skey T) as Hbnd.
    exists k0, k1, rk. split; [reflexivity|]. split; [exact Erk|].
    split. { apply NoDup_app'; [now apply consumed_NoDup|constructor; auto|]. intros c Hc [<-|Hc']; [contradiction|]. exact (Hbf _ Hc' Hc). }
    destruct (history_unbiased keq mean good Hm dX split Hsplit initial propagate log_potential Hfin h res Hres Htot N Hunb HN dummy phi
       x0 trans fkey w0 (consumed_NoDup split fkey N (length trans) Hinj) Hb Hg Hbg) as (estA & HA & EA). fold T in HA, EA.
    set (run := fun w => oks (filter split (pf w) (x0 :: trans) false (Some fkey))).
    set (srun := fun w => oks (smoother split dummy_like pf_model_inputs (sm w) (run w) (Some inputs) false (Some skey))).
    set (est := fun w => match nth_error (run w) T with
                         | Some s => uw (pf_log_normalizing_constant s) * (lsum phi (map (column dX (srun w)) (seq 0 M)) / INR M)
                         | None => 0 end).
    assert (HA' : forall w, exists hist s z,
         filter split (pf w) (x0 :: trans) false (Some fkey) = Ok (map Ok (run w)) /\
         run w = rev (s :: hist) /\ nth_error (run w) T = Some s /\ removelast (run w) = rev hist /\
         length hist = T /\ pinv s /\ List.Forall pinv hist /\ pf_log_normalizing_constant s = Fin z /\
         estA w = exp z * lsum (fun i => wt (pf_log_weights s) i * bsum dX h N hist (x_ s i) (fun past => phi (past ++ [x_ s i]))) (seq 0 N)).
    { intros w. destruct (HA w) as (hist & s & z & R & L & I & F & Z & E). exists hist, s, z. unfold run. rewrite R, oks_Ok.
      split; [reflexivity|]. split; [reflexivity|]. cbn [rev]. split.
      { rewrite nth_error_app2; rewrite rev_length, L; [now rewrite Nat.sub_diag|lia]. }
      split; [now rewrite removelast_last|]. auto. }
    (* the smoother's run *)
    assert (HS : forall w, exists s sstates idx lw ys,
         nth_error (run w) T = Some s /\
         smoother split dummy_like pf_model_inputs (sm w) (run w) (Some inputs) false (Some skey) = Ok (map Ok sstates) /\
         srun w = sstates /\ length sstates = S T /\
         sres (w rk) (pf_log_weights s) (pf_particles s) M = Ok (idx, lw, ys) /\
         length ys = M /\
         map (column dX sstates) (seq 0 M) = back dX split h cat M w (rev (combine ks (removelast (run w)))) (map (fun x => [x]) ys)).
    { intros w. destruct (HA' w) as (hist & s & z & R & Er & Es & Erl & L & I & F & Z & E).
      destruct I as ((W1 & W2) & V & I').
      assert (Lr : length (run w) = S T) by (rewrite Er, rev_length; cbn [length]; lia).
      destruct (smoother_run_exists_at dX split Hsplit blp (exact_simulate dX split (fun k => cat (w k))) (fun k => sres (w k)) M dummy_like (run w)
                  x1 trans' inputs skey) as (sstates & Hs & Ls); auto.
      { intros. unfold exact_simulate. eauto. }
      { intros k f Ef. fold trans in Ef. fold T in Ef. rewrite Es in Ef. injection Ef as <-. apply Hstot; [exact V|lia|lia]. }
      destruct (Hstot (w rk) _ (pf_particles s) V ltac:(lia) ltac:(lia)) as ([[idx lw] ys] & Hr).
      destruct (Hsres _ _ (pf_particles s) _ _ _ _ V ltac:(lia) HM Hr) as (_ & _ & Ly & _).
      destruct (trajectories dX split Hsplit h cat N M HN blp Hblp sres dummy_like w x1 trans' inputs skey (run w) sstates k0 ks k1 rk s idx lw ys
         Hin Lr Es Ek Erk Hr Ly Hs) as (L2 & Q).
      exists s, sstates, idx, lw, ys. repeat (split; [first [assumption|unfold srun; rewrite Hs; apply oks_Ok]|]). exact Q. }
    assert (Hloc : forall w w', (forall k, In k (consumed split fkey N T) -> w k = w' k) -> run w = run w').
    { intros w w' Hw. destruct (HA' w) as (hist & s & z & R & Er & _ & _ & _ & I & F & _). destruct (HA' w') as (hist' & s' & z' & R' & _).
      apply (run_local split Hsplit initial propagate log_potential res N dummy w w' x0 trans fkey); auto.
      intros t st Et. rewrite Er in Et. apply nth_error_In, in_rev in Et. destruct Et as [<-|Et]; [apply I|].
      rewrite Forall_forall in F. apply (F _ Et). }
    exists est. split.
    - intros w. destruct (HA' w) as (hist & s & z & R & Er & Es & Erl & L & I & F & Z & E).
      destruct (HS w) as (s' & sstates & idx & lw & ys & Es' & Hs & Esr & Ls & _). exists (run w), s, sstates.
      repeat (split; [assumption|]). exists z. split; [exact Z|]. unfold est. rewrite Es, Z, Esr. cbn [uw]. do 2 f_equal. now rewrite lsum_map.
    - change (rk :: backward_keys split skey M T) with ([rk] ++ backward_keys split skey M T).
      rewrite expectation_app, <- EA. apply expectation_ext. intros w _. cbn [expectation app].
      destruct (HA' w) as (hist & s & z & R & Er & Es & Erl & L & I & F & Z & EE).
      set (steps := rev (combine ks (rev hist))).
      assert (Lr : length (rev hist) = length ks) by (rewrite rev_length; lia).
      assert (Eks : backward_keys split skey M T = flat_map (fun kf : Key * St => split (fst kf) M) steps).
      { unfold backward_keys. rewrite Ek. cbn [tl]. unfold steps.
        assert (Ef : map fst (combine ks (rev hist)) = ks).
        { revert Lr. generalize (rev hist) as m. clear. induction ks as [|k ks IH]; intros [|a m] Lr; try discriminate; [reflexivity|].
          cbn [combine map fst]. f_equal. apply IH. simpl in Lr. lia. }
        rewrite <- Ef at 1. rewrite <- map_rev. clear. induction (rev (combine ks (rev hist))) as [|a l IH]; [reflexivity|]. cbn [map flat_map]. now rewrite IH. }
      assert (Ehist : map snd steps = hist).
      { unfold steps. rewrite map_rev. rewrite <- (rev_involutive hist) at 2. f_equal.
        revert Lr. generalize (rev hist) as m. clear. induction ks as [|k ks IH]; intros [|a m] Lr; try discriminate; [reflexivity|].
        cbn [combine map snd]. f_equal. apply IH. simpl in Lr. lia. }
      assert (Hst : List.Forall (fun ks => pinv (snd ks)) steps).
      { apply Forall_forall. intros a Ha. rewrite Forall_forall in F. apply F. rewrite <- Ehist. now apply in_map. }
      destruct I as ((W1 & W2) & V & I').
      set (v := fun i => bsum dX h N hist (x_ s i) (fun past => phi (past ++ [x_ s i]))).
      set (D := fun u => match sres u (pf_log_weights s) (pf_particles s) M with
                         | Ok (idx, _, _) => lsum (fun j => v (nth j idx 0%nat)) (seq 0 M) / INR M
                         | Err _ => 0 end).
      assert (A : (fun u => expectation keq mean (backward_keys split skey M T) est (assign keq w rk u)) = (fun u => exp z * D u + 0 * 0)).
      { apply functional_extensionality. intros u.
        destruct (Hstot u _ (pf_particles s) V ltac:(lia) ltac:(lia)) as ([[idx lw] ys] & Hr).
        destruct (Hsres _ _ (pf_particles s) _ _ _ _ V ltac:(lia) HM Hr) as (Li & _ & Ly & _ & Hy).
        rewrite (expectation_ext keq mean _ _ (fun w' => lsum (fun tr => exp z / INR M * phi tr) (back dX split h cat M w' steps (map (fun x => [x]) ys)))).
        - rewrite Eks in Hbnd |- *. rewrite (back_expectation keq mean good Hm dX split Hsplit h cat Hcat N M HN); auto; [|now rewrite map_length].
          rewrite Ehist, lsum_map. unfold D. rewrite Hr. rewrite Rmult_0_l, Rplus_0_r. unfold Rdiv at 2. rewrite (lsum_nth_seq _ ys dX), Ly.
          rewrite (Rmult_comm (lsum _ _) (/ INR M)), <- Rmult_assoc, <- lsum_scal. apply lsum_seq_ext. intros j Hj. cbn [hd].
          rewrite (bsum_scal dX h N hist (exp z / INR M)). unfold v. rewrite (proj2 (Hy j Hj)). reflexivity.
        - intros w' Hw'. assert (El : run w' = run w).
          { apply Hloc. intros k Hk. rewrite Hw' by (intros H; exact (Hbf _ H Hk)). apply assign_other. intros ->. contradiction. }
          destruct (HS w') as (s' & sstates & idx' & lw' & ys' & Es' & Hs & Esr & Ls & Hr' & Ly' & Q).
          rewrite El, Es in Es'. injection Es' as <-. rewrite Hw' in Hr' by exact Hrkb. rewrite assign_same, Hr in Hr'. injection Hr' as <- <- <-.
          unfold est. rewrite El, Es, Z, Esr, Q, El, Erl. cbn [uw]. fold steps. rewrite lsum_scal. unfold Rdiv. ring. }
      rewrite A. destruct Hm as (Hc & Hl).
      destruct (Hsunb (pf_log_weights s) (pf_particles s) v V ltac:(lia) ltac:(lia)) as (G & Q). cbv zeta in G, Q.
      destruct (Hl D (fun _ => 0) (exp z) 0 G (proj1 (Hc 0))) as (_ & Q'). cbv beta in Q'.
      rewrite Q', (proj2 (Hc 0)), EE. unfold D. rewrite Q. rewrite Rmult_0_l, Rplus_0_r. reflexivity.
  Qed.
End FfbsUnbiased.
