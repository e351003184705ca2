(** The trajectories returned by the MCMC backward sampler estimate path integrals without bias. *)
From Coq Require Import Reals List Arith Bool Lia Lra FunctionalExtensionality.
From Coquelicot Require Import Coquelicot.
From Verif Require Import Ext ScanModel ScanProofs DriverSpec DriverProofs DiscreteSpec Sums
  ResamplingModel ResamplingSpec ResamplingProofs ConditionalProofs KillingProofs SystematicProofs
  ConditionalLaw SmcModel SmcSpec SmcProofs BackwardProofs BackwardKernels ImhProofs SmcRuns UnbiasedSpec KeyProofs Martingale SmcUnbiased
  PathSpec PathProofs PathTracing FfbsSpec FfbsProofs FfbsBackward McmcModel McmcSpec McmcProofs.
Import ListNotations.
Open Scope R_scope.

Lemma fold_left_map {A B C} (f : A -> B -> A) (g : C -> B) l : forall a, fold_left f (map g l) a = fold_left (fun a c => f a (g c)) l a.
Proof. induction l as [|c l IH]; intros a; [reflexivity|]. cbn [map fold_left]. apply IH. Qed.

Lemma map_seq_nth {A} (f : nat -> A) M d j : (j < M)%nat -> nth j (map f (seq 0 M)) d = f j.
Proof. intros Hj. rewrite (nth_indep _ d (f 0%nat)) by (rewrite map_length, seq_length; lia). rewrite (map_nth f), seq_nth by lia. reflexivity. Qed.

Section Slots.
  Context {Key U X Inp : Type}.
  Variable keq : forall a b : Key, {a = b} + {a <> b}.
  Variable mean : (U -> R) -> R.
  Variable good : (U -> R) -> Prop.
  Hypothesis Hm : expectation_ok mean good.
  Variable dX : X.
  Variable split : Key -> nat -> list Key.
  Hypothesis Hsplit : split_ok split.
  Variable h : X -> X -> R.
  Variable prop : U -> list ext -> nat -> list nat.
  Variable acc : U -> nat -> list R.
  Variable N M n : nat.
  Hypothesis HN : (0 < N)%nat.
  Hypothesis Hprop : proposal_law mean good N M prop.
  Hypothesis Hacc : uniform_law mean good M acc.
  Variable phi : list X -> R.
  Notation St := (PFState Key X Inp).
  Notation pinv := (pf_inv (Key := Key) (X := X) (Inp := Inp) N).
  Notation x_ s i := (nth i (pf_particles s) dX).
  Notation a_ s i := (nth i (pf_ancestor_indices s) 0%nat).
  Notation ld := (fun a b : X => Fin (h a b)).
  Notation kern := (fun lw xs y i k => chain_law (imh_step dX xs y ld) lw n (imh_init dX xs y ld i) k).

  Definition flat (prs : list (Key * Key)) : list Key := flat_map (fun kk => [fst kk; snd kk]) prs.
  Definition prs (k : Key) : list (Key * Key) :=
    match split k 2 with [k'; _] => pairs (split k' (n * 2)%nat) | _ => [] end.
  Lemma pairs_flat : forall m (l : list Key), length l = (m * 2)%nat -> flat (pairs l) = l /\ length (pairs l) = m.
  Proof using.
    clear. induction m as [|m IH]; intros [|a [|b l]] L; try discriminate; [auto|]. simpl in L.
    destruct (IH l ltac:(lia)) as (A & B). cbn [pairs length]. split; [|lia].
    unfold flat in *. cbn [flat_map fst snd app]. now rewrite A.
  Qed.
  Lemma prs_keys k : flat (prs k) = flat_map (fun k' => split k' (n * 2)%nat) (firstn 1 (split k 2)) /\ length (prs k) = n.
  Proof using Hsplit.
    unfold prs. pose proof (Hsplit k 2%nat) as L. destruct (split k 2) as [|k' [|k2 [|? ?]]]; try discriminate.
    destruct (pairs_flat n (split k' (n * 2)%nat) (Hsplit _ _)) as (A & B). split; [|exact B]. rewrite A. cbn [firstn flat_map]. now rewrite app_nil_r.
  Qed.

  (** the chain of one trajectory *)
  Definition drive (w : Key -> U) (ps : list (Key * Key)) (lw : list ext) (xs : list X) (y : X) (j : nat) (c : nat * ext) : nat * ext :=
    fold_left (fun c kk => imh_step dX xs y ld c (nth j (prop (w (fst kk)) lw M) 0%nat) (nth j (acc (w (snd kk)) M) 0)) ps c.

  Lemma drive_range w lw xs y j : valid_logits lw -> length lw = N -> (j < M)%nat ->
    forall ps c, (fst c < N)%nat -> (fst (drive w ps lw xs y j c) < N)%nat.
  Proof using Hprop.
    intros V L Hj. induction ps as [|kk ps IH]; intros c Hc; [exact Hc|]. cbn [drive fold_left]. apply IH.
    destruct c as [i e]. unfold imh_step. destruct eltb; cbn [fst] in *; [|exact Hc].
    apply (Hprop lw j (fun _ => 0) V L Hj).
  Qed.

  Lemma drive_expectation lw xs (ys : nat -> X) (V : nat -> nat -> R) : valid_logits lw -> length lw = N ->
    forall ps (c : nat -> nat * ext) w, NoDup (flat ps) -> (forall j, (j < M)%nat -> (fst (c j) < N)%nat) ->
    expectation keq mean (flat ps) (fun w => lsum (fun j => V j (fst (drive w ps lw xs (ys j) j (c j)))) (seq 0 M)) w
    = lsum (fun j => lsum (fun m => chain_law (imh_step dX xs (ys j) ld) lw (length ps) (c j) m * V j m) (seq 0 N)) (seq 0 M).
  Proof using Hm Hprop Hacc HN.
    intros Vl Ll. induction ps as [|[kp ka] ps IH]; intros c w Hnd Hc.
    - cbn [flat flat_map expectation]. apply lsum_seq_ext. intros j Hj. cbn [drive fold_left length chain_law].
      symmetry. transitivity (lsum (fun m => if Nat.eqb (fst (c j)) m then V j m else 0) (seq 0 N)).
      + apply lsum_seq_ext. intros m _. destruct Nat.eqb; ring.
      + rewrite <- (lsum_seq_delta (V j) N (fst (c j)) (Hc j Hj)). apply lsum_seq_ext. intros m _. destruct (Nat.eqb (fst (c j)) m); ring.
    - change (flat ((kp, ka) :: ps)) with (kp :: ka :: flat ps) in *. cbn [expectation].
      inversion_clear Hnd as [|? ? Np Hnd']. inversion_clear Hnd' as [|? ? Na Hnd].
      set (law := fun j => chain_law (imh_step dX xs (ys j) ld) lw (length ps)).
      set (q := fun j p u => lsum (fun m => law j (imh_step dX xs (ys j) ld (c j) p u) m * V j m) (seq 0 N)).
      assert (Hq : forall j p, is_RInt (q j p) 0 1 (lsum (fun m => RInt (fun u => law j (imh_step dX xs (ys j) ld (c j) p u) m) 0 1 * V j m) (seq 0 N))).
      { intros j p. unfold q. apply is_RInt_lsum. intros m _.
        apply (is_RInt_ext (V := R_NormedModule) (fun u => scal (V j m) (law j (imh_step dX xs (ys j) ld (c j) p u) m))).
        { intros u _. unfold scal; simpl. unfold mult; simpl. ring. }
        apply is_RInt_val with (scal (V j m) (RInt (fun u => law j (imh_step dX xs (ys j) ld (c j) p u) m) 0 1)); [|unfold scal; simpl; unfold mult; simpl; ring].
        apply (is_RInt_scal (V := R_NormedModule)). apply (RInt_correct (V := R_CompleteNormedModule)).
        eexists. apply (step_RInt dX xs (ys j) lw ld (length ps) (c j) p m). }
      set (P := fun j u1 => nth j (prop u1 lw M) 0%nat).
      assert (E : (fun u1 => mean (fun u2 => expectation keq mean (flat ps)
          (fun w => lsum (fun j => V j (fst (drive w ((kp, ka) :: ps) lw xs (ys j) j (c j)))) (seq 0 M)) (assign keq (assign keq w kp u1) ka u2)))
        = (fun u1 => lsum (fun j => 1 * (fun u1 => RInt (q j (P j u1)) 0 1) u1) (seq 0 M))).
      { apply functional_extensionality. intros u1.
        assert (E2 : (fun u2 => expectation keq mean (flat ps)
            (fun w => lsum (fun j => V j (fst (drive w ((kp, ka) :: ps) lw xs (ys j) j (c j)))) (seq 0 M)) (assign keq (assign keq w kp u1) ka u2))
          = (fun u2 => lsum (fun j => 1 * (fun u2 => q j (P j u1) (nth j (acc u2 M) 0)) u2) (seq 0 M))).
        { apply functional_extensionality. intros u2.
          rewrite (expectation_ext keq mean _ _ (fun w' => lsum (fun j => V j (fst (drive w' ps lw xs (ys j) j
             (imh_step dX xs (ys j) ld (c j) (P j u1) (nth j (acc u2 M) 0))))) (seq 0 M))).
          - rewrite (IH (fun j => imh_step dX xs (ys j) ld (c j) (P j u1) (nth j (acc u2 M) 0))); auto.
            + apply lsum_seq_ext. intros j _. unfold q, law. ring.
            + intros j Hj. specialize (Hc j Hj). destruct (c j) as [i e]. unfold imh_step. destruct eltb; cbn [fst] in *; [|exact Hc].
              apply (Hprop lw j (fun _ => 0) Vl Ll Hj).
          - intros w' Hw'. apply lsum_seq_ext. intros j _. cbn [drive fold_left fst snd].
            assert (E1 : w' ka = u2) by (rewrite Hw' by exact Na; apply assign_same).
            assert (E3 : w' kp = u1).
            { rewrite Hw' by (intros H; apply Np; now right). rewrite assign_other by (intros ->; apply Np; now left). apply assign_same. }
            now rewrite E1, E3. }
        rewrite E2. destruct (mean_lsum mean good Hm (fun _ => 1) (fun j u2 => q j (P j u1) (nth j (acc u2 M) 0)) (seq 0 M)) as (_ & ->).
        { intros j Hj. apply in_seq in Hj. apply (Hacc j (q j (P j u1)) ltac:(lia)). eexists. apply Hq. }
        apply lsum_seq_ext. intros j Hj. f_equal. apply (Hacc j (q j (P j u1)) Hj). eexists. apply Hq. }
      rewrite E. destruct (mean_lsum mean good Hm (fun _ => 1) (fun j u1 => RInt (q j (P j u1)) 0 1) (seq 0 M)) as (_ & ->).
      { intros j Hj. apply in_seq in Hj. apply (Hprop lw j (fun p => RInt (q j p) 0 1) Vl Ll ltac:(lia)). }
      apply lsum_seq_ext. intros j Hj. rewrite Rmult_1_l.
      etransitivity; [exact (proj2 (proj2 (Hprop lw j (fun p => RInt (q j p) 0 1) Vl Ll Hj)))|].
      cbn [length chain_law]. rewrite Ll.
      transitivity (lsum (fun i => lsum (fun m => wt lw i * RInt (fun u => law j (imh_step dX xs (ys j) ld (c j) i u) m) 0 1 * V j m) (seq 0 N)) (seq 0 N)).
      + apply lsum_seq_ext. intros i _. rewrite (is_RInt_unique _ _ _ _ (Hq j i)), <- lsum_scal. apply lsum_seq_ext. intros m _. ring.
      + rewrite lsum_swap. apply lsum_seq_ext. intros m _. rewrite (Rmult_comm _ (V j m)), <- lsum_scal.
        apply lsum_seq_ext. intros i _. unfold law. ring.
  Qed.

  (** ** all trajectories, extended backwards in time; each comes with its ancestor's index *)
  Definition slot0 : list X * nat := ([], 0%nat).
  Definition slot_index (w : Key -> U) (k : Key) (s : St) (ta : list X * nat) (j : nat) : nat :=
    fst (drive w (prs k) (pf_log_weights s) (pf_particles s) (hd dX (fst ta)) j
           (imh_init dX (pf_particles s) (hd dX (fst ta)) ld (snd ta))).
  Definition move (w : Key -> U) (k : Key) (s : St) (cur : list (list X * nat)) : list (list X * nat) :=
    map (fun j => let ta := nth j cur slot0 in let m := slot_index w k s ta j in (x_ s m :: fst ta, a_ s m)) (seq 0 M).
  Fixpoint kback (w : Key -> U) (steps : list (Key * St)) (cur : list (list X * nat)) : list (list X * nat) :=
    match steps with
    | [] => cur
    | (k, s) :: r => kback w r (move w k s cur)
    end.
  Lemma kback_app w a b : forall cur, kback w (a ++ b) cur = kback w b (kback w a cur).
  Proof. induction a as [|[k s] a IH]; intros cur; [reflexivity|]. simpl. apply IH. Qed.
  Definition anc_ok (s : St) : Prop := length (pf_ancestor_indices s) = N /\ forall j, (j < N)%nat -> (a_ s j < N)%nat.

  Lemma kback_expectation : forall steps cur w, length cur = M -> (forall j, (j < M)%nat -> (snd (nth j cur slot0) < N)%nat) ->
    NoDup (flat_map (fun ks => flat (prs (fst ks))) steps) ->
    List.Forall (fun ks => pinv (snd ks) /\ anc_ok (snd ks)) steps ->
    expectation keq mean (flat_map (fun ks => flat (prs (fst ks))) steps) (fun w => lsum (fun ta => phi (fst ta)) (kback w steps cur)) w
    = lsum (fun ta => ksum dX kern N (map snd steps) (hd dX (fst ta)) (snd ta) (fun past => phi (past ++ fst ta))) cur.
  Proof using Hm Hsplit Hprop Hacc HN.
    induction steps as [|[k s] steps IH]; intros cur w Lc Hr Hnd HF; [reflexivity|].
    cbn [flat_map fst snd] in *. destruct (NoDup_app_inv _ _ Hnd) as (N1 & N2 & N3). inversion_clear HF as [|? ? Hs HF']. cbn [snd] in Hs.
    destruct Hs as (((W1 & W2) & V & I') & La & Ha).
    rewrite expectation_app.
    set (g := fun ta : list X * nat => ksum dX kern N (map snd steps) (hd dX (fst ta)) (snd ta) (fun past => phi (past ++ fst ta))).
    set (tas := fun j => nth j cur slot0).
    rewrite (expectation_ext keq mean (flat (prs k)) _ (fun w => lsum (fun j =>
        (fun j m => g (x_ s m :: fst (tas j), a_ s m)) j
          (fst (drive w (prs k) (pf_log_weights s) (pf_particles s) (hd dX (fst (tas j))) j
             (imh_init dX (pf_particles s) (hd dX (fst (tas j))) ld (snd (tas j)))))) (seq 0 M))).
    - rewrite (drive_expectation (pf_log_weights s) (pf_particles s) (fun j => hd dX (fst (tas j))) (fun j m => g (x_ s m :: fst (tas j), a_ s m)) V W2
         (prs k) (fun j => imh_init dX (pf_particles s) (hd dX (fst (tas j))) ld (snd (tas j))) w N1).
      + rewrite (proj2 (prs_keys k)), (lsum_nth_seq _ cur slot0), Lc. apply lsum_seq_ext. intros j _. fold (tas j). cbn [map snd ksum].
        apply lsum_seq_ext. intros m _. f_equal. unfold g. cbn [fst snd hd]. apply ksum_ext. intros p. now rewrite <- app_assoc.
      + intros j Hj. unfold imh_init. cbn [fst]. now apply Hr.
    - intros w1 _.
      rewrite (expectation_ext keq mean _ _ (fun w => lsum (fun ta => phi (fst ta)) (kback w steps (move w1 k s cur)))).
      + rewrite (IH (move w1 k s cur)); auto.
        * fold g. unfold move. rewrite lsum_map. reflexivity.
        * unfold move. now rewrite map_length, seq_length.
        * intros j Hj. unfold move. rewrite map_seq_nth by exact Hj. cbv zeta. cbn [snd]. apply Ha. unfold slot_index. apply drive_range; auto.
          unfold imh_init. cbn [fst]. now apply Hr.
      + intros w2 Hw2. cbn [kback]. do 2 f_equal. unfold move. apply map_ext_in. intros j Hj. apply in_seq in Hj.
        assert (Ei : slot_index w2 k s (nth j cur slot0) j = slot_index w1 k s (nth j cur slot0) j); [|now rewrite Ei].
        assert (Hw : forall k', In k' (flat (prs k)) -> w2 k' = w1 k') by (intros; apply Hw2; now apply N3).
        unfold slot_index. f_equal. revert Hw. generalize (imh_init dX (pf_particles s) (hd dX (fst (nth j cur slot0))) ld (snd (nth j cur slot0))).
        generalize (prs k). clear. intros ps. induction ps as [|[kp ka] ps IH]; intros c Hw; [reflexivity|].
        cbn [drive fold_left fst snd]. rewrite (Hw kp) by now left. rewrite (Hw ka) by (right; now left). apply IH. intros k' Hk'. apply Hw. right. now right.
  Qed.

  (** the kernel is right for symmetric potentials *)
  Lemma symmetric_invariant : (forall a b, h a b = h b a) -> kernel_invariant dX h kern N.
  Proof using HN.
    intros Hsym lw xs y k V Lw Lx Hk.
    assert (Hv : backward_valid dX xs y lw ld).
    { split; [congruence|]. split; [apply V|]. split; [intros; right; eauto|].
      destruct V as (_ & V). apply Exists_exists in V. destruct V as (e & He & r & ->).
      apply In_nth_error in He. destruct He as (i & He). exists i, r, (h (nth i xs dX) y). auto. }
    pose proof (imh_invariant dX xs y lw ld Hv n k ltac:(lia)) as Q. rewrite Lw in Q.
    unfold backward_prob in Q. rewrite Lw in Q. cbn [uw] in Q.
    set (D := lsum (fun i => uw (nth i lw NInf) * exp (h (nth i xs dX) y)) (seq 0 N)) in *.
    assert (PD : 0 < D).
    { apply weighted_pos; [intros; apply uw_nonneg|intros; apply exp_pos|]. pose proof (valid_sum_pos _ V) as P. now rewrite (lsum_nth_seq _ _ NInf), Lw in P. }
    apply (Rmult_eq_reg_r (/ D)); [|apply Rinv_neq_0_compat; lra]. unfold Rdiv in Q. rewrite <- Q.
    rewrite Rmult_comm, <- lsum_scal. apply lsum_seq_ext. intros i _. unfold imh_init. rewrite (Hsym y). ring.
  Qed.

  (** ** the smoother run *)
  Variable blp : X -> X -> Inp -> ext.
  Hypothesis Hblp : forall a b x, blp a b x = Fin (h a b).
  Variable sres : U -> list ext -> list X -> nat -> result (list nat * list ext * list X).
  Variable dummy_like : Inp -> Inp.
  Notation bs w := (mcmc_sampler dX split (fun k => prop (w k)) (fun k => acc (w k)) n).
  Notation sm w := (ps_build_smoother split blp (bs w) (fun k : Key => sres (w k)) M dummy_like).

  Lemma gather_nth {A} (l : list A) idx (d : A) j : (j < length idx)%nat -> (nth j idx 0 < length l)%nat ->
    nth j (gather l idx d) d = nth (nth j idx 0%nat) l d.
  Proof using.
    clear. intros Hj Hi. unfold gather. rewrite (nth_indep _ d (nth (Nat.min 0 (length l - 1)) l d)) by (rewrite map_length; lia).
    rewrite (map_nth (fun i => nth (Nat.min i (length l - 1)) l d) idx 0%nat j). f_equal. lia.
  Qed.

  Lemma mcmc_trajectories w x1 trans' inputs skey fstates sstates k0 ks k1 rk fT idx lw ys :
    let trans := x1 :: trans' in
    let T := length trans in
    (inputs = trans \/ exists x, inputs = x :: trans) ->
    (forall t f, nth_error fstates t = Some f -> pinv f /\ anc_ok f) ->
    length fstates = S T -> nth_error fstates T = Some fT ->
    split skey (S T) = k0 :: ks -> split k0 2 = [k1; rk] ->
    sres (w rk) (pf_log_weights fT) (pf_particles fT) M = Ok (idx, lw, ys) -> length idx = M -> length ys = M ->
    (forall j, (j < M)%nat -> (nth j idx 0 < N)%nat) ->
    smoother split dummy_like pf_model_inputs (sm w) fstates (Some inputs) false (Some skey) = Ok (map Ok sstates) ->
    length sstates = S T /\
    map (column dX sstates) (seq 0 M) = map fst (kback w (rev (combine ks (removelast fstates)))
       (map (fun j => ([nth j ys dX], a_ fT (nth j idx 0%nat))) (seq 0 M))).
  Proof using Hsplit Hblp HN Hprop.
    intros trans T Hin Hf L EfT Ek Erk Er Li Ly Hidx H.
    destruct (smoother_sequential split Hsplit dummy_like pf_model_inputs (sm w) fstates trans x1 inputs (Some skey)
                ltac:(discriminate) L eq_refl Hin) as (st & E & (_ & L2 & R0 & RS)).
    rewrite E in H. injection H as ->. rewrite map_length in L2. fold T in R0, RS, L2. split; [exact L2|].
    assert (Lks : length ks = T). { pose proof (Hsplit skey (S T)) as A. rewrite Ek in A. simpl in A. lia. }
    set (cur0 := map (fun j => ([nth j ys dX], a_ fT (nth j idx 0%nat))) (seq 0 M)).
    set (agree := fun (s : PSState Key X Inp) (cur : list (list X * nat)) => length (ps_particles s) = M /\ length (ps_ancestor_indices s) = M /\ length cur = M /\
       forall j, (j < M)%nat -> nth j (ps_particles s) dX = hd dX (fst (nth j cur slot0)) /\
         nth j (ps_ancestor_indices s) 0%nat = snd (nth j cur slot0) /\ (snd (nth j cur slot0) < N)%nat).
    assert (Hmapn : forall (f : nat -> list X * nat) j, (j < M)%nat -> nth j (map f (seq 0 M)) slot0 = f j).
    { intros f j Hj. rewrite (nth_indep _ slot0 (f 0%nat)) by (rewrite map_length, seq_length; lia). rewrite (map_nth f), seq_nth by lia. reflexivity. }
    assert (Hlast : exists s, nth_error sstates T = Some s /\ agree s cur0).
    { specialize (R0 fT EfT). unfold child_key in R0. rewrite Ek in R0. cbn [nth_error] in R0.
      rewrite nth_error_map in R0. destruct (nth_error sstates T) as [s|]; [|discriminate]. exists s. split; [reflexivity|].
      cbn [option_map convert_filter_to_smoother_state ps_build_smoother ps_convert] in R0. rewrite Erk in R0.
      rewrite Er in R0. cbn [bind] in R0. injection R0 as ->.
      destruct (Hf _ _ EfT) as (_ & La & Ha).
      split; [exact Ly|]. split; [cbn [ps_ancestor_indices]; unfold gather; now rewrite map_length|].
      split; [unfold cur0; now rewrite map_length, seq_length|]. intros j Hj. unfold cur0. rewrite Hmapn by lia. cbn [ps_particles ps_ancestor_indices fst snd hd].
      split; [reflexivity|]. split; [|apply Ha, Hidx; lia]. apply gather_nth; [lia|]. rewrite La. now apply Hidx. }
    assert (Hstep : forall t f k s' cur, nth_error fstates t = Some f -> nth_error ks t = Some k -> nth_error sstates (S t) = Some s' ->
       agree s' cur ->
       exists s, nth_error sstates t = Some s /\ agree s (move w k f cur)).
    { intros t f k s' cur Hft Hk Hs' (A1 & A2 & A3 & A4). assert (Ht : (t < T)%nat) by (rewrite <- Lks; apply nth_error_Some; congruence).
      destruct (nth_error trans t) as [x|] eqn:Ex; [|apply nth_error_None in Ex; fold T in Ex; lia].
      specialize (RS t f x (Ok s') Hft ltac:(first [exact Ex|exact eq_refl])). rewrite !nth_error_map, Hs' in RS. specialize (RS eq_refl).
      unfold child_key in RS. rewrite Ek in RS. cbn [nth_error] in RS. rewrite Hk in RS.
      destruct (nth_error sstates t) as [s|]; [|discriminate]. exists s. split; [reflexivity|].
      cbn [option_map smoother_prepare smoother_combine ps_build_smoother ps_prepare bind] in RS. unfold ps_combine in RS.
      unfold mcmc_sampler at 1 in RS. cbn [ps_key ps_particles ps_log_weights ps_ancestor_indices ps_model_inputs] in RS.
      assert (Ep : exists k' k2, split k 2 = [k'; k2] /\ prs k = pairs (split k' (n * 2)%nat)).
      { unfold prs. pose proof (Hsplit k 2%nat) as Q. destruct (split k 2) as [|k' [|k2 [|? ?]]]; try discriminate. eauto. }
      destruct Ep as (k' & k2 & E2 & Ep). rewrite E2 in RS. unfold mcmc_simulate, tracing_simulate in RS. cbn [bind] in RS. rewrite <- Ep, A2 in RS.
      destruct (Hf _ _ Hft) as (((W1 & W2) & V & _) & La & Ha).
      assert (Er' : forall j, (j < M)%nat ->
        imh_run dX (pf_particles f) (nth j (ps_particles s') dX) (fun s1 s2 => blp s1 s2 (ps_model_inputs s')) (nth j (ps_ancestor_indices s') 0%nat)
          (map (fun pu : list nat * list R => (nth j (fst pu) 0%nat, nth j (snd pu) 0))
             (map (fun k => (prop (w (fst k)) (pf_log_weights f) M, acc (w (snd k)) M)) (prs k)))
        = let m := slot_index w k f (nth j cur slot0) j in (x_ f m, m)).
      { intros j Hj. destruct (A4 j Hj) as (B1 & B2 & B3). rewrite B1, B2.
        replace (fun s1 s2 => blp s1 s2 (ps_model_inputs s')) with (fun a b => Fin (h a b)).
        2:{ apply functional_extensionality. intros a. apply functional_extensionality. intros b. now rewrite Hblp. }
        unfold imh_run. rewrite map_map, fold_left_map. reflexivity. }
      injection RS as ->. unfold agree. cbn [ps_particles ps_ancestor_indices].
      rewrite !map_length, seq_length. split; [reflexivity|]. unfold gather at 1. rewrite !map_length, seq_length. split; [reflexivity|].
      unfold move at 1. rewrite map_length, seq_length. split; [reflexivity|]. intros j Hj.
      unfold move. rewrite Hmapn by exact Hj. cbv zeta. cbn [fst snd hd].
      assert (Hm' : (slot_index w k f (nth j cur slot0) j < N)%nat).
      { unfold slot_index. apply drive_range; auto. unfold imh_init. cbn [fst]. now apply A4. }
      assert (Hnthm : forall B (p : X * nat -> B) d F, (F j = (x_ f (slot_index w k f (nth j cur slot0) j), slot_index w k f (nth j cur slot0) j)) ->
         nth j (map p (map F (seq 0 M))) d = p (x_ f (slot_index w k f (nth j cur slot0) j), slot_index w k f (nth j cur slot0) j)).
      { intros B p d F HF. rewrite map_map. rewrite (nth_indep _ d (p (F 0%nat))) by (rewrite map_length, seq_length; lia).
        rewrite (map_nth (fun x => p (F x))), seq_nth by lia. cbn [Nat.add]. now rewrite HF. }
      split; [|split; [|apply Ha, Hm']].
      - rewrite Hnthm; [reflexivity|]. exact (Er' j Hj).
      - rewrite gather_nth; [rewrite Hnthm; [reflexivity|exact (Er' j Hj)]|rewrite !map_length, seq_length; exact Hj|].
        rewrite Hnthm; [rewrite La; exact Hm'|exact (Er' j Hj)]. }
    assert (A : forall m t, (t + m = T)%nat ->
       (exists s, nth_error sstates t = Some s /\ agree s (kback w (rev (skipn t (combine ks (removelast fstates)))) cur0)) /\
       map (fun j => column dX (skipn t sstates) j) (seq 0 M) = map fst (kback w (rev (skipn t (combine ks (removelast fstates)))) cur0)).
    { induction m as [|m IH]; intros t Ht.
      - assert (t = T) by lia. subst t. destruct Hlast as (s & Es & Ag).
        assert (E1 : skipn T sstates = [s]).
        { apply list_nth_error_ext. intros i. rewrite nth_error_skipn. destruct i as [|i]; [now rewrite Nat.add_0_r|].
          transitivity (@None (PSState Key X Inp)); [apply nth_error_None; lia|symmetry; apply nth_error_None; simpl; lia]. }
        rewrite E1. rewrite skipn_all2 by (rewrite combine_length; lia). cbn [rev kback]. split; [eauto|]. unfold column. cbn [map].
        unfold cur0. rewrite map_map. apply map_ext_in. intros j Hj. apply in_seq in Hj. cbn [fst].
        destruct Ag as (_ & _ & _ & Ag). destruct (Ag j ltac:(lia)) as (-> & _). unfold cur0. rewrite Hmapn by lia. reflexivity.
      - destruct (nth_error sstates (S t)) as [s'|] eqn:Es'; [|apply nth_error_None in Es'; lia].
        destruct (nth_error fstates t) as [f|] eqn:Ef; [|apply nth_error_None in Ef; lia].
        destruct (nth_error ks t) as [k|] eqn:Ekt; [|apply nth_error_None in Ekt; lia].
        destruct (IH (S t) ltac:(lia)) as ((s'' & Es'' & Ag) & Hcol). rewrite Es' in Es''. injection Es'' as <-.
        destruct (Hstep t f k s' _ Ef Ekt Es' Ag) as (s & Es & Ag').
        assert (Ec : skipn t (combine ks (removelast fstates)) = (k, f) :: skipn (S t) (combine ks (removelast fstates))).
        { apply list_nth_error_ext. intros i. rewrite nth_error_skipn. destruct i as [|i].
          - rewrite Nat.add_0_r. cbn [nth_error]. apply nth_error_combine; [exact Ekt|]. rewrite <- Ef.
            rewrite removelast_firstn_len. apply nth_error_firstn_lt. lia.
          - cbn [nth_error]. rewrite nth_error_skipn. f_equal. lia. }
        assert (Es2 : skipn t sstates = s :: skipn (S t) sstates).
        { apply list_nth_error_ext. intros i. rewrite nth_error_skipn. destruct i as [|i].
          - rewrite Nat.add_0_r. exact Es.
          - cbn [nth_error]. rewrite nth_error_skipn. f_equal. lia. }
        rewrite Ec. cbn [rev]. rewrite kback_app. cbn [kback]. split; [eauto|]. rewrite Es2.
        destruct Ag' as (_ & _ & _ & Ag'). unfold move at 1. rewrite map_map. apply map_ext_in. intros j Hj. apply in_seq in Hj. cbv zeta. cbn [fst].
        unfold column. cbn [map]. fold (column dX (skipn (S t) sstates) j). f_equal.
        + destruct (Ag' j ltac:(lia)) as (-> & _). unfold move. rewrite Hmapn by lia. reflexivity.
        + apply (f_equal (fun l => nth j l [])) in Hcol. rewrite (nth_indep _ [] (column dX (skipn (S t) sstates) 0)) in Hcol by (rewrite map_length, seq_length; lia).
          rewrite (map_nth (fun j => column dX (skipn (S t) sstates) j)), seq_nth in Hcol by lia. cbn [Nat.add] in Hcol. rewrite Hcol.
          change ([] : list X) with (fst slot0). now rewrite map_nth. }
    exact (proj2 (A T 0%nat eq_refl)).
  Qed.
End Slots.

Section McmcUnbiased.
  Context {Key U X Inp : Type}.
  Variable keq : forall a b : Key, {a = b} + {a <> b}.
  Variable mean : (U -> R) -> R.
  Variable good : (U -> R) -> Prop.
  Hypothesis Hm : expectation_ok mean good.
  Variable dX : X.
  Variable split : Key -> nat -> list Key.
  Hypothesis Hsplit : split_ok split.
  Variable initial : U -> Inp -> X.
  Variable propagate : U -> X -> Inp -> X.
  Variable log_potential : X -> X -> Inp -> ext.
  Hypothesis Hfin : forall a b x, exists r, log_potential a b x = Fin r.
  Variable h : X -> X -> R.
  Variable blp : X -> X -> Inp -> ext.
  Hypothesis Hblp : forall a b x, blp a b x = Fin (h a b).
  Variable prop : U -> list ext -> nat -> list nat.
  Variable acc : U -> nat -> list R.
  Variable res sres : U -> list ext -> list X -> nat -> result (list nat * list ext * list X).
  Hypothesis Hres : resampler_ok dX res.
  Hypothesis Htot : resampler_total res.
  Hypothesis Hsres : resampler_ok dX sres.
  Variable N M n : nat.
  Hypothesis Hstot : forall u l xs, valid_logits l -> length l = N -> length xs = N -> exists out, sres u l xs M = Ok out.
  Hypothesis Hunb : resampler_unbiased mean good N res.
  Hypothesis Hsunb : resampler_unbiased_to mean good N M sres.
  Hypothesis Hprop : proposal_law mean good N M prop.
  Hypothesis Hacc : uniform_law mean good M acc.
  Hypothesis HN : (0 < N)%nat.
  Hypothesis HM : (0 < M)%nat.
  Variable dummy : X.
  Variable dummy_like : Inp -> Inp.
  Variable phi : list X -> R.
  Notation ld := (fun a b : X => Fin (h a b)).
  Notation kern := (fun lw xs y i k => chain_law (imh_step dX xs y ld) lw n (imh_init dX xs y ld i) k).
  Notation pf w := (seeded_pf split initial propagate log_potential res N dummy w).
  Notation sm w := (ps_build_smoother split blp (mcmc_sampler dX split (fun k => prop (w k)) (fun k => acc (w k)) n) (fun k : Key => sres (w k)) M dummy_like).
  Notation St := (PFState Key X Inp).
  Notation pinv := (pf_inv (Key := Key) (X := X) (Inp := Inp) N).
  Notation x_ s i := (nth i (pf_particles s) dX).
  Notation a_ s i := (nth i (pf_ancestor_indices s) 0%nat).

  (** given the filter's run: the expectation over the smoother's keys, whatever the potential *)
  Theorem mcmc_conditional x0 x1 trans' inputs fkey skey kT k1 rk (estA : (Key -> U) -> R) w0 :
    let trans := x1 :: trans' in
    let T := length trans in
    (inputs = trans \/ exists x, inputs = x :: trans) ->
    nth_error (split skey (S T)) 0 = Some kT -> split kT 2 = [k1; rk] ->
    NoDup (consumed split fkey N T ++ rk :: mcmc_keys split skey n T) ->
    (forall w, exists hist s z,
         filter split (pf w) (x0 :: trans) false (Some fkey) = Ok (map Ok (rev (s :: hist))) /\
         length hist = T /\ pinv s /\ List.Forall pinv hist /\ pf_log_normalizing_constant s = Fin z /\
         estA w = exp z * lsum (fun i => wt (pf_log_weights s) i * ksum dX kern N hist (x_ s i) (a_ s i) (fun past => phi (past ++ [x_ s i]))) (seq 0 N)) ->
    exists est : (Key -> U) -> R,
      (forall w, exists fstates s sstates,
         filter split (pf w) (x0 :: trans) false (Some fkey) = Ok (map Ok fstates) /\
         nth_error fstates T = Some s /\
         smoother split dummy_like pf_model_inputs (sm w) fstates (Some inputs) false (Some skey) = Ok (map Ok sstates) /\
         length sstates = S T /\
         exists z, pf_log_normalizing_constant s = Fin z /\
            est w = exp z * (lsum (fun k => phi (map (fun s => nth k (ps_particles s) dX) sstates)) (seq 0 M) / INR M)) /\
      expectation keq mean (consumed split fkey N T ++ rk :: mcmc_keys split skey n T) est w0
      = expectation keq mean (consumed split fkey N T) estA w0.
  Proof using Hm Hsplit Hblp Hprop Hacc Hres Hsres Hstot Hsunb HN HM.
    intros trans T Hin EkT Erk Hnd HA.
    pose proof (Hsplit skey (S T)) as L0. destruct (split skey (S T)) as [|k0 ks] eqn:Ek; [discriminate|]. simpl in L0. injection L0 as Lks.
    cbn [nth_error] in EkT. injection EkT as ->.
    destruct (NoDup_app_inv _ _ Hnd) as (Hcnd & Hnd2 & Hdis). inversion_clear Hnd2 as [|? ? Hrkb Hbnd].
    assert (Hfresh : ~ In rk (consumed split fkey N T)) by (intros H; apply (Hdis _ H); now left).
    assert (Hbf : forall c, In c (mcmc_keys split skey n T) -> ~ In c (consumed split fkey N T)) by (intros c H H'; apply (Hdis _ H'); now right).
    set (run := fun w => oks (filter split (pf w) (x0 :: trans) false (Some fkey))).
    set (srun := fun w => oks (smoother split dummy_like pf_model_inputs (sm w) (run w) (Some inputs) false (Some skey))).
    set (est := fun w => match nth_error (run w) T with
                         | Some s => uw (pf_log_normalizing_constant s) * (lsum phi (map (column dX (srun w)) (seq 0 M)) / INR M)
                         | None => 0 end).
    assert (HA' : forall w, exists hist s z,
         filter split (pf w) (x0 :: trans) false (Some fkey) = Ok (map Ok (run w)) /\
         run w = rev (s :: hist) /\ nth_error (run w) T = Some s /\ removelast (run w) = rev hist /\
         length hist = T /\ pinv s /\ List.Forall pinv hist /\ pf_log_normalizing_constant s = Fin z /\
         (forall t f, nth_error (run w) t = Some f -> pinv f /\ anc_ok N f) /\
         estA w = exp z * lsum (fun i => wt (pf_log_weights s) i * ksum dX kern N hist (x_ s i) (a_ s i) (fun past => phi (past ++ [x_ s i]))) (seq 0 N)).
    { intros w. destruct (HA w) as (hist & s & z & R & L & I & F & Z & E). exists hist, s, z. unfold run. rewrite R, oks_Ok.
      split; [reflexivity|]. split; [reflexivity|]. cbn [rev]. split.
      { rewrite nth_error_app2; rewrite rev_length, L; [now rewrite Nat.sub_diag|lia]. }
      split; [now rewrite removelast_last|]. repeat (split; [assumption|]). split; [|exact E].
      assert (Hi : forall t f, nth_error (rev (s :: hist)) t = Some f -> pinv f).
      { intros t f Et. apply nth_error_In, in_rev in Et. destruct Et as [<-|Et]; [exact I|]. rewrite Forall_forall in F. now apply F. }
      intros t f Et. split; [exact (Hi t f Et)|].
      destruct (pf_genealogy dX split Hsplit (fun k => initial (w k)) (fun k => propagate (w k)) log_potential (fun k => res (w k))
        ltac:(intros k; apply Hres) N HN dummy _ _ _ R) as (G & _).
      { intros t' f' Et'. apply (Hi t' f' Et'). }
      destruct (G t f Et) as (_ & _ & G1 & G2). split; auto. }
    (* the smoother's run *)
    assert (HS : forall w, exists s sstates idx lw ys,
         nth_error (run w) T = Some s /\
         smoother split dummy_like pf_model_inputs (sm w) (run w) (Some inputs) false (Some skey) = Ok (map Ok sstates) /\
         srun w = sstates /\ length sstates = S T /\
         sres (w rk) (pf_log_weights s) (pf_particles s) M = Ok (idx, lw, ys) /\
         length ys = M /\
         map (column dX sstates) (seq 0 M) = map fst (kback dX split h prop acc M n w (rev (combine ks (removelast (run w))))
            (map (fun j => ([nth j ys dX], a_ s (nth j idx 0%nat))) (seq 0 M)))).
    { intros w. destruct (HA' w) as (hist & s & z & R & Er & Es & Erl & L & I & F & Z & Ha & E).
      destruct I as ((W1 & W2) & V & I').
      assert (Lr : length (run w) = S T) by (rewrite Er, rev_length; cbn [length]; lia).
      destruct (smoother_run_exists_at dX split Hsplit blp (mcmc_sampler dX split (fun k => prop (w k)) (fun k => acc (w k)) n) (fun k => sres (w k)) M dummy_like (run w)
                  x1 trans' inputs skey) as (sstates & Hs & Ls); auto.
      { intros k ? ? ? ? ?. unfold mcmc_sampler. pose proof (Hsplit k 2%nat) as Q. destruct (split k 2) as [|? [|? [|? ?]]]; try discriminate.
        unfold mcmc_simulate, tracing_simulate. cbn [bind]. eauto. }
      { intros k f Ef. fold trans in Ef. fold T in Ef. rewrite Es in Ef. injection Ef as <-. apply Hstot; [exact V|lia|lia]. }
      destruct (Hstot (w rk) _ (pf_particles s) V ltac:(lia) ltac:(lia)) as ([[idx lw] ys] & Hr).
      destruct (Hsres _ _ (pf_particles s) _ _ _ _ V ltac:(lia) HM Hr) as (Li & _ & Ly & _ & Hy).
      destruct (mcmc_trajectories mean good dX split Hsplit h prop acc N M n HN Hprop blp Hblp sres dummy_like w x1 trans' inputs skey (run w) sstates kT ks k1 rk s idx lw ys
         Hin Ha Lr Es Ek Erk Hr Li Ly) as (L2 & Q).
      { intros j Hj. rewrite <- W2. apply (Hy j Hj). }
      { exact Hs. }
      exists s, sstates, idx, lw, ys. repeat (split; [first [assumption|unfold srun; rewrite Hs; apply oks_Ok]|]). exact Q. }
    assert (Hloc : forall w w', (forall k, In k (consumed split fkey N T) -> w k = w' k) -> run w = run w').
    { intros w w' Hw. destruct (HA' w) as (hist & s & z & R & Er & _ & _ & _ & I & F & _). destruct (HA' w') as (hist' & s' & z' & R' & _).
      apply (run_local split Hsplit initial propagate log_potential res N dummy w w' x0 trans fkey); auto.
      intros t st Et. rewrite Er in Et. apply nth_error_In, in_rev in Et. destruct Et as [<-|Et]; [apply I|].
      rewrite Forall_forall in F. apply (F _ Et). }
    exists est. split.
    - intros w. destruct (HA' w) as (hist & s & z & R & Er & Es & Erl & L & I & F & Z & Ha & E).
      destruct (HS w) as (s' & sstates & idx & lw & ys & Es' & Hs & Esr & Ls & _). exists (run w), s, sstates.
      repeat (split; [assumption|]). exists z. split; [exact Z|]. unfold est. rewrite Es, Z, Esr. cbn [uw]. do 2 f_equal. now rewrite lsum_map.
    - change (rk :: mcmc_keys split skey n T) with ([rk] ++ mcmc_keys split skey n T).
      rewrite expectation_app. apply expectation_ext. intros w _. cbn [expectation app].
      destruct (HA' w) as (hist & s & z & R & Er & Es & Erl & L & I & F & Z & Ha & EE).
      set (steps := rev (combine ks (rev hist))).
      assert (Lr : length (rev hist) = length ks) by (rewrite rev_length; lia).
      assert (Eks : mcmc_keys split skey n T = flat_map (fun kf : Key * St => flat (prs split n (fst kf))) steps).
      { unfold mcmc_keys. rewrite Ek. cbn [tl]. unfold steps.
        assert (Ef : map fst (combine ks (rev hist)) = ks).
        { revert Lr. generalize (rev hist) as m. clear. induction ks as [|k ks IH]; intros [|a m] Lr; try discriminate; [reflexivity|].
          cbn [combine map fst]. f_equal. apply IH. simpl in Lr. lia. }
        rewrite <- Ef at 1. rewrite <- map_rev. clear - Hsplit. induction (rev (combine ks (rev hist))) as [|a l IH]; [reflexivity|]. cbn [map flat_map].
        now rewrite IH, (proj1 (prs_keys split Hsplit n (fst a))). }
      assert (Ehist : map snd steps = hist).
      { unfold steps. rewrite map_rev. rewrite <- (rev_involutive hist) at 2. f_equal.
        revert Lr. generalize (rev hist) as m. clear. induction ks as [|k ks IH]; intros [|a m] Lr; try discriminate; [reflexivity|].
        cbn [combine map snd]. f_equal. apply IH. simpl in Lr. lia. }
      assert (Hst : List.Forall (fun ks => pinv (snd ks) /\ anc_ok N (snd ks)) steps).
      { apply Forall_forall. intros a Hin'. assert (Hi : In (snd a) (run w)).
        { rewrite Er. apply -> in_rev. right. rewrite <- Ehist. now apply in_map. }
        apply In_nth_error in Hi. destruct Hi as (t & Hi). exact (Ha t _ Hi). }
      destruct I as ((W1 & W2) & V & I').
      set (v := fun i => ksum dX kern N hist (x_ s i) (a_ s i) (fun past => phi (past ++ [x_ s i]))).
      set (D := fun u => match sres u (pf_log_weights s) (pf_particles s) M with
                         | Ok (idx, _, _) => lsum (fun j => v (nth j idx 0%nat)) (seq 0 M) / INR M
                         | Err _ => 0 end).
      assert (A : (fun u => expectation keq mean (mcmc_keys split skey n T) est (assign keq w rk u)) = (fun u => exp z * D u + 0 * 0)).
      { apply functional_extensionality. intros u.
        destruct (Hstot u _ (pf_particles s) V ltac:(lia) ltac:(lia)) as ([[idx lw] ys] & Hr).
        destruct (Hsres _ _ (pf_particles s) _ _ _ _ V ltac:(lia) HM Hr) as (Li & _ & Ly & _ & Hy).
        set (cur0 := map (fun j => ([nth j ys dX], a_ s (nth j idx 0%nat))) (seq 0 M)).
        rewrite (expectation_ext keq mean _ _ (fun w' => lsum (fun ta => exp z / INR M * phi (fst ta)) (kback dX split h prop acc M n w' steps cur0))).
        - rewrite Eks in Hbnd |- *.
          rewrite (kback_expectation keq mean good Hm dX split Hsplit h prop acc N M n HN Hprop Hacc (fun tr => exp z / INR M * phi tr)); auto.
          + rewrite Ehist. unfold cur0. rewrite lsum_map. unfold D. rewrite Hr. rewrite Rmult_0_l, Rplus_0_r. unfold Rdiv at 2.
            rewrite (Rmult_comm (lsum _ _) (/ INR M)), <- Rmult_assoc, <- lsum_scal. apply lsum_seq_ext. intros j Hj. cbn [fst snd hd].
            rewrite (ksum_scal dX kern N hist (exp z / INR M)). unfold v. rewrite (proj2 (Hy j Hj)). reflexivity.
          + unfold cur0. now rewrite map_length, seq_length.
          + intros j Hj. unfold cur0. rewrite map_seq_nth by exact Hj. cbn [snd]. apply (Ha T s Es). rewrite <- W2. apply (Hy j Hj).
        - intros w' Hw'. assert (El : run w' = run w).
          { apply Hloc. intros k Hk. rewrite Hw' by (intros H; exact (Hbf _ H Hk)). apply assign_other. intros ->. contradiction. }
          destruct (HS w') as (s' & sstates & idx' & lw' & ys' & Es' & Hs & Esr & Ls & Hr' & Ly' & Q).
          rewrite El, Es in Es'. injection Es' as <-. rewrite Hw' in Hr' by exact Hrkb. rewrite assign_same, Hr in Hr'. injection Hr' as <- <- <-.
          unfold est. rewrite El, Es, Z, Esr, Q, El, Erl. cbn [uw]. fold steps. fold cur0. rewrite lsum_map, lsum_scal. unfold Rdiv. ring. }
      rewrite A. destruct Hm as (Hc & Hl).
      destruct (Hsunb (pf_log_weights s) (pf_particles s) v V ltac:(lia) ltac:(lia)) as (G & Q). cbv zeta in G, Q.
      destruct (Hl D (fun _ => 0) (exp z) 0 G (proj1 (Hc 0))) as (_ & Q'). cbv beta in Q'.
      rewrite Q', (proj2 (Hc 0)), EE. unfold D. rewrite Q. rewrite Rmult_0_l, Rplus_0_r. reflexivity.
  Qed.

  Theorem mcmc_unbiased (Hsym : forall a b, h a b = h b a) x0 x1 trans' inputs fkey skey kT k1 rk w0 :
    let trans := x1 :: trans' in
    let T := length trans in
    (inputs = trans \/ exists x, inputs = x :: trans) ->
    nth_error (split skey (S T)) 0 = Some kT -> split kT 2 = [k1; rk] ->
    NoDup (consumed split fkey N T ++ rk :: mcmc_keys split skey n T) ->
    (forall x, In x trans -> backward_potential mean good propagate log_potential h x) ->
    path_good mean good initial propagate log_potential x0 trans phi ->
    kernel_good mean good dX propagate log_potential h kern N trans phi ->
    exists est : (Key -> U) -> R,
      (forall w, exists fstates s sstates,
         filter split (pf w) (x0 :: trans) false (Some fkey) = Ok (map Ok fstates) /\
         nth_error fstates T = Some s /\
         smoother split dummy_like pf_model_inputs (sm w) fstates (Some inputs) false (Some skey) = Ok (map Ok sstates) /\
         length sstates = S T /\
         exists z, pf_log_normalizing_constant s = Fin z /\
            est w = exp z * (lsum (fun k => phi (map (fun s => nth k (ps_particles s) dX) sstates)) (seq 0 M) / INR M)) /\
      expectation keq mean (consumed split fkey N T ++ rk :: mcmc_keys split skey n T) est w0
      = path_integral mean initial propagate log_potential x0 trans phi.
  Proof using Hm Hsplit Hfin Hblp Hprop Hacc Hres Htot Hsres Hstot Hunb Hsunb HN HM.
    intros trans T Hin EkT Erk Hnd Hb Hg Hbg.
    destruct (kernel_history_unbiased keq mean good Hm dX split Hsplit initial propagate log_potential Hfin h kern res Hres Htot N Hunb HN
       (symmetric_invariant dX h N n HN Hsym) dummy phi x0 trans fkey w0 (proj1 (NoDup_app_inv _ _ Hnd)) Hb Hg Hbg) as (estA & HA & EA).
    destruct (mcmc_conditional x0 x1 trans' inputs fkey skey kT k1 rk estA w0 Hin EkT Erk Hnd HA) as (est & H1 & H2).
    exists est. split; [exact H1|]. etransitivity; [exact H2|exact EA].
  Qed.
End McmcUnbiased.

(** ** the keys are distinct *)
Section McmcKeys.
  Context {Key : Type}.
  Variable split : Key -> nat -> list Key.
  Hypothesis Hinj : split_injective split.
  Variable depth : Key -> nat.
  Hypothesis Hdepth : key_depth split depth.

  Lemma mcmc_keys_parent skey n T c : In c (mcmc_keys split skey n T) ->
    exists k k', In k (split skey (S T)) /\ In k' (split k 2) /\ In c (split k' (n * 2)%nat).
  Proof using.
    clear. intros H. apply in_flat_map in H. destruct H as (k & Hk & H). apply in_rev in Hk. apply in_flat_map in H. destruct H as (k' & Hk' & H).
    exists k, k'. split; [|split; [|exact H]].
    - destruct (split skey (S T)); [contradiction|now right].
    - destruct (split k 2); [contradiction|]. destruct Hk' as [<-|[]]. now left.
  Qed.
  Lemma mcmc_keys_NoDup skey n T : NoDup (mcmc_keys split skey n T).
  Proof using Hinj.
    clear Hdepth depth. unfold mcmc_keys.
    assert (E : forall l, flat_map (fun k => flat_map (fun k' => split k' (n * 2)%nat) (firstn 1 (split k 2))) l
      = flat_map (fun k' => split k' (n * 2)%nat) (flat_map (fun k => firstn 1 (split k 2)) l)).
    { induction l as [|a l IH]; [reflexivity|]. cbn [flat_map]. now rewrite flat_map_app, IH. }
    rewrite E. apply flat_map_NoDup; [exact Hinj|].
    assert (Hnd : NoDup (rev (tl (split skey (S T))))).
    { apply NoDup_rev. pose proof (split_NoDup split Hinj skey (S T)) as H. destruct (split skey (S T)); [constructor|]. now inversion_clear H. }
    induction (rev (tl (split skey (S T)))) as [|a l IH]; [constructor|]. cbn [flat_map]. inversion_clear Hnd. apply NoDup_app'; auto.
    - apply firstn_NoDup, split_NoDup, Hinj.
    - intros c Hc Hc'. apply in_flat_map in Hc'. destruct Hc' as (b & Hb & Hc').
      assert (F : forall k, In c (firstn 1 (split k 2)) -> exists i, nth_error (split k 2) i = Some c).
      { intros k Hk. apply In_nth_error. rewrite <- (firstn_skipn 1 (split k 2)). apply in_or_app. now left. }
      destruct (F _ Hc) as (i & Hi). destruct (F _ Hc') as (i' & Hi'). destruct (Hinj _ _ _ _ _ _ _ Hi Hi') as (-> & _). contradiction.
  Qed.
  Lemma mcmc_all_keys_NoDup fkey skey N n T kT k1 rk : fkey <> skey -> depth fkey = depth skey ->
    nth_error (split skey (S T)) 0 = Some kT -> split kT 2 = [k1; rk] ->
    NoDup (consumed split fkey N T ++ rk :: mcmc_keys split skey n T).
  Proof using Hinj Hdepth.
    intros Hne Hd EkT Erk.
    assert (D1 : depth rk = S (S (depth skey))).
    { rewrite (Hdepth kT 2%nat rk) by (rewrite Erk; right; now left). f_equal. apply (Hdepth skey (S T)). eapply nth_error_In; eauto. }
    assert (D2 : forall c, In c (mcmc_keys split skey n T) -> depth c = S (S (S (depth skey)))).
    { intros c Hc. destruct (mcmc_keys_parent _ _ _ _ Hc) as (k & k' & H1 & H2 & H3).
      rewrite (Hdepth _ _ _ H3), (Hdepth _ _ _ H2), (Hdepth _ _ _ H1). reflexivity. }
    assert (D3 : forall c, In c (consumed split fkey N T) -> depth c = S (S (depth skey))).
    { intros c Hc.
      assert (A : forall m j, In c (flat_map (fun k => split k m) (firstn j (split fkey (S T)))) -> depth c = S (S (depth skey))).
      { intros m j H. apply in_flat_map in H. destruct H as (k & Hk & H). rewrite (Hdepth _ _ _ H). f_equal. rewrite <- Hd. apply (Hdepth fkey (S T)).
        rewrite <- (firstn_skipn j (split fkey (S T))). apply in_or_app. now left. }
      unfold consumed in Hc. apply in_app_or in Hc. destruct Hc as [Hc|Hc]; eapply A; eauto. }
    pose proof (rk_fresh split Hinj N _ _ _ _ _ _ Hne EkT Erk) as Hfresh.
    apply NoDup_app'; [now apply consumed_NoDup|constructor; [|apply mcmc_keys_NoDup]|].
    - intros H. rewrite (D2 _ H) in D1. lia.
    - intros c Hc [<-|Hc']; [contradiction|]. pose proof (D2 _ Hc'). pose proof (D3 _ Hc). lia.
  Qed.
End McmcKeys.
