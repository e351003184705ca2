From Coq Require Import Reals List Arith ZArith Bool Lia Lra Permutation FunctionalExtensionality.
From Verif Require Import Ext ScanModel ScanProofs DriverSpec DriverProofs DiscreteSpec Sums
  ResamplingModel ResamplingSpec ResamplingProofs ConditionalProofs KillingProofs SystematicProofs
  ConditionalLaw SmcModel SmcSpec SmcProofs.
Import ListNotations.
Open Scope R_scope.

(** ** Runs of smoothers whose states may be errors *)
Section Runs.
  Context {Inp Key FSt SSt : Type}.
  Variable split : Key -> nat -> list Key.
  Hypothesis Hsplit : split_ok split.
  Variable dummy_like : Inp -> Inp.
  Variable inputs_of : FSt -> Inp.
  Variable conv prep : FSt -> Inp -> option Key -> result SSt.
  Variable comb : SSt -> SSt -> result SSt.
  Let obj : Smoother Inp Key FSt (result SSt) :=
    {| convert_filter_to_smoother_state := conv; smoother_prepare := prep;
       smoother_combine := fun r1 r2 => bind r1 (fun s1 => bind r2 (fun s2 => comb s1 s2)) |}.
  Lemma smoother_run_steps x0 trans' inputs key fstates states :
    let trans := x0 :: trans' in
    let T := length trans in
    (inputs = trans \/ exists x, inputs = x :: trans) ->
    length fstates = S T ->
    smoother split dummy_like inputs_of obj fstates (Some inputs) false (Some key) = Ok (map Ok states) ->
    length states = S T /\
    (forall f, nth_error fstates T = Some f ->
       exists k s, nth_error (split key (S T)) 0 = Some k /\ conv f (dummy_like x0) (Some k) = Ok s /\ nth_error states T = Some s) /\
    (forall t f x s, nth_error fstates t = Some f -> nth_error trans t = Some x ->
       nth_error states (S t) = Some s ->
       exists k p s', prep f x (Some k) = Ok p /\ comb p s = Ok s' /\ nth_error states t = Some s').
  Proof using Hsplit.
    intros trans T Hin L H.
    destruct (smoother_sequential split Hsplit dummy_like inputs_of obj fstates trans x0 inputs (Some key)
                ltac:(discriminate) L eq_refl Hin) as (st & E & (_ & L2 & R0 & RS)).
    rewrite E in H. injection H as ->. rewrite map_length in L2. fold T in R0, RS, L2. split; [exact L2|].
    assert (Hk : forall t, (t <= T)%nat -> exists k, nth_error (split key (S T)) t = Some k).
    { intros t Ht. destruct (nth_error (split key (S T)) t) eqn:En; [eauto|].
      apply nth_error_None in En. rewrite Hsplit in En. lia. }
    split.
    - intros f Hf. specialize (R0 f Hf). destruct (Hk 0%nat ltac:(lia)) as (k & Hk0).
      rewrite nth_error_map in R0. unfold child_key in R0. rewrite Hk0 in R0.
      destruct (nth_error states T) as [s|] eqn:Es; [|discriminate]. simpl in R0.
      injection R0 as R0. exists k, s. auto.
    - intros t f x s Hf Hx Hs. specialize (RS t f x (Ok s) Hf Hx).
      rewrite !nth_error_map, Hs in RS. specialize (RS eq_refl).
      assert (Ht : (t < T)%nat) by (apply nth_error_Some; congruence).
      destruct (Hk (S t) ltac:(lia)) as (k & Hkt).
      unfold child_key in RS. rewrite Hkt in RS.
      destruct (nth_error states t) as [s'|] eqn:Es; [|discriminate]. simpl in RS.
      injection RS as RS. symmetry in RS. apply bind_ok in RS. destruct RS as (p & Hp & Hc).
      exists k, p, s'. auto.
  Qed.
End Runs.

(** ** Genealogy of a particle filter run *)
Section Genealogy.
  Context {Key X Inp : Type}.
  Variable dX : X.
  Variable split : Key -> nat -> list Key.
  Hypothesis Hsplit : split_ok split.
  Variable init_sample : Key -> Inp -> X.
  Variable propagate_sample : Key -> X -> Inp -> X.
  Variable log_potential : X -> X -> Inp -> ext.
  Variable resampling_fn : Resampling Key X.
  Hypothesis Hres : resampler_ok dX resampling_fn.
  Variable N : nat.
  Hypothesis HN : (0 < N)%nat.
  Variable dummy : X.
  Let pf := pf_build_filter split init_sample propagate_sample log_potential resampling_fn N dummy.

  Lemma pf_genealogy inputs key states :
    filter split pf inputs false (Some key) = Ok (map Ok states) ->
    (forall t s, nth_error states t = Some s -> valid_logits (pf_log_weights s)) ->
    (forall t s, nth_error states t = Some s ->
       length (pf_particles s) = N /\ length (pf_log_weights s) = N /\ length (pf_ancestor_indices s) = N /\
       forall j, (j < N)%nat -> (nth j (pf_ancestor_indices s) 0 < N)%nat) /\
    (forall t s s' j, nth_error states t = Some s -> nth_error states (S t) = Some s' -> (j < N)%nat ->
       exists k, nth_error (tl (split (pf_key s) (N + 1))) j = Some k /\
       nth j (pf_particles s') dX =
       propagate_sample k (nth (nth j (pf_ancestor_indices s') 0%nat) (pf_particles s) dX) (pf_model_inputs s')) /\
    (forall t s, nth_error states t = Some s ->
       nth_error (split key (length inputs)) t = Some (pf_key s) /\ nth_error inputs t = Some (pf_model_inputs s)).
  Proof using Hres HN Hsplit.
    intros Hrun Hval. destruct (run_steps split Hsplit _ _ _ _ _ _ Hrun) as (L & H0 & HS).
    assert (A : forall t s, nth_error states t = Some s -> wf N s /\ length (pf_ancestor_indices s) = N /\
              (forall j, (j < N)%nat -> (nth j (pf_ancestor_indices s) 0 < N)%nat) /\
              nth_error (split key (length inputs)) t = Some (pf_key s) /\ nth_error inputs t = Some (pf_model_inputs s)).
    { induction t as [|t IH]; intros s Hs.
      - destruct (nth_error inputs 0) as [x|] eqn:Ex.
        + destruct (H0 x eq_refl) as (k & s0 & Hk & Hi & Hs0). rewrite Hs in Hs0. injection Hs0 as ->.
          destruct (init_facts split Hsplit init_sample N HN _ _ _ Hi) as (W & _ & _ & I1 & I2 & _).
          unfold pf_init_prepare in Hi. injection Hi as <-. simpl in *. rewrite seq_length.
          repeat match goal with |- _ /\ _ => split end; auto. 
          intros j Hj. rewrite seq_nth by lia. lia.
        + apply nth_error_None in Ex. assert (0 < length states)%nat by (apply nth_error_Some; congruence). lia.
      - assert (Hlt : (S t < length states)%nat) by (apply nth_error_Some; congruence).
        destruct (nth_error inputs (S t)) as [x|] eqn:Ex; [|apply nth_error_None in Ex; lia].
        destruct (nth_error states t) as [s0|] eqn:Es0; [|apply nth_error_None in Es0; lia].
        destruct (HS t x s0 Ex Es0) as (k & p & s' & Hk & Hp & Hc & Hs'). rewrite Hs in Hs'. injection Hs' as ->.
        destruct (comb_facts dX split Hsplit _ _ _ Hres N HN _ _ _ (proj1 (IH _ eq_refl)) (Hval _ _ Es0) Hc) as
          (k0 & ks & idx & lw & anc & E1 & E2 & W' & La & Ll & Li & Hlw & Hk' & Hin & Hai & Hp' & Hnth & Hnl & Hanc & Hz).
        unfold pf_filter_prepare in Hp. injection Hp as <-. simpl in Hk', Hin.
        rewrite Hai, Hk', Hin. repeat match goal with |- _ /\ _ => split end; auto.
        intros j Hj. now apply Hanc. }
    split; [|split].
    - intros t s Hs. destruct (A t s Hs) as ([W1 W2] & La & Hj & _). auto.
    - intros t s s' j Hs Hs' Hj.
      destruct (nth_error inputs (S t)) as [x|] eqn:Ex.
      2:{ apply nth_error_None in Ex. assert (S t < length states)%nat by (apply nth_error_Some; congruence). lia. }
      destruct (HS t x s Ex Hs) as (k & p & s2 & _ & Hp & Hc & Hs2). rewrite Hs' in Hs2. injection Hs2 as <-.
      destruct (comb_facts dX split Hsplit _ _ _ Hres N HN _ _ _ (proj1 (A _ _ Hs)) (Hval _ _ Hs) Hc) as
        (k0 & ks & idx & lw & anc & E1 & E2 & W' & La & Ll & Li & Hlw & Hk' & Hin & Hai & Hp' & Hnth & Hnl & Hanc & Hz).
      assert (Lks : length ks = N). { pose proof (Hsplit (pf_key s) (N + 1)%nat) as L'. rewrite E1 in L'. simpl in L'. lia. }
      rewrite E1. simpl tl. exists (nth j ks k0).
      split; [apply nth_error_nth'; lia|].
      rewrite Hp', Hai, (map2_nth_d _ k0 dX) by lia. rewrite <- Hin. f_equal. now apply Hanc.
    - intros t s Hs. now apply A.
  Qed.

  Variable dummy_like : Inp -> Inp.
  Variable sm_resampling : Resampling Key X.
  Hypothesis Hsm : resampler_ok dX sm_resampling.
  Variable M : nat.
  Hypothesis HM : (0 < M)%nat.
  Let sm := ps_build_smoother split log_potential (tracing_simulate dX) sm_resampling M dummy_like.

  Lemma tracing_lines_from fkey skey x0 trans inputs fstates sstates :
    filter split pf (x0 :: trans) false (Some fkey) = Ok (map Ok fstates) ->
    trans <> [] ->
    (forall t s, nth_error fstates t = Some s -> valid_logits (pf_log_weights s)) ->
    (inputs = trans \/ exists x, inputs = x :: trans) ->
    smoother split dummy_like pf_model_inputs sm fstates (Some inputs) false (Some skey)
      = Ok (map Ok sstates) ->
    length sstates = length fstates /\
    exists fT kT k1 rk idx lw ys,
      nth_error fstates (length trans) = Some fT /\
      nth_error (split skey (S (length trans))) 0 = Some kT /\ split kT 2 = [k1; rk] /\
      sm_resampling rk (pf_log_weights fT) (pf_particles fT) M = Ok (idx, lw, ys) /\
    forall k, (k < M)%nat -> exists b : nat -> nat, b (length trans) = nth k idx 0%nat /\
      (forall t f s, nth_error fstates t = Some f -> nth_error sstates t = Some s ->
         (b t < N)%nat /\ nth k (ps_particles s) dX = nth (b t) (pf_particles f) dX) /\
      (forall t f', nth_error fstates (S t) = Some f' ->
         b t = nth (b (S t)) (pf_ancestor_indices f') 0%nat).
  Proof using Hres HN Hsplit Hsm HM.
    intros Hrun Ht Hval Hin Hsmooth.
    destruct (pf_genealogy _ _ _ Hrun Hval) as (G & _).
    assert (Lf : length fstates = S (length trans)) by (destruct (run_steps split Hsplit _ _ _ _ _ _ Hrun) as (L & _); exact L).
    destruct trans as [|x1 trans']; [easy|].
    destruct (smoother_run_steps split Hsplit dummy_like pf_model_inputs _ _ _ x1 trans' inputs skey fstates sstates
                Hin Lf Hsmooth) as (Ls & C & S).
    set (T := length (x1 :: trans')) in *.
    split; [congruence|].
    (* final state *)
    destruct (nth_error fstates T) as [fT|] eqn:EfT; [|apply nth_error_None in EfT; lia].
    destruct (C fT eq_refl) as (kT & sT & HkT & HcT & HsT).
    unfold ps_convert in HcT. destruct (split kT 2) as [|k1 [|rk [|? ?]]] eqn:Esp; try discriminate.
    apply bind_ok in HcT. destruct HcT as ([[idxT lwT] ysT] & Hr & HcT).
    destruct (G _ _ EfT) as (F1 & F2 & F3 & F4).
    destruct (Hsm _ _ _ _ _ _ _ (Hval _ _ EfT) (eq_trans F1 (eq_sym F2)) HM Hr) as (I1 & I2 & I3 & I4 & I5).
    injection HcT as <-.
    exists fT, kT, k1, rk, idxT, lwT, ysT. split; [reflexivity|]. split; [exact HkT|]. split; [exact Esp|]. split; [exact Hr|].
    intros k Hk.
    pose (b := fun t => if (t <? T)%nat
                        then match nth_error sstates (Datatypes.S t) with
                             | Some s => nth k (ps_ancestor_indices s) 0%nat | None => 0%nat end
                        else nth k idxT 0%nat).
    assert (Inv : forall n t f s, (t + n = T)%nat -> nth_error fstates t = Some f -> nth_error sstates t = Some s ->
       (b t < N)%nat /\ length (ps_ancestor_indices s) = M /\
       nth k (ps_particles s) dX = nth (b t) (pf_particles f) dX /\
       nth k (ps_ancestor_indices s) 0%nat = nth (b t) (pf_ancestor_indices f) 0%nat).
    { induction n as [|n IH]; intros t f s Htn Hf Hs.
      - assert (t = T) by lia. subst t. rewrite HsT in Hs. injection Hs as <-. rewrite EfT in Hf. injection Hf as <-.
        assert (Hb : b T = nth k idxT 0%nat) by (unfold b; rewrite Nat.ltb_irrefl; reflexivity).
        rewrite Hb. simpl. destruct (I5 k Hk) as (J1 & J2). rewrite F2 in J1.
        split; [exact J1|]. split; [now rewrite gather_length|]. split; [exact J2|].
        rewrite (gather_nth _ _ _ k) by lia. reflexivity.
      - destruct (nth_error fstates (Datatypes.S t)) as [f'|] eqn:Ef'; [|apply nth_error_None in Ef'; lia].
        destruct (nth_error sstates (Datatypes.S t)) as [s'|] eqn:Es'; [|apply nth_error_None in Es'; lia].
        destruct (nth_error (x1 :: trans') t) as [x|] eqn:Ex; [|apply nth_error_None in Ex; fold T in Ex; lia].
        destruct (S t f x s' Hf Ex Es') as (kt & p & s2 & Hp & Hc & Hs2). rewrite Hs in Hs2. injection Hs2 as <-.
        destruct (IH (Datatypes.S t) f' s' ltac:(lia) Ef' Es') as (B1 & B2 & B3 & B4).
        assert (Hb : b t = nth k (ps_ancestor_indices s') 0%nat).
        { unfold b. rewrite Es'. destruct (Nat.ltb_spec t T); [reflexivity|lia]. }
        unfold ps_prepare in Hp. injection Hp as <-. unfold ps_combine, tracing_simulate in Hc. simpl in Hc.
        injection Hc as <-. simpl.
        destruct (G _ _ Hf) as (K1 & K2 & K3 & K4). destruct (G _ _ Ef') as (K1' & K2' & K3' & K4').
        assert (Hbt : (nth k (ps_ancestor_indices s') 0 < N)%nat) by (rewrite B4; apply K4'; lia).
        rewrite Hb. split; [exact Hbt|]. split; [rewrite gather_length; exact B2|].
        split.
        + rewrite (gather_nth _ _ _ k) by lia. reflexivity.
        + rewrite (gather_nth _ _ _ k) by lia. reflexivity. }
    exists b. split; [unfold b; rewrite Nat.ltb_irrefl; reflexivity|]. split.
    - intros t f s Hf Hs. assert (t <= T)%nat. { assert (t < length fstates)%nat by (apply nth_error_Some; congruence). lia. }
      destruct (Inv (T - t)%nat t f s ltac:(lia) Hf Hs) as (B1 & _ & B3 & _). auto.
    - intros t f' Hf'.
      assert (Datatypes.S t < length fstates)%nat by (apply nth_error_Some; congruence).
      destruct (nth_error sstates (Datatypes.S t)) as [s'|] eqn:Es'; [|apply nth_error_None in Es'; lia].
      destruct (Inv (T - Datatypes.S t)%nat (Datatypes.S t) f' s' ltac:(lia) Hf' Es') as (_ & _ & _ & B4).
      unfold b at 1. rewrite Es'. destruct (Nat.ltb_spec t T); [exact B4|lia].
  Qed.
  Lemma tracing_lines fkey skey x0 trans inputs fstates sstates :
    filter split pf (x0 :: trans) false (Some fkey) = Ok (map Ok fstates) ->
    trans <> [] ->
    (forall t s, nth_error fstates t = Some s -> valid_logits (pf_log_weights s)) ->
    (inputs = trans \/ exists x, inputs = x :: trans) ->
    smoother split dummy_like pf_model_inputs sm fstates (Some inputs) false (Some skey)
      = Ok (map Ok sstates) ->
    length sstates = length fstates /\
    forall k, (k < M)%nat -> exists b : nat -> nat,
      (forall t f s, nth_error fstates t = Some f -> nth_error sstates t = Some s ->
         (b t < N)%nat /\ nth k (ps_particles s) dX = nth (b t) (pf_particles f) dX) /\
      (forall t f', nth_error fstates (S t) = Some f' ->
         b t = nth (b (S t)) (pf_ancestor_indices f') 0%nat).
  Proof using Hres HN Hsplit Hsm HM.
    intros H1 H2 H3 H4 H5.
    destruct (tracing_lines_from _ _ _ _ _ _ _ H1 H2 H3 H4 H5) as (L & fT & kT & k1 & rk & idx & lw & ys & _ & _ & _ & _ & H).
    split; [exact L|]. intros k Hk. destruct (H k Hk) as (b & _ & A & B). eauto.
  Qed.
End Genealogy.

(** ** Which model inputs the backward density sees *)
Section Inputs.
  Context {Key X Inp : Type}.
  Variable split : Key -> nat -> list Key.
  Hypothesis Hsplit : split_ok split.
  Variable log_potential : X -> X -> Inp -> ext.
  Variable bs : BackwardSampling (Key:=Key) (X:=X).
  Variable sm_resampling : Resampling Key X.
  Variable M : nat.
  Variable dummy_like : Inp -> Inp.
  Let sm := ps_build_smoother split log_potential bs sm_resampling M dummy_like.

  Lemma backward_inputs x0 trans' inputs key fstates sstates :
    let trans := x0 :: trans' in
    (inputs = trans \/ exists x, inputs = x :: trans) ->
    length fstates = S (length trans) ->
    smoother split dummy_like pf_model_inputs sm fstates (Some inputs) false (Some key) = Ok (map Ok sstates) ->
    forall t f s s', nth_error fstates t = Some f -> nth_error sstates t = Some s ->
      nth_error sstates (S t) = Some s' ->
      exists anc x,
        x = nth (S t) trans (dummy_like (dummy_like x0)) /\
        bs (ps_key s) (pf_particles f) (ps_particles s') (pf_log_weights f)
           (fun a b => log_potential a b x) (ps_ancestor_indices s') = Ok (ps_particles s, anc).
  Proof using Hsplit.
    intros trans Hin Lf Hsmooth.
    destruct (smoother_run_steps split Hsplit dummy_like pf_model_inputs _ _ _ x0 trans' inputs key fstates sstates
                Hin Lf Hsmooth) as (Ls & C & S). fold trans in Ls, C, S.
    intros t f s s' Hf Hs Hs'.
    assert (Hlt : (Datatypes.S t < length sstates)%nat) by (apply nth_error_Some; congruence).
    destruct (nth_error trans t) as [x|] eqn:Ex; [|apply nth_error_None in Ex; lia].
    destruct (S t f x s' Hf Ex Hs') as (kt & p & s2 & Hp & Hc & Hs2). rewrite Hs in Hs2. injection Hs2 as <-.
    assert (Hinp : ps_model_inputs s' = nth (Datatypes.S t) trans (dummy_like (dummy_like x0))).
    { destruct (nth_error fstates (Datatypes.S t)) as [f'|] eqn:Ef'; [|apply nth_error_None in Ef'; lia].
      destruct (Nat.eq_dec (Datatypes.S t) (length trans)) as [E|NE].
      - rewrite nth_overflow by lia. rewrite E in Ef', Hs'. destruct (C f' Ef') as (k & s1 & _ & Hcv & Hs1).
        rewrite Hs' in Hs1. injection Hs1 as <-. unfold ps_convert in Hcv.
        destruct (split k 2) as [|k1 [|rk [|? ?]]]; try discriminate.
        apply bind_ok in Hcv. destruct Hcv as ([[i1 l1] y1] & _ & Hcv). injection Hcv as <-. simpl.
        reflexivity.
      - destruct (nth_error sstates (Datatypes.S (Datatypes.S t))) as [s3|] eqn:Es3; [|apply nth_error_None in Es3; lia].
        destruct (nth_error trans (Datatypes.S t)) as [x'|] eqn:Ex'; [|apply nth_error_None in Ex'; lia].
        destruct (S _ f' x' s3 Ef' Ex' Es3) as (k' & p' & s4 & Hp' & Hc' & Hs4). rewrite Hs' in Hs4. injection Hs4 as <-.
        unfold ps_prepare in Hp'. injection Hp' as <-. unfold ps_combine in Hc'.
        apply bind_ok in Hc'. destruct Hc' as ([y1 a1] & _ & Hc'). injection Hc' as <-. simpl.
        symmetry. now apply nth_error_nth. }
    unfold ps_prepare in Hp. injection Hp as <-. unfold ps_combine in Hc.
    apply bind_ok in Hc. destruct Hc as ([y1 a1] & Hb & Hc). injection Hc as <-. simpl in *.
    exists a1, (ps_model_inputs s'). rewrite Hinp in *. auto.
  Qed.
End Inputs.
