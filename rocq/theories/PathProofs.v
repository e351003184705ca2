(** The weighted ancestral lines of a particle filter run estimate path integrals without bias. *)
From Coq Require Import Reals List Arith Bool Lia Lra FunctionalExtensionality.
From Verif Require Import Ext ScanModel ScanProofs DriverSpec DriverProofs DiscreteSpec Sums
  ResamplingModel ResamplingSpec ResamplingProofs ConditionalProofs KillingProofs SystematicProofs
  ConditionalLaw SmcModel SmcSpec SmcProofs SmcRuns UnbiasedSpec KeyProofs Martingale SmcUnbiased SurvivalSpec SmcDead PathSpec.
Import ListNotations.
Open Scope R_scope.

Lemma map2_map_r {A B C D} (f : A -> C -> D) (g : B -> C) : forall l m, map2 f l (map g m) = map2 (fun a b => f a (g b)) l m.
Proof. induction l as [|a l IH]; intros [|b m]; simpl; auto. now rewrite IH. Qed.
Lemma map2_map_l {A B C D} (f : C -> B -> D) (g : A -> C) : forall l m, map2 f (map g l) m = map2 (fun a b => f (g a) b) l m.
Proof. induction l as [|a l IH]; intros [|b m]; simpl; auto. now rewrite IH. Qed.
Lemma map_map2 {A B C D} (f : A -> B -> C) (g : C -> D) : forall l m, map g (map2 f l m) = map2 (fun a b => g (f a b)) l m.
Proof. induction l as [|a l IH]; intros [|b m]; simpl; auto. now rewrite IH. Qed.

Section Path.
  Context {Key U X Inp : Type}.
  Variable keq : forall a b : Key, {a = b} + {a <> b}.
  Variable mean : (U -> R) -> R.
  Variable good : (U -> R) -> Prop.
  Hypothesis Hm : expectation_ok mean good.
  Variable dX : X.
  Variable split : Key -> nat -> list Key.
  Hypothesis Hsplit : split_ok split.
  Variable initial : U -> Inp -> X.
  Variable propagate : U -> X -> Inp -> X.
  Variable log_potential : X -> X -> Inp -> ext.
  Hypothesis Hlog : forall a b x, is_logit (log_potential a b x).
  Variable res : U -> list ext -> list X -> nat -> result (list nat * list ext * list X).
  Hypothesis Hres : resampler_ok dX res.
  Hypothesis Htot : resampler_total res.
  Hypothesis Hrev : (forall a b x, exists r, log_potential a b x = Fin r) \/ resampler_revives res.
  Variable N : nat.
  Hypothesis Hunb : resampler_unbiased mean good N res.
  Hypothesis HN : (0 < N)%nat.
  Variable dummy : X.
  Variable phi : list X -> R.

  (** the path-space model: a particle is its past and its present *)
  Let dP : list X * X := ([], dX).
  Definition p_initial (u : U) (x : Inp) : list X * X := ([], initial u x).
  Definition p_propagate (u : U) (p : list X * X) (x : Inp) : list X * X := (fst p ++ [snd p], propagate u (snd p) x).
  Definition p_potential (p q : list X * X) (x : Inp) : ext := log_potential (snd p) (snd q) x.
  Definition p_res (u : U) (l : list ext) (ps : list (list X * X)) (n : nat) : result (list nat * list ext * list (list X * X)) :=
    match res u l (map snd ps) n with
    | Ok (idx, lw, _) => Ok (idx, lw, map (fun i => nth i ps dP) idx)
    | Err e => Err e
    end.
  Definition p_phi (p : list X * X) : R := phi (fst p ++ [snd p]).

  Lemma p_res_inv u l ps n idx lw ys : p_res u l ps n = Ok (idx, lw, ys) ->
    exists xs, res u l (map snd ps) n = Ok (idx, lw, xs) /\ ys = map (fun i => nth i ps dP) idx.
  Proof. unfold p_res. destruct res as [[[a b] c]|]; [|discriminate]. intros H. injection H as <- <- <-. eauto. Qed.
  Lemma p_res_ok : resampler_ok dP p_res.
  Proof using Hres HN.
    intros u l ps n idx lw ys Hv L Hn H. destruct (p_res_inv _ _ _ _ _ _ _ H) as (xs & E & ->).
    destruct (Hres _ _ _ _ _ _ _ Hv (eq_trans (map_length _ _) L) Hn E) as (A & B & C & D & F).
    split; [exact A|]. split; [exact B|]. split; [now rewrite map_length|]. split; [exact D|].
    intros j Hj. split; [now apply F|]. rewrite (nth_indep _ dP (nth 0 ps dP)) by (rewrite map_length; lia).
    now rewrite (map_nth (fun i => nth i ps dP) idx 0%nat j).
  Qed.
  Lemma p_res_total : resampler_total p_res.
  Proof using Htot.
    intros u l ps Hv L. destruct (Htot u l (map snd ps) Hv (eq_trans (map_length _ _) L)) as ([[a b] c] & E).
    unfold p_res. rewrite E. eauto.
  Qed.
  Lemma p_res_revives : resampler_revives res -> resampler_revives p_res.
  Proof.
    intros H u ps n Hn L. destruct (H u (map snd ps) n Hn (eq_trans (map_length _ _) L)) as (idx & lw & ys & E & A & B & C & D).
    unfold p_res. rewrite E. do 3 eexists. split; [reflexivity|]. rewrite map_length. auto.
  Qed.
  Lemma p_res_unbiased : resampler_unbiased mean good N p_res.
  Proof using Hunb.
    intros l ps f Hv LN L. destruct (Hunb l (map snd ps) f Hv LN (eq_trans (map_length _ _) L)) as (A & B).
    assert (E : (fun u => match p_res u l ps (length l) with
       | Ok (idx, lw, _) => lsum (fun j => wt lw j * f (nth j idx 0%nat)) (seq 0 (length l)) | Err _ => 0 end)
      = (fun u => match res u l (map snd ps) (length l) with
       | Ok (idx, lw, _) => lsum (fun j => wt lw j * f (nth j idx 0%nat)) (seq 0 (length l)) | Err _ => 0 end)).
    { apply functional_extensionality. intros u. unfold p_res. now destruct res as [[[a b] c]|]. }
    cbv zeta in A, B |- *. rewrite E. auto.
  Qed.
  Lemma p_fk inputs p : fk_from mean p_propagate p_potential inputs p_phi p = path_from mean propagate log_potential inputs phi (fst p) (snd p).
  Proof.
    revert p. induction inputs as [|x inputs IH]; intros [h y]; [reflexivity|]. cbn [fk_from path_from fst snd]. f_equal.
    apply functional_extensionality. intros u. cbv zeta. rewrite IH. reflexivity.
  Qed.
  Lemma p_good inputs : path_from_good mean good propagate log_potential inputs phi ->
    fk_from_good mean good p_propagate p_potential inputs p_phi.
  Proof.
    induction inputs as [|x inputs IH]; [auto|]. intros (A & B). split; [|now apply IH].
    intros [h y]. specialize (A h y). cbv zeta in A |- *.
    replace (fun u => uw (p_potential (h, y) (p_propagate u (h, y) x) x) * fk_from mean p_propagate p_potential inputs p_phi (p_propagate u (h, y) x))
      with (fun u => uw (log_potential y (propagate u y x) x) * path_from mean propagate log_potential inputs phi (h ++ [y]) (propagate u y x)); [exact A|].
    apply functional_extensionality. intros u. now rewrite p_fk.
  Qed.
  Lemma p_good_inv inputs : fk_from_good mean good p_propagate p_potential inputs p_phi ->
    path_from_good mean good propagate log_potential inputs phi.
  Proof.
    induction inputs as [|x inputs IH]; [auto|]. intros (A & B). split; [|now apply IH].
    intros h y. specialize (A (h, y)). cbv zeta in A |- *.
    replace (fun u => uw (log_potential y (propagate u y x) x) * path_from mean propagate log_potential inputs phi (h ++ [y]) (propagate u y x))
      with (fun u => uw (p_potential (h, y) (p_propagate u (h, y) x) x) * fk_from mean p_propagate p_potential inputs p_phi (p_propagate u (h, y) x)); [exact A|].
    apply functional_extensionality. intros u. now rewrite p_fk.
  Qed.
  Lemma p_good0_inv x0 inputs : fk_good mean good p_initial p_propagate p_potential x0 inputs p_phi ->
    path_good mean good initial propagate log_potential x0 inputs phi.
  Proof.
    intros (A & B). split; [|now apply p_good_inv].
    replace (fun u => path_from mean propagate log_potential inputs phi [] (initial u x0))
      with (fun u => fk_from mean p_propagate p_potential inputs p_phi (p_initial u x0)); [exact A|].
    apply functional_extensionality. intros u. now rewrite p_fk.
  Qed.
  Lemma p_good0 x0 inputs : path_good mean good initial propagate log_potential x0 inputs phi ->
    fk_good mean good p_initial p_propagate p_potential x0 inputs p_phi.
  Proof.
    intros (A & B). split; [|now apply p_good].
    replace (fun u => fk_from mean p_propagate p_potential inputs p_phi (p_initial u x0))
      with (fun u => path_from mean propagate log_potential inputs phi [] (initial u x0)); [exact A|].
    apply functional_extensionality. intros u. now rewrite p_fk.
  Qed.
  Lemma p_fk0 x0 inputs : feynman_kac mean p_initial p_propagate p_potential x0 inputs p_phi
    = path_integral mean initial propagate log_potential x0 inputs phi.
  Proof. unfold feynman_kac, path_integral. f_equal. apply functional_extensionality. intros u. now rewrite p_fk. Qed.

  (** ** simulation *)
  Notation pf w := (seeded_pf split initial propagate log_potential res N dummy w).
  Notation ppf w := (seeded_pf split p_initial p_propagate p_potential p_res N ([], dummy) w).
  Notation St := (PFState Key X Inp).
  Notation PSt := (PFState Key (list X * X) Inp).
  Definition same (s : St) (s' : PSt) : Prop :=
    pf_key s = pf_key s' /\ pf_log_weights s = pf_log_weights s' /\ pf_particles s = map snd (pf_particles s') /\
    pf_log_normalizing_constant s = pf_log_normalizing_constant s'.

  Lemma same_step w s s' x k s1 s1' : dinv res N s -> live s -> same s s' ->
    pf_step split propagate log_potential res N dummy w s x k = Ok s1 ->
    pf_step split p_propagate p_potential p_res N ([], dummy) w s' x k = Ok s1' ->
    same s1 s1' /\ pf_ancestor_indices s1 = pf_ancestor_indices s1' /\
    length (pf_particles s1) = N /\ length (pf_ancestor_indices s1) = N /\
    forall j, (j < N)%nat -> (nth j (pf_ancestor_indices s1) 0 < N)%nat /\
      fst (nth j (pf_particles s1') dP) = fst (nth (nth j (pf_ancestor_indices s1) 0%nat) (pf_particles s') dP)
         ++ [snd (nth (nth j (pf_ancestor_indices s1) 0%nat) (pf_particles s') dP)].
  Proof using Hsplit Hres HN.
    intros ((W1 & W2) & _) (V & _) (S1 & S2 & S3 & S4) E E'.
    unfold pf_step, pf_filter_combine in E, E'. rewrite <- S1, <- S2 in E'.
    pose proof (Hsplit (pf_key s) (length (pf_log_weights s) + 1)%nat) as L.
    destruct (split (pf_key s) (length (pf_log_weights s) + 1)) as [|kr kp]; [discriminate|]. simpl in L.
    apply bind_ok in E. destruct E as ([[idx lw] anc] & Er & E).
    unfold p_res in E'. rewrite <- S3, Er in E'. cbn [bind] in E'.
    assert (HN' : (0 < length (pf_log_weights s))%nat) by lia.
    destruct (Hres _ _ _ _ _ _ _ V (eq_trans W1 (eq_sym W2)) HN' Er) as (Li & Ll & La & Vl & Hj).
    rewrite W2 in *. assert (Lk : length kp = N) by lia.
    rewrite Lk, La, Ll, Nat.eqb_refl in E. rewrite map_length, Lk, Li, Ll, Nat.eqb_refl in E'. cbn [andb] in E, E'.
    assert (Ea : anc = map snd (map (fun i => nth i (pf_particles s') dP) idx)).
    { apply (nth_ext _ _ dX (snd dP)); [rewrite !map_length; lia|]. intros j Hlt. rewrite La in Hlt.
      destruct (Hj j Hlt) as (A & B). rewrite B, S3. rewrite map_nth.
      rewrite (nth_indep (map _ idx) dP (nth 0 (pf_particles s') dP)) by (rewrite map_length; lia).
      rewrite (map_nth (fun i => nth i (pf_particles s') dP) idx 0%nat j).
      change dX with (snd dP). apply map_nth. }
    injection E as <-. injection E' as <-. cbn [pf_key pf_log_weights pf_particles pf_ancestor_indices pf_log_normalizing_constant pf_model_inputs pf_prepared].
    set (A' := map (fun i => nth i (pf_particles s') dP) idx) in *.
    assert (Ep : map2 (fun k x0 => propagate (w k) x0 x) kp anc = map snd (map2 (fun k x0 => p_propagate (w k) x0 x) kp A')).
    { rewrite map_map2, Ea, map2_map_r. reflexivity. }
    assert (Eq : map2 (fun a x0 => log_potential a x0 x) anc (map2 (fun k x0 => propagate (w k) x0 x) kp anc)
       = map2 (fun a x0 => p_potential a x0 x) A' (map2 (fun k x0 => p_propagate (w k) x0 x) kp A')).
    { rewrite Ep, Ea, map2_map_r, map2_map_l. reflexivity. }
    split; [|split; [reflexivity|split; [|split; [exact Li|]]]].
    - repeat split; cbn; rewrite ?Eq, ?S4; auto.
    - rewrite map2_len. lia.
    - intros j Hlt. split; [now apply Hj|]. rewrite (map2_nth_d _ kr dP) by (unfold A'; rewrite ?map_length; lia).
      unfold p_propagate. cbn [fst]. unfold A'.
      rewrite (nth_indep (map _ idx) dP (nth 0 (pf_particles s') dP)) by (rewrite map_length; lia).
      rewrite (map_nth (fun i => nth i (pf_particles s') dP) idx 0%nat j). reflexivity.
  Qed.

  (** the two runs side by side *)
  Lemma paths_run w x0 inputs key states states' :
    filter split (pf w) (x0 :: inputs) false (Some key) = Ok (map Ok states) ->
    filter split (ppf w) (x0 :: inputs) false (Some key) = Ok (map Ok states') ->
    forall t s s', nth_error states t = Some s -> nth_error states' t = Some s' ->
      dinv res N s /\ dinv p_res N s' /\ pf_key s = pf_key s' /\
      ((pf_log_normalizing_constant s = NInf /\ pf_log_normalizing_constant s' = NInf) \/
       (live s /\ same s s' /\ forall j, (j < N)%nat ->
          ancestral_line dX states t j = fst (nth j (pf_particles s') dP) ++ [snd (nth j (pf_particles s') dP)])).
  Proof using Hsplit Hlog Hres Htot Hrev HN mean.
    intros R R'.
    destruct (run_steps split Hsplit _ _ _ _ _ _ R) as (L & H0 & HS).
    destruct (run_steps split Hsplit _ _ _ _ _ _ R') as (L' & H0' & HS').
    pose proof p_res_ok as Pok. pose proof p_res_total as Ptot.
    assert (Plog : forall a b x, is_logit (p_potential a b x)) by (intros; apply Hlog).
    assert (Prev : (forall a b x, exists r, p_potential a b x = Fin r) \/ resampler_revives p_res).
    { destruct Hrev as [H|H]; [left; intros; apply H|right; now apply p_res_revives]. }
    induction t as [|t IH]; intros s s' Es Es'.
    - destruct (H0 x0 eq_refl) as (k & s1 & Hk & Hi & E1). rewrite E1 in Es. injection Es as <-.
      destruct (H0' x0 eq_refl) as (k' & s1' & Hk' & Hi' & E1'). rewrite E1' in Es'. injection Es' as <-.
      rewrite Hk in Hk'. injection Hk' as <-.
      destruct (init_facts split Hsplit (fun k => initial (w k)) N HN _ _ _ Hi) as (A & B & C & D & E & F).
      destruct (init_facts split Hsplit (fun k => p_initial (w k)) N HN _ _ _ Hi') as (A' & B' & C' & D' & E' & F').
      assert (Lv : live s1) by (split; eauto). assert (Lv' : live s1') by (split; eauto).
      split. { split; [exact A|]. split; [apply B|]. now left. }
      split. { split; [exact A'|]. split; [apply B'|]. now left. }
      split; [congruence|]. right. split; [exact Lv|]. split.
      + unfold pf_init_prepare in Hi, Hi'. injection Hi as <-. injection Hi' as <-.
        repeat split. cbn [pf_particles]. rewrite map_map. reflexivity.
      + intros j Hlt. cbn [ancestral_line]. rewrite E1. cbn [app].
        unfold pf_init_prepare in Hi, Hi'. injection Hi as <-. injection Hi' as <-. cbn [pf_particles].
        assert (Lj : (j < length (split k N))%nat) by (rewrite Hsplit; exact Hlt).
        destruct (nth_error (split k N) j) as [kj|] eqn:Ej; [|apply nth_error_None in Ej; lia].
        rewrite (nth_error_nth (map (fun k0 => initial (w k0) x0) (split k N)) j dX (x := initial (w kj) x0)) by (rewrite nth_error_map, Ej; reflexivity).
        rewrite (nth_error_nth (map (fun k0 => p_initial (w k0) x0) (split k N)) j dP (x := p_initial (w kj) x0)) by (rewrite nth_error_map, Ej; reflexivity).
        reflexivity.
    - assert (Hlt : (S t < length states)%nat) by (apply nth_error_Some; congruence).
      destruct (nth_error (x0 :: inputs) (S t)) as [x|] eqn:Ex; [|apply nth_error_None in Ex; lia].
      destruct (nth_error states t) as [s0|] eqn:Es0; [|apply nth_error_None in Es0; lia].
      destruct (nth_error states' t) as [s0'|] eqn:Es0'; [|apply nth_error_None in Es0'; lia].
      destruct (HS t x s0 Ex Es0) as (k & p & s1 & Hk & Hp & Hc & E1). rewrite E1 in Es. injection Es as <-.
      destruct (HS' t x s0' Ex Es0') as (k' & p' & s1' & Hk' & Hp' & Hc' & E1'). rewrite E1' in Es'. injection Es' as <-.
      rewrite Hk in Hk'. injection Hk' as <-. simpl in Hp, Hp'. injection Hp as <-. injection Hp' as <-.
      change (pf_step split propagate log_potential res N dummy w s0 x k = Ok s1) in Hc.
      change (pf_step split p_propagate p_potential p_res N ([], dummy) w s0' x k = Ok s1') in Hc'.
      destruct (IH s0 s0' eq_refl eq_refl) as (D & D' & Kk & HD).
      destruct (dstep_facts mean dX split Hsplit propagate log_potential Hlog res Hres Htot Hrev N HN dummy (fun _ => 1) w s0 x k D)
        as (kr & kp & s2 & idx & lw & anc & _ & _ & _ & _ & _ & _ & Q & I & K & An & Dd & _).
      rewrite Hc in Q. injection Q as <-.
      destruct (dstep_facts mean dP split Hsplit p_propagate p_potential Plog p_res Pok Ptot Prev N HN ([], dummy) (fun _ => 1) w s0' x k D')
        as (kr' & kp' & s2' & idx' & lw' & anc' & _ & _ & _ & _ & _ & _ & Q' & I' & K' & An' & Dd' & _).
      rewrite Hc' in Q'. injection Q' as <-.
      split; [exact I|]. split; [exact I'|]. split; [congruence|].
      destruct HD as [(N1 & N2)|(Lv & Sm & Ln)]; [left; auto|].
      destruct (same_step w s0 s0' x k s1 s1' D Lv Sm Hc Hc') as (Sm1 & Ea & Lp1 & La1 & Hj).
      destruct (proj2 (proj2 I)) as [Lv1|(Dz & _)].
      2:{ left. split; [exact Dz|]. destruct Sm1 as (_ & _ & _ & Z). congruence. }
      right. split; [exact Lv1|]. split; [exact Sm1|]. intros j Hjlt. cbn [ancestral_line]. rewrite E1.
      destruct (Hj j Hjlt) as (Hr & Hf). rewrite (Ln _ Hr), <- Hf. do 2 f_equal.
      destruct Sm1 as (_ & _ & Sp & _). rewrite Sp. change dX with (snd dP). apply map_nth.
  Qed.

  Lemma run_ok w x0 inputs key : exists states, filter split (pf w) (x0 :: inputs) false (Some key) = Ok (map Ok states) /\ length states = S (length inputs).
  Proof using Hsplit Hlog Hres Htot Hrev HN mean.
    pose proof (Hsplit key (length (x0 :: inputs))) as L.
    destruct (split key (length (x0 :: inputs))) as [|c0 ks] eqn:Ec; [discriminate|].
    simpl in L. injection L as L.
    assert (exists s0, pf_init_prepare split (fun k => initial (w k)) N x0 (Some c0) = Ok s0) as (s0 & Hs0) by (simpl; eauto).
    destruct (init_facts split Hsplit (fun k => initial (w k)) N HN _ _ _ Hs0) as (A & B & C & D & E & F).
    assert (I : dinv res N s0). { split; [exact A|]. split; [apply B|]. left. split; eauto. }
    destruct (scan_all_ok mean dX split Hsplit initial propagate log_potential Hlog res Hres Htot Hrev N HN dummy (fun _ => 1) w ks inputs s0 L I) as (st & Er & Ls).
    exists (s0 :: st). split; [|simpl; lia]. unfold filter, prepare_keys. rewrite Ec. cbn [map]. cbv zeta. cbn [seeded_pf init_prepare pf_build_filter].
    rewrite Hs0. f_equal. cbn [map]. f_equal. exact Er.
  Qed.

  Theorem lines_unbiased x0 inputs key w0 : NoDup (consumed split key N (length inputs)) ->
    path_good mean good initial propagate log_potential x0 inputs phi ->
    exists est : (Key -> U) -> R,
      (forall w, exists states s,
         filter split (pf w) (x0 :: inputs) false (Some key) = Ok (map Ok states) /\
         nth_error states (length inputs) = Some s /\ length (pf_particles s) = N /\
         (forall t s', nth_error states t = Some s' -> dinv res N s' /\ (live s -> live s')) /\
         estimate (pf_log_normalizing_constant s) (pf_log_weights s)
           (map (fun j => phi (ancestral_line dX states (length inputs) j)) (seq 0 N)) (est w)) /\
      expectation keq mean (consumed split key N (length inputs)) est w0
      = path_integral mean initial propagate log_potential x0 inputs phi.
  Proof using Hm Hsplit Hlog Hres Htot Hrev Hunb HN.
    intros Hnd Hg.
    assert (Plog : forall a b x, is_logit (p_potential a b x)) by (intros; apply Hlog).
    assert (Prev : (forall a b x, exists r, p_potential a b x = Fin r) \/ resampler_revives p_res).
    { destruct Hrev as [H|H]; [left; intros; apply H|right; now apply p_res_revives]. }
    destruct (pf_unbiased_dead keq mean good Hm dP split Hsplit p_initial p_propagate p_potential Plog p_res p_res_ok p_res_total Prev N
      p_res_unbiased HN ([], dummy) p_phi x0 inputs key w0 Hnd (p_good0 _ _ Hg)) as (est & H1 & H2).
    exists est. split; [|rewrite H2; apply p_fk0]. intros w.
    destruct (H1 w) as (states' & s' & R' & Es' & He).
    destruct (run_ok w x0 inputs key) as (states & R & L).
    destruct (nth_error states (length inputs)) as [s|] eqn:Es; [|apply nth_error_None in Es; lia].
    destruct (paths_run w x0 inputs key states states' R R' _ _ _ Es Es') as ((W & _) & _ & _ & HD).
    exists states, s. split; [exact R|]. split; [exact Es|]. split; [apply W|]. split.
    - intros t st Et. split.
      { assert (Ht : (t < length states)%nat) by (apply nth_error_Some; congruence).
        assert (L' : length states' = S (length inputs)) by (destruct (run_steps split Hsplit _ _ _ _ _ _ R') as (L' & _); exact L').
        destruct (nth_error states' t) as [st'|] eqn:Et'; [|apply nth_error_None in Et'; lia].
        now destruct (paths_run w x0 inputs key states states' R R' _ _ _ Et Et') as (D1 & _). }
      intros (_ & z & Z).
      destruct (run_steps split Hsplit _ _ _ _ _ _ R) as (_ & _ & HS).
      assert (L' : length states' = S (length inputs)) by (destruct (run_steps split Hsplit _ _ _ _ _ _ R') as (L' & _); exact L').
      assert (Hd : forall n t st, (t + n = length inputs)%nat -> nth_error states t = Some st -> pf_log_normalizing_constant st <> NInf).
      { induction n as [|n IH]; intros t1 st1 E Et1.
        - assert (t1 = length inputs) by lia. subst t1. rewrite Es in Et1. injection Et1 as <-. rewrite Z. discriminate.
        - intros Hn. destruct (nth_error (x0 :: inputs) (S t1)) as [x|] eqn:Ex; [|apply nth_error_None in Ex; simpl in Ex; lia].
          destruct (HS t1 x st1 Ex Et1) as (k & p & s2 & _ & Hp & Hc & E2). simpl in Hp. injection Hp as <-.
          change (pf_step split propagate log_potential res N dummy w st1 x k = Ok s2) in Hc.
          apply (IH (S t1) s2 ltac:(lia) E2).
          destruct (nth_error states' t1) as [st1'|] eqn:Et1'; [|apply nth_error_None in Et1'; lia].
          destruct (paths_run w x0 inputs key states states' R R' _ _ _ Et1 Et1') as (D1 & _).
          destruct (dstep_facts mean dX split Hsplit propagate log_potential Hlog res Hres Htot Hrev N HN dummy (fun _ => 1) w st1 x k D1)
            as (kr & kp & s3 & idx & lw & anc & _ & _ & _ & _ & _ & _ & Q & I & K & An & Dd & _).
          rewrite Hc in Q. injection Q as <-. auto. }
      assert (Ht : (t < length states)%nat) by (apply nth_error_Some; congruence).
      destruct (nth_error states' t) as [st'|] eqn:Et'; [|apply nth_error_None in Et'; lia].
      destruct (paths_run w x0 inputs key states states' R R' _ _ _ Et Et') as (D1 & _).
      destruct (proj2 (proj2 D1)) as [H|(H & _)]; [exact H|]. exfalso. apply (Hd (length inputs - t)%nat t st ltac:(lia) Et H).
    - destruct HD as [(Z & Z')|(Lv & (_ & Sw & Sp & Sz) & Hl)].
      + left. split; [exact Z|]. destruct He as [(_ & E)|(r & E & _)]; [exact E|congruence].
      + destruct He as [(Z' & _)|(r & Z' & V & E)]; [destruct Lv as (_ & z & Z); congruence|].
        right. exists r. split; [congruence|]. split; [congruence|]. rewrite E, Sw. f_equal.
        assert (Lp : length (pf_particles s') = N) by (destruct W as (W1 & _); rewrite Sp, map_length in W1; exact W1).
        rewrite !map_length, seq_length, Lp. apply lsum_seq_ext. intros i Hi. f_equal.
        rewrite (nth_indep (map p_phi _) 0 (p_phi dP)) by (rewrite map_length; lia). rewrite map_nth.
        rewrite (nth_indep (map _ (seq 0 N)) 0 (phi (ancestral_line dX states (length inputs) 0))) by (rewrite map_length, seq_length; lia).
        rewrite (map_nth (fun j => phi (ancestral_line dX states (length inputs) j)) (seq 0 N) 0%nat i), seq_nth by lia.
        rewrite Hl by lia. reflexivity.
  Qed.
End Path.
