(** Property C72: forward filtering, backward sampling.  The trajectories returned by the exact
    backward sampler estimate integrals over path space without bias. *)
From Coq Require Import Reals List Arith Bool Lia Lra FunctionalExtensionality.
From Coquelicot Require Import Coquelicot.
From Verif Require Import Ext ScanModel ScanProofs DriverSpec DriverProofs DiscreteSpec Sums
  ResamplingModel ResamplingSpec ResamplingProofs KillingProofs SystematicProofs SmcModel SmcSpec SmcProofs SmcResamplers
  SmcRuns KeyProofs UnbiasedSpec SmcUnbiased PathSpec PathProofs PathTracing FfbsSpec FfbsProofs FfbsBackward
  PropSmc PropUnbiased PropPaths.
Import ListNotations.
Open Scope R_scope.

(** The filter and the smoother together draw from pairwise distinct keys.  The smoother's log
    potential does not depend on the model inputs: C35 shows which inputs the code passes it. *)
Theorem C72_ffbs {Key U X Inp} (keq : forall a b : Key, {a = b} + {a <> b}) (mean : (U -> R) -> R)
         (good : (U -> R) -> Prop) (dX : X) (split : Key -> nat -> list Key)
         (initial : U -> Inp -> X) (propagate : U -> X -> Inp -> X) (log_potential joint_potential : X -> X -> Inp -> ext)
         (h : X -> X -> R) (cat : U -> list ext -> nat)
         (res sres : U -> list ext -> list X -> nat -> result (list nat * list ext * list X))
         (N M : nat) (dummy : X) (dummy_like : Inp -> Inp) (phi : list X -> R)
         (x0 x1 : Inp) (trans' inputs : list Inp) (fkey skey : Key) (w0 : Key -> U) :
  expectation_ok mean good -> split_ok split -> split_injective split -> fkey <> skey -> (0 < N)%nat -> (0 < M)%nat ->
  (forall a b x, exists r, log_potential a b x = Fin r) ->
  (forall a b x, joint_potential a b x = Fin (h a b)) ->
  categorical_law mean good cat ->
  resampler_ok dX res -> resampler_total res -> resampler_unbiased mean good N res ->
  resampler_ok dX sres -> resampler_unbiased_to mean good N M sres ->
  (forall u l xs, valid_logits l -> length l = N -> length xs = N -> exists out, sres u l xs M = Ok out) ->
  let trans := x1 :: trans' in
  let T := length trans in
  (inputs = trans \/ exists x, inputs = x :: trans) ->
  (forall x, In x trans -> backward_potential mean good propagate log_potential h x) ->
  path_good mean good initial propagate log_potential x0 trans phi ->
  backward_good mean good propagate log_potential h trans phi ->
  let run w := filter split (pf_build_filter split (fun k => initial (w k)) (fun k => propagate (w k)) log_potential
                                    (fun k => res (w k)) N dummy) (x0 :: trans) false (Some fkey) in
  let smooth w fstates := smoother split dummy_like pf_model_inputs
      (ps_build_smoother split joint_potential (exact_simulate dX split (fun k => cat (w k))) (fun k => sres (w k)) M dummy_like)
      fstates (Some inputs) false (Some skey) in
  exists kT k1 rk, nth_error (split skey (S T)) 0 = Some kT /\ split kT 2%nat = [k1; rk] /\
  let keys := consumed split fkey N T ++ rk :: backward_keys split skey M T in
  NoDup keys /\
  (exists est, forall w, trajectory_estimates dX phi T M (run w) (smooth w) (est w)) /\
  (forall est, (forall w, trajectory_estimates dX phi T M (run w) (smooth w) (est w)) ->
     expectation keq mean keys est w0 = path_integral mean initial propagate log_potential x0 trans phi).
Proof.
  intros Hm Hs Hi Hne HN HM Hf Hj Hc Hr Ht Hu Hr' Hu' Ht' trans T Hin Hb Hg Hbg run smooth.
  destruct (ffbs_unbiased keq mean good Hm dX split Hs Hi initial propagate log_potential Hf h joint_potential Hj cat Hc res sres Hr Ht Hr' N M
    Ht' Hu Hu' HN HM dummy dummy_like phi x0 x1 trans' inputs fkey skey w0 Hin Hne Hb Hg Hbg) as (kT & k1 & rk & A & B & C & est & H1 & H2).
  exists kT, k1, rk. split; [exact A|]. split; [exact B|]. split; [exact C|].
  assert (H : forall w, trajectory_estimates dX phi T M (run w) (smooth w) (est w)).
  { intros w. destruct (H1 w) as (fs & s & ss & E1 & E2 & E3 & E4 & E5). exists fs, s, ss. auto 10. }
  split; [exists est; exact H|]. intros est' H'. etransitivity; [|exact H2]. f_equal.
  apply functional_extensionality. intros w. eapply trajectory_estimates_unique; [apply H'|exact (H w)].
Qed.
Print Assumptions C72_ffbs.

(** The condition on the smoother's potential holds when it is the log of the joint potential
    density times potential, up to a function of the new state (such as an observation's likelihood). *)
Theorem C72_joint_potential {U X Inp} (mean : (U -> R) -> R) (good : (U -> R) -> Prop) (propagate : U -> X -> Inp -> X)
        (log_potential : X -> X -> Inp -> ext) (h : X -> X -> R) (base : (X -> R) -> R) (dens : X -> X -> R) (c : X -> R) (i : Inp) :
  has_density mean good propagate base dens i ->
  (forall a y, dens a y * uw (log_potential a y i) = exp (h a y) * c y) ->
  backward_potential mean good propagate log_potential h i.
Proof.
  intros Hd Hh a b psi f G1 G2.
  assert (E : forall a b, good (f a b) -> mean (f a b) = base (fun y => exp (h a y) * exp (h b y) * c y * psi y)).
  { intros a' b' G. unfold f. rewrite (Hd a' (fun y => uw (log_potential a' y i) * exp (h b' y) * psi y) G). f_equal.
    apply functional_extensionality. intros y.
    replace (dens a' y * (uw (log_potential a' y i) * exp (h b' y) * psi y))
      with (dens a' y * uw (log_potential a' y i) * (exp (h b' y) * psi y)) by ring. rewrite Hh. ring. }
  rewrite (E a b G1), (E b a G2). f_equal. apply functional_extensionality. intros y. ring.
Qed.
Print Assumptions C72_joint_potential.

(** categorical draws by inverting the distribution function at a uniform variable *)
Definition inverse_cdf_draw (cpu : bool) (u : R) (l : list ext) : nat :=
  nth 0 (fst (fst (systematic_resampling tt cpu u l (repeat tt (length l)) 1))) 0%nat.
Theorem C72_categorical cpu : categorical_law uniform_mean uniform_good (inverse_cdf_draw cpu).
Proof.
  intros l phi Hv.
  destruct (systematic_unbiased_to tt cpu (length l) 1 ltac:(lia) l (repeat tt (length l)) phi Hv eq_refl ltac:(apply repeat_length)) as (A & B).
  cbv zeta in A, B.
  assert (E : (fun u => match systematic_fn tt cpu (fun u => u) u l (repeat tt (length l)) 1%nat with
       | Ok (idx, _, _) => lsum (fun j => phi (nth j idx 0%nat)) (seq 0 1) / INR 1 | Err _ => 0 end)
     = fun u => phi (inverse_cdf_draw cpu u l)).
  { apply functional_extensionality. intros u. unfold systematic_fn, inverse_cdf_draw.
    destruct (systematic_resampling tt cpu u l (repeat tt (length l)) 1%nat) as [[idx lw] ys]. cbn [fst seq lsum INR]. field. }
  rewrite E in A, B. auto.
Qed.
Print Assumptions C72_categorical.

(** N filter particles and M trajectories, systematic resampling in both, uniform seeds *)
Theorem C72_systematic {Key X Inp} (keq : forall a b : Key, {a = b} + {a <> b})
         (dX : X) (split : Key -> nat -> list Key)
         (initial : R -> Inp -> X) (propagate : R -> X -> Inp -> X) (log_potential joint_potential : X -> X -> Inp -> ext) (h : X -> X -> R)
         (cpu : bool) (N M : nat) (dummy : X) (dummy_like : Inp -> Inp) (phi : list X -> R)
         (x0 x1 : Inp) (trans' inputs : list Inp) (fkey skey : Key) (w0 : Key -> R) :
  split_ok split -> split_injective split -> fkey <> skey -> (0 < N)%nat -> (0 < M)%nat ->
  (forall a b x, exists r, log_potential a b x = Fin r) ->
  (forall a b x, joint_potential a b x = Fin (h a b)) ->
  let trans := x1 :: trans' in
  let T := length trans in
  (inputs = trans \/ exists x, inputs = x :: trans) ->
  (forall x, In x trans -> backward_potential uniform_mean uniform_good propagate log_potential h x) ->
  path_good uniform_mean uniform_good initial propagate log_potential x0 trans phi ->
  backward_good uniform_mean uniform_good propagate log_potential h trans phi ->
  let run w := filter split (pf_build_filter split (fun k => initial (w k)) (fun k => propagate (w k)) log_potential
                               (fun k => systematic_fn dX cpu (fun u => u) (w k)) N dummy) (x0 :: trans) false (Some fkey) in
  let smooth w fstates := smoother split dummy_like pf_model_inputs
      (ps_build_smoother split joint_potential (exact_simulate dX split (fun k => inverse_cdf_draw cpu (w k)))
         (fun k => systematic_fn dX cpu (fun u => u) (w k)) M dummy_like)
      fstates (Some inputs) false (Some skey) in
  exists kT k1 rk, nth_error (split skey (S T)) 0 = Some kT /\ split kT 2%nat = [k1; rk] /\
  let keys := consumed split fkey N T ++ rk :: backward_keys split skey M T in
  NoDup keys /\
  (exists est, forall w, trajectory_estimates dX phi T M (run w) (smooth w) (est w)) /\
  (forall est, (forall w, trajectory_estimates dX phi T M (run w) (smooth w) (est w)) ->
     expectation keq uniform_mean keys est w0 = path_integral uniform_mean initial propagate log_potential x0 trans phi).
Proof.
  intros Hs Hi Hne HN HM Hf Hj trans T Hin Hb Hg Hbg.
  apply (C72_ffbs keq uniform_mean uniform_good dX split initial propagate log_potential joint_potential h (inverse_cdf_draw cpu)
    (systematic_fn dX cpu (fun u => u)) (systematic_fn dX cpu (fun u => u)));
    auto using uniform_expectation_ok, systematic_resampler_ok, systematic_total, systematic_contract, systematic_unbiased_to, C72_categorical.
  intros. unfold systematic_fn. eauto.
Qed.
Print Assumptions C72_systematic.

(** ** A two-state chain observed with errors *)
Definition flip_initial (u : R) (_ : bool) : bool := if Rlt_dec u (1/2) then true else false.
Definition flip_propagate (u : R) (a : bool) (_ : bool) : bool := if Rlt_dec u (3/4) then a else negb a.
Definition flip_potential (_ y : bool) (obs : bool) : ext := Fin (if eqb y obs then ln 2 else 0).
Definition flip_density (a y : bool) : R := if eqb a y then 3/4 else 1/4.
Definition flip_joint (a y : bool) : R := ln (flip_density a y).
Lemma flip_RInt p (a b : R) : 0 <= p <= 1 -> is_RInt (fun u => if Rlt_dec u p then a else b) 0 1 (p * a + (1 - p) * b).
Proof.
  intros Hp. apply (is_RInt_Chasles (V := R_NormedModule) _ 0 p 1).
  - apply (is_RInt_ext (V := R_NormedModule) (fun _ => a)).
    { intros u Hu. rewrite Rmin_left, Rmax_right in Hu by lra. destruct (Rlt_dec u p); lra. }
    replace (p * a) with (scal (p - 0) a) by (unfold scal; simpl; unfold mult; simpl; ring). apply (is_RInt_const (V := R_NormedModule)).
  - apply (is_RInt_ext (V := R_NormedModule) (fun _ => b)).
    { intros u Hu. rewrite Rmin_left, Rmax_right in Hu by lra. destruct (Rlt_dec u p); lra. }
    apply (is_RInt_const (V := R_NormedModule) p 1 b).
Qed.
Lemma flip_mean (g : bool -> R) a i : is_RInt (fun u => g (flip_propagate u a i)) 0 1 (3/4 * g a + (1 - 3/4) * g (negb a)).
Proof.
  apply (is_RInt_ext (V := R_NormedModule) (fun u => if Rlt_dec u (3/4) then g a else g (negb a))); [|apply flip_RInt; lra].
  intros u _. unfold flip_propagate. now destruct (Rlt_dec u (3/4)).
Qed.
Lemma flip_mean0 (g : bool -> R) i : is_RInt (fun u => g (flip_initial u i)) 0 1 (1/2 * g true + (1 - 1/2) * g false).
Proof.
  apply (is_RInt_ext (V := R_NormedModule) (fun u => if Rlt_dec u (1/2) then g true else g false)); [|apply flip_RInt; lra].
  intros u _. unfold flip_initial. now destruct (Rlt_dec u (1/2)).
Qed.
Lemma flip_has_density i : has_density uniform_mean uniform_good flip_propagate (fun f => f true + f false) flip_density i.
Proof.
  intros a psi _. unfold uniform_mean. rewrite (is_RInt_unique _ _ _ _ (flip_mean psi a i)).
  unfold flip_density. destruct a; simpl; field.
Qed.
Lemma flip_backward i : backward_potential uniform_mean uniform_good flip_propagate flip_potential flip_joint i.
Proof.
  apply (C72_joint_potential _ _ _ _ _ _ _ (fun y => if eqb y i then 2 else 1) _ (flip_has_density i)).
  intros a y. unfold flip_joint. rewrite exp_ln by (unfold flip_density; destruct (eqb a y); lra). f_equal.
  unfold flip_potential. cbn [uw]. destruct (eqb y i); [apply exp_ln; lra|apply exp_0].
Qed.
Lemma flip_path_good x0 inputs phi : path_good uniform_mean uniform_good flip_initial flip_propagate flip_potential x0 inputs phi.
Proof.
  split.
  - eexists. apply (flip_mean0 (fun y => path_from uniform_mean flip_propagate flip_potential inputs phi [] y)).
  - induction inputs as [|i r IH]; [exact I|]. split; [|exact IH]. intros past x. eexists.
    apply (flip_mean (fun y => uw (flip_potential x y i) * path_from uniform_mean flip_propagate flip_potential r phi (past ++ [x]) y)).
Qed.
Lemma flip_backward_good inputs phi : backward_good uniform_mean uniform_good flip_propagate flip_potential flip_joint inputs phi.
Proof.
  induction inputs as [|i r IH]; [exact I|]. split; [|exact IH]. intros a b past x vs _ _. eexists.
  apply (flip_mean (fun y => uw (flip_potential a y i) * exp (flip_joint b y) *
     (path_from uniform_mean flip_propagate flip_potential r phi (past ++ [x]) y / lsum (fun v => fst v * exp (flip_joint (snd v) y)) vs))).
Qed.
Lemma flip_value : path_integral uniform_mean flip_initial flip_propagate flip_potential false [true; false]
  (fun l => if list_eq_dec Bool.bool_dec l [true; true; false] then 1 else 0) = 3 / 8.
Proof.
  set (phi := fun l => if list_eq_dec Bool.bool_dec l [true; true; false] then 1 else 0). unfold path_integral.
  etransitivity; [exact (is_RInt_unique _ _ _ _ (flip_mean0 (path_from uniform_mean flip_propagate flip_potential [true; false] phi []) false))|].
  assert (S1 : forall past x i r, path_from uniform_mean flip_propagate flip_potential (i :: r) phi past x
    = 3/4 * (uw (flip_potential x x i) * path_from uniform_mean flip_propagate flip_potential r phi (past ++ [x]) x)
      + (1 - 3/4) * (uw (flip_potential x (negb x) i) * path_from uniform_mean flip_propagate flip_potential r phi (past ++ [x]) (negb x))).
  { intros past x i r. cbn [path_from]. unfold uniform_mean at 1.
    exact (is_RInt_unique _ _ _ _ (flip_mean (fun y => uw (flip_potential x y i) * path_from uniform_mean flip_propagate flip_potential r phi (past ++ [x]) y) x i)). }
  rewrite !S1. cbn [path_from app negb flip_potential eqb uw]. rewrite exp_0, exp_ln by lra. unfold phi.
  repeat match goal with |- context [list_eq_dec Bool.bool_dec ?a ?b] =>
    destruct (list_eq_dec Bool.bool_dec a b); try discriminate; try congruence end.
  lra.
Qed.
Example C72_hypotheses_met : exists (split : list (nat * nat) -> nat -> list (list (nat * nat))) est rk
    (keq : forall a b : list (nat * nat), {a = b} + {a <> b}),
  split_ok split /\ split_injective split /\
  (forall w, trajectory_estimates true (fun l => if list_eq_dec Bool.bool_dec l [true; true; false] then 1 else 0) 2 7
     (filter split (pf_build_filter split (fun k => flip_initial (w k)) (fun k => flip_propagate (w k)) flip_potential
        (fun k => systematic_fn true true (fun u => u) (w k)) 5 true) [false; true; false] false (Some []))
     (fun fstates => smoother split (fun x => x) pf_model_inputs (ps_build_smoother split (fun a b _ => Fin (flip_joint a b))
        (exact_simulate true split (fun k => inverse_cdf_draw true (w k)))
        (fun k => systematic_fn true true (fun u => u) (w k)) 7 (fun x => x)) fstates (Some [true; false]) false (Some [(0%nat, 0%nat)])) (est w)) /\
  expectation keq uniform_mean (consumed split [] 5 2 ++ rk :: backward_keys split [(0%nat, 0%nat)] 7 2) est (fun _ => 0) = 3 / 8.
Proof.
  destruct C38_hypotheses_met as (split & Hs & Hi).
  assert (keq : forall a b : list (nat * nat), {a = b} + {a <> b}).
  { apply list_eq_dec. intros [a b] [c d]. destruct (Nat.eq_dec a c), (Nat.eq_dec b d); subst; auto; right; congruence. }
  set (phi := fun l => if list_eq_dec Bool.bool_dec l [true; true; false] then 1 else 0).
  destruct (C72_systematic keq true split flip_initial flip_propagate flip_potential (fun a b _ => Fin (flip_joint a b)) flip_joint
     true 5 7 true (fun x => x) phi false true [false] [true; false] [] [(0, 0)]%nat (fun _ => 0)
     Hs Hi ltac:(discriminate) ltac:(lia) ltac:(lia) ltac:(intros; eexists; reflexivity) ltac:(reflexivity) (or_introl eq_refl)
     (fun x _ => flip_backward x) (flip_path_good _ _ _) (flip_backward_good _ _))
    as (kT & k1 & rk & _ & _ & _ & (est & He) & Q).
  cbn [length] in He, Q. exists split, est, rk, keq. split; [exact Hs|]. split; [exact Hi|]. split; [exact He|].
  cbv zeta in Q. rewrite (Q est He). apply flip_value.
Qed.
