(** Property C74: generated linear-Gaussian models and the data simulated from them. *)
From Coq Require Import Reals Lra Lia List FunctionalExtensionality.
From Coquelicot Require RInt.
From mathcomp Require Import all_ssreflect all_algebra.
From Verif Require Import RStruct MxBase KalmanModel KalmanSpec MvnProofs KalmanRuns GenReals GenModel GenSpec GenMoments GenProofs MvnProofs2 LinSpec LinObs
  UnbiasedSpec Martingale PropUnbiased.
Set Implicit Arguments.
Unset Strict Implicit.
Unset Printing Implicit Defensive.
Local Open Scope ring_scope.
Import GRing.Theory Num.Theory Order.Theory.

Section Shape.
Variables (Seed Key : Type) (prng_key : Seed -> Key) (split : Key -> nat -> list Key).
Variables normal uniform : Key -> forall m n : nat, 'M[R]_(m, n).
Lemma lowerE k n : generate_cholesky_factor uniform k n = lower (uniform k n n).
Proof. by apply/matrixP => i j; rewrite !mxE addn1 [in RHS]leqNgt; case: (i < j)%N. Qed.
Lemma genE seed nx ny T : let k0 := prng_key seed in
  let m0 := normal (key_at split (key_at split k0 5 1) 2 0) nx 1%N in
  let P0 := lower (uniform (key_at split (key_at split k0 5 1) 2 1) nx nx) in
  let x0 := m0 + P0 *m normal (key_at split k0 5 2) nx 1%N in
  generate_lgssm prng_key split normal uniform seed nx ny T
  = (m0, P0, (lax_scan (@gen_body Key split normal uniform nx ny) x0 (split (key_at split k0 5 0) T)).2).
Proof. by move=> k0 m0 P0 x0; rewrite /generate_lgssm /= lowerE; case: (lax_scan _ _ _). Qed.
End Shape.

(** the returned observations are simulated from the returned model, every draw from a key of its own *)
Theorem C74_simulation (Seed Key : Type) (prng_key : Seed -> Key) (split : Key -> nat -> list Key) (depth : Key -> nat)
    (normal uniform : Key -> forall m n : nat, 'M[R]_(m, n)) (seed : Seed) (nx ny T : nat) m0 chol_P0 steps :
  key_tree split depth ->
  generate_lgssm prng_key split normal uniform seed nx ny T = (m0, chol_P0, steps) ->
  exists (kP ke km : Key) (kQ kx kc kF kR ky kd kH : nat -> Key) (x : nat -> 'cV[R]_nx),
    [/\ List.length steps = T,
        List.NoDup ([:: kP; ke; km] ++ List.flat_map (fun t => [:: kQ t; kx t; kc t; kF t; kR t; ky t; kd t; kH t]) (List.seq 0 T)),
        m0 = normal km nx 1%N /\ chol_P0 = lower (uniform kP nx nx),
        x 0%N = m0 + chol_P0 *m normal ke nx 1%N &
        forall t s, List.nth_error steps t = Some s ->
        [/\ x t.+1 = gF s *m x t + gc s + gQ s *m normal (kx t) nx 1%N,
            gy s = gH s *m x t.+1 + gd s + gR s *m normal (ky t) ny 1%N,
            gQ s = lower (uniform (kQ t) nx nx) /\ gR s = lower (uniform (kR t) ny ny),
            gF s = (3%:R / 4%:R / sqrt nx%:R) *: normal (kF t) nx nx /\ gc s = 10%:R^-1 *: normal (kc t) nx 1%N &
            gH s = normal (kH t) ny nx /\ gd s = normal (kd t) ny 1%N]].
Proof.
move=> tree; rewrite genE => -[<- <- <-].
set k0 := prng_key seed; set x0 := (X in lax_scan _ X _); set ks := split _ T.
pose ka := key_at split; pose K t := List.nth t ks k0.
have ksL : List.length ks = T by have [-> _ _] := tree.
exists (ka (ka k0 5 1)%N 2 1)%N, (ka k0 5 2)%N, (ka (ka k0 5 1)%N 2 0)%N.
exists (fun t => ka (ka (K t) 4 0)%N 3 2)%N, (fun t => ka (K t) 4 1)%N, (fun t => ka (ka (K t) 4 0)%N 3 1)%N, (fun t => ka (ka (K t) 4 0)%N 3 0)%N.
exists (fun t => ka (ka (K t) 4 2)%N 3 2)%N, (fun t => ka (K t) 4 3)%N, (fun t => ka (ka (K t) 4 2)%N 3 1)%N, (fun t => ka (ka (K t) 4 2)%N 3 0)%N.
exists (scan_path (@gen_body Key split normal uniform nx ny) x0 ks).
split=> //.
- by rewrite scan_length.
- have := gen_keys_NoDup tree k0 T; rewrite /gen_keys -/ks.
  have -> // : List.flat_map (step_keys split) ks = List.flat_map (fun t => step_keys split (K t)) (List.seq 0 T).
  rewrite !List.flat_map_concat_map; congr List.concat; rewrite -(List.map_map K); congr (List.map _ _).
  apply: (List.nth_ext _ _ k0 k0); first by rewrite List.map_length List.seq_length.
  move=> i lt; rewrite [RHS](List.nth_indep _ k0 (K 0%N)); last by rewrite List.map_length List.seq_length -ksL.
  by rewrite List.map_nth List.seq_nth -?ksL.
- by case: (ks).
move=> t s Es.
have lt : (t < List.length ks)%coq_nat by have := nth_lt Es; rewrite scan_length.
have Ek : List.nth_error ks t = Some (K t) by apply: List.nth_error_nth'.
have [e1 e2] := scan_nth (@gen_body Key split normal uniform nx ny) x0 Ek.
move: Es; rewrite e1 => -[<-]; rewrite e2 /gen_body /=.
split=> //; rewrite -?lowerE //; split=> //.
apply/matrixP => i j; rewrite !mxE mulrAC; congr (_ / _ * _).
by rewrite /exp_eig_max (_ : 75 = 3 * 25)%N // (_ : 100 = 4 * 25)%N // !natrM -mulf_div divff ?mulr1 // pnatr_eq0.
Qed.
Print Assumptions C74_simulation.

(** a generated factor is a Cholesky factor (lower triangular, positive diagonal) exactly when no diagonal draw is 0 *)
Lemma lower_trig n (A : 'M[R]_n) : is_trig_mx (lower A).
Proof. by apply/is_trig_mxP => i j lt; rewrite mxE leqNgt lt. Qed.
Lemma lower_unit n (A : 'M[R]_n) : lower A \in unitmx = [forall i, A i i != 0].
Proof.
rewrite unitmxE unitfE (det_trig (lower_trig A)) prodf_seq_neq0.
apply/allP/forallP => h i; first by have := h i (mem_index_enum i); rewrite /= mxE leqnn.
by rewrite /= mxE leqnn.
Qed.
Theorem C74_factor (Key : Type) (uniform : Key -> forall m n : nat, 'M[R]_(m, n)) (key : Key) (n : nat) :
  (forall i j, 0 <= uniform key n n i j < 1) ->
  let L := generate_cholesky_factor uniform key n in
  [/\ is_trig_mx L, forall i j, 0 <= L i j < 1 &
   ((forall i, 0 < L i i) <-> (forall i, uniform key n n i i <> 0)) /\
   (L \in unitmx <-> (forall i, uniform key n n i i <> 0))].
Proof.
move=> h L; rewrite /L lowerE; split; first exact: lower_trig.
- by move=> i j; rewrite mxE; case: ifP => // _; rewrite lexx ltr01.
- split; last by rewrite lower_unit; split=> [/forallP g i|g]; [apply/eqP|apply/forallP => i; apply/eqP].
  split=> g i; first by have := g i; rewrite mxE leqnn => /lt0r_neq0 /eqP.
  by rewrite mxE leqnn lt0r; have /andP[-> _] := h i i; rewrite andbT; apply/eqP.
Qed.
Print Assumptions C74_factor.

(** then the returned model satisfies the assumptions under which the Kalman filter is exact (C14, C15, C18):
    model inputs 0..T, initial parameters at 0, slice t of the arrays at t+1, as in the tests of the repository *)
Theorem C74_nondegenerate (Seed Key : Type) (prng_key : Seed -> Key) (split : Key -> nat -> list Key) (depth : Key -> nat)
    (normal uniform : Key -> forall m n : nat, 'M[R]_(m, n)) (seed : Seed) (nx ny T : nat) m0 chol_P0 steps
    (d : GenStep nx ny) :
  key_tree split depth ->
  generate_lgssm prng_key split normal uniform seed nx ny T = (m0, chol_P0, steps) ->
  (forall i, chol_P0 i i <> 0) ->
  (forall s, List.In s steps -> (forall i, gQ s i i <> 0) /\ (forall i, gR s i i <> 0)) ->
  let slice t := List.nth t.-1 steps d in
  nondegenerate (fun _ : nat => (m0, chol_P0)) (fun t => (gF (slice t), gc (slice t), gQ (slice t)))
    (fun t => (gH (slice t), gd (slice t), gR (slice t), map_mx (@Some R) (gy (slice t)))) (List.seq 0 T.+1).
Proof.
move=> tree E h0 hs slice.
have [kP [ke [km [kQ [kx [kc [kF [kR [ky [kd [kH [x [L nd [_ EP] Ex Hs]]]]]]]]]]]]] := C74_simulation tree E.
split=> [t0 _|t t' Et] /=.
  rewrite EP; split; first exact: lower_trig.
  by rewrite lower_unit; apply/forallP => i; apply/eqP => e; apply: (h0 i); rewrite EP mxE leqnn e.
have lt : (t < T)%coq_nat.
  by have := nth_lt Et; rewrite List.seq_length; lia.
have et : t' = t.+1.
  have := List.nth_error_nth _ _ 0%N Et; rewrite List.seq_nth //; lia.
have Es : List.nth_error steps t = Some (slice t') by rewrite et; apply: List.nth_error_nth'; rewrite L.
have [_ _ [eQ eR] _ _] := Hs t _ Es.
have [hQ hR] := hs _ (List.nth_error_In _ _ Es).
have uQ : gQ (slice t') \in unitmx.
  by rewrite eQ lower_unit; apply/forallP => i; apply/eqP => e; apply: (hQ i); rewrite eQ mxE leqnn e.
have uR : gR (slice t') \in unitmx.
  by rewrite eR lower_unit; apply/forallP => i; apply/eqP => e; apply: (hR i); rewrite eR mxE leqnn e.
rewrite /step_of /=; split; first by rewrite /lQ gram_unit.
by rewrite /obsR /=; apply: block_unit; exact: unit_pd.
Qed.
Print Assumptions C74_nondegenerate.

(** "to stop exploding states (in expectation)" (generate.py:58): the second moment of every returned observation, when
    the draws at distinct keys are independent. [ks] lists the keys that are drawn from. *)
Theorem C74_second_moment (Seed Key U : Type) (keq : forall a b : Key, {a = b} + {a <> b})
    (mean : (U -> R) -> R) (good : (U -> R) -> Prop) (prng_key : Seed -> Key)
    (split : Key -> nat -> list Key) (depth : Key -> nat) (nrm uni : U -> forall m n : nat, 'M[R]_(m, n))
    (seed : Seed) (nx ny T : nat) :
  expectation_ok mean good -> key_tree split depth ->
  normal_moments mean good (fun u => nrm u nx 1%N) -> normal_moments mean good (fun u => nrm u nx nx) ->
  normal_moments mean good (fun u => nrm u ny nx) -> normal_moments mean good (fun u => nrm u ny 1%N) ->
  uniform_entries mean good (fun u => uni u nx nx) -> uniform_entries mean good (fun u => uni u ny ny) ->
  let run (w : Key -> U) := generate_lgssm prng_key split (fun k => nrm (w k)) (fun k => uni (w k)) seed nx ny T in
  let tri n : R := n%:R * n.+1%:R / 6%:R in
  let q := 16%:R / 7%:R * (nx%:R / 100%:R + tri nx) in
  exists ks : list Key, [/\ List.NoDup ks,
    (forall w w', (forall k, List.In k ks -> w k = w' k) -> run w = run w') &
    forall w t, (t < T)%N ->
      let Ey2 := expectation keq mean ks
        (fun w => match List.nth_error (run w).2 t with Some s => normsq (gy s) | None => 0 end) w in
      Ey2 = ny%:R * ((9%:R / 16%:R) ^+ t.+1 * (nx%:R + tri nx - q) + q) + (ny%:R + tri ny) /\
      Ey2 <= ny%:R * (nx%:R + tri nx + q) + (ny%:R + tri ny)].
Proof.
move=> Hm tree n1 n2 n3 n4 u1 u2 run tri q; set k0 := prng_key seed.
exists (gen_keys split k0 T); split; first exact: (gen_keys_NoDup tree).
  move=> w w' h; rewrite /run !genE.
  have h1 c : List.In c (init_keys split k0) -> w c = w' c.
    by move=> hc; apply: h; apply: (List.in_or_app (init_keys split k0) (List.flat_map (step_keys split) _)); left.
  rewrite (h1 (key_at split (key_at split k0 5 1) 2 0)) /=; last by auto.
  rewrite (h1 (key_at split (key_at split k0 5 1) 2 1)) /=; last by auto.
  rewrite (h1 (key_at split k0 5 2)) /=; last by auto.
  congr (_, _.2); apply: run_ext => c hc; apply: h.
  by apply: (List.in_or_app (init_keys split k0) (List.flat_map (step_keys split) _)); right.
move=> w t lt Ey2.
have a2 : exp_eig_max ^+ 2 = 9%:R / 16%:R :> R.
  rewrite /exp_eig_max (_ : 75 = 3 * 25)%N // (_ : 100 = 4 * 25)%N // !natrM -mulf_div divff ?mulr1 ?pnatr_eq0 //.
  by rewrite exprMn exprVn -!natrX.
have fx : exp_eig_max ^+ 2 * q + offset nx = q.
  rewrite a2 /offset -/(tri nx) /q; move: (_ + tri nx) => o.
  rewrite !mulrA mulfVK ?pnatr_eq0 // -[X in _ + X]mul1r -mulrDl; congr (_ * o).
  by rewrite -[X in _ + X](@divff _ (7%:R : R)) ?pnatr_eq0 // -mulrDl -natrD.
have E1 : Ey2 = ny%:R * ((9%:R / 16%:R) ^+ t.+1 * (nx%:R + tri nx - q) + q) + (ny%:R + tri ny).
  rewrite -a2 -(moment_closed t (obs_offset nx) fx) -(@E_gen Key U keq mean good Hm split depth tree nrm uni nx ny n1 n2 n3 n4 u1 u2 t k0 T w lt).
  rewrite /Ey2; congr (expectation keq mean _ _ w); apply: functional_extensionality => w'.
  rewrite /run genE /outY; set P0 := lower _; set P0' := GenProofs.tri _ _ _.
  have -> : P0 = P0' by rewrite /P0 /P0' -lowerE; apply: factorE.
  by [].
split=> //; rewrite E1 ler_add2r; apply: ler_wpmul2l; first exact: ler0n.
set p := _ ^+ t.+1.
have p0 : 0 <= p by apply: exprn_ge0; apply: divr_ge0; exact: ler0n.
have p1 : p <= 1.
  apply: exprn_ile1; first by apply: divr_ge0; exact: ler0n.
  by rewrite ler_pdivr_mulr ?ltr0n // mul1r ler_nat.
have tri0 : 0 <= tri nx by apply: divr_ge0; [apply: mulr_ge0|]; exact: ler0n.
have q0 : 0 <= q.
  by apply: mulr_ge0; [apply: divr_ge0; exact: ler0n|apply: addr_ge0 => //; apply: divr_ge0; exact: ler0n].
have A0 : 0 <= nx%:R + tri nx by apply: addr_ge0 => //; exact: ler0n.
rewrite ler_add2r; apply: (@le_trans _ _ (p * (nx%:R + tri nx))).
  by apply: ler_wpmul2l => //; rewrite ler_subl_addr ler_addl.
by rewrite -[leRHS]mul1r; apply: ler_wpmul2r.
Qed.
Print Assumptions C74_second_moment.

(** The hypotheses hold for keys that are paths in the tree of splits, seeds uniform on [0,1], and arrays whose entries
    are waves of different frequencies (uncorrelated, mean 0, variance 1) or the seed itself. *)
Definition path_split (k : list (nat * nat)) (n : nat) : list (list (nat * nat)) :=
  List.map (fun i => (n, i) :: k) (List.seq 0 n).
Lemma path_nth k n i c : List.nth_error (path_split k n) i = Some c -> c = (n, i) :: k.
Proof.
move=> h; have lt : (i < n)%coq_nat.
  by have := nth_lt h; rewrite List.map_length List.seq_length.
have := List.nth_error_nth _ _ ((n, 0%N) :: k) h.
rewrite (List.map_nth (fun i => (n, i) :: k) (List.seq 0 n) 0%N i) List.seq_nth //.
Qed.
Lemma path_tree : key_tree path_split (@List.length _).
Proof.
split.
- by move=> k n; rewrite List.map_length List.seq_length.
- by move=> k n i k' n' i' c /path_nth -> /path_nth [_ -> ->].
- by move=> k n c h; have [i /path_nth ->] := List.In_nth_error _ _ h.
Qed.
Definition wave_normal (u : R) (m n : nat) : 'M[R]_(m, n) := \matrix_(i, j) wave (i * n + j)%N u.
Definition flat_uniform (u : R) (m n : nat) : 'M[R]_(m, n) := const_mx u.
Lemma wave_normal_ok m n : normal_moments uniform_mean uniform_good (fun u => wave_normal u m n).
Proof.
have EX (f g : R -> R) v : (forall u, f u = g u) -> RInt.is_RInt (V := Hierarchy.R_NormedModule) g 0 1 v -> uniform_good f /\ uniform_mean f = v.
  move=> /functional_extensionality -> h; split; first by exists v.
  by apply: (@RInt.is_RInt_unique Hierarchy.R_CompleteNormedModule).
move=> i j.
have WE k l u : wave_normal u m n k l = wave (k * n + l) u by rewrite mxE.
have [g1 e1] := EX (fun u => wave_normal u m n i j) _ _ (WE i j) (wave_mean (i * n + j)).
split=> // k l.
have [g2 e2] := EX (fun u => wave_normal u m n i j * wave_normal u m n k l) _ _ (fun u => f_equal2 Rmult (WE i j u) (WE k l u)) (wave_prod (i * n + j) (k * n + l)).
split=> //; rewrite e2 /delta; case: PeanoNat.Nat.eq_dec => e.
  have lj := ltn_ord j; have ll := ltn_ord l; have n0 : (0 < n)%N by exact: leq_ltn_trans lj.
  have ei : i = k :> nat by have := congr1 (fun x => x %/ n)%N e; rewrite !divnMDl // !divn_small // !addn0.
  have ej : j = l :> nat by move: e; rewrite ei => /addnI.
  by rewrite (ord_inj ei) (ord_inj ej) !eqxx.
by case: eqP => // ek; case: eqP => // el; case: e; rewrite ek el.
Qed.
Lemma flat_uniform_ok m n : uniform_entries uniform_mean uniform_good (fun u => flat_uniform u m n).
Proof.
move=> i j phi h; have -> : (fun u => phi (flat_uniform u m n i j)) = phi by apply: functional_extensionality => u; rewrite mxE.
by [].
Qed.
Example C74_hypotheses_met (seed : nat) (T : nat) :
  [/\ expectation_ok uniform_mean uniform_good, key_tree path_split (@List.length _),
      forall m n, normal_moments uniform_mean uniform_good (fun u => wave_normal u m n),
      forall n, uniform_entries uniform_mean uniform_good (fun u => flat_uniform u n n) &
      forall (w : list (nat * nat) -> R), (forall k, 0 < w k) -> (forall k, w k < 1) ->
      let: (m0, chol_P0, steps) := generate_lgssm (fun s => [:: (s, s)]) path_split (fun k => wave_normal (w k))
        (fun k => flat_uniform (w k)) seed 2 3 T in
      (forall i, chol_P0 i i <> 0) /\
      (forall s, List.In s steps -> (forall i, gQ s i i <> 0) /\ (forall i, gR s i i <> 0))].
Proof.
split; [exact: uniform_expectation_ok|exact: path_tree|exact: wave_normal_ok|by move=> n; exact: flat_uniform_ok|].
move=> w w0 w1; case E: generate_lgssm => [[m0 P0] steps].
have [kP [ke [km [kQ [kx [kc [kF [kR [ky [kd [kH [x [L nd [_ EP] Ex Hs]]]]]]]]]]]]] := C74_simulation path_tree E.
split; first by move=> i; rewrite EP !mxE leqnn; apply/eqP/lt0r_neq0.
move=> s hs; have [t Es] := List.In_nth_error _ _ hs; have [_ _ [-> ->] _ _] := Hs t s Es.
by split=> i; rewrite !mxE leqnn; apply/eqP/lt0r_neq0.
Qed.
