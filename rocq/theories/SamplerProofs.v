(** Backward sampling: the reverse scan draws the backward recursion; its law as an affine map of the
    standard normal inputs. *)
From Coq Require Import Reals Lra Lia List.
From mathcomp Require Import all_ssreflect all_algebra.
From Verif Require Import RStruct MxBase ZmodTac KalmanModel GaussSpec KalmanSpec MvnProofs MvnProofs2
  KalmanProofs BayesProofs TriaExist ScanStep KalmanRuns SmootherProofs.
From Verif Require ScanModel ScanProofs DriverSpec DriverProofs.
Set Implicit Arguments.
Unset Strict Implicit.
Unset Printing Implicit Defensive.
Local Open Scope ring_scope.
Import GRing.Theory Num.Theory Order.Theory.

Ltac nlia :=
  repeat match goal with H : is_true (leq _ _) |- _ => apply (elimT ssrnat.leP) in H end;
  try match goal with |- is_true (leq _ _) => apply/ssrnat.leP end;
  change subn with Nat.sub in *; change addn with Nat.add in *; lia.

Lemma sampling_op_assoc n (a b c : SamplerScanElement n) :
  sampling_operator (sampling_operator a b) c = sampling_operator a (sampling_operator b c).
Proof.
by case: a b c => [? ?] [? ?] [? ?] /=; congr MkSam; rewrite ?mulmxDr !mulmxA ?addrA.
Qed.

Lemma rev_nth_error A (l : list A) t : (t < List.length l)%coq_nat ->
  List.nth_error (List.rev l) t = List.nth_error l (List.length l - S t)%coq_nat.
Proof.
move=> lt; case: l lt => [|a l] lt; first by rewrite /= in lt; lia.
rewrite (List.nth_error_nth' _ a); last by rewrite List.rev_length.
rewrite List.rev_nth //; symmetry; apply: List.nth_error_nth'; lia.
Qed.

Section Path.
Variable n : nat.
Implicit Types e : SamplerScanElement n.
(** scanning [e_0, ..., e_T] in reverse, with [e_T] constant *)
Lemma sampling_path (es : list (SamplerScanElement n)) e :
  sa_gain e = 0 ->
  let xs := List.map (@sa_sample n) (ScanModel.assoc_scan_rev (@sampling_operator n) (es ++ e :: nil)%list) in
  let T := List.length es in
  [/\ List.length xs = S T, List.nth_error xs T = Some (sa_sample e) &
   forall t a x', List.nth_error es t = Some a -> List.nth_error xs (S t) = Some x' ->
     List.nth_error xs t = Some (sa_gain a *m x' + sa_sample a)].
Proof.
move=> g0; rewrite /ScanModel.assoc_scan_rev List.rev_app_distr /=.
pose l := e :: List.rev es; rewrite -/l.
set xs := List.map _ _; set T := List.length es.
have ll : List.length l = S T by rewrite /l /= List.rev_length.
pose p := nat_rect (fun _ => 'cV[R]_n) (sa_sample e)
  (fun k v => if List.nth_error l (S k) is Some a then sa_gain a *m v + sa_sample a else v).
have H := ScanProofs.assoc_scan_interval (@sampling_operator n)
  (fun i j y => if i is S i' then sa_gain y *m p i' + sa_sample y = p (Nat.pred j)
                else sa_gain y = 0 /\ sa_sample y = p (Nat.pred j)) l.
have {}H t y : List.nth_error (ScanModel.assoc_scan (@sampling_operator n) l) t = Some y -> sa_sample y = p t.
  move=> Et; apply: (proj2 (H _ _ t y Et)).
  - move=> [|i] [|j] [|k] [Gx ex] [Gy ey] h1 h2 h3 /= h4 h5; try lia.
    + by move: h4 => [-> h4]; rewrite mulmx0 -h5 h4.
    + by rewrite -h5 -h4 mulmxDr mulmxA addrA.
  - move=> [|i] x /=; first by move=> [<-].
    by move=> Ex; rewrite Ex.
have lx : List.length xs = S T by rewrite /xs List.map_length List.rev_length ScanProofs.assoc_scan_length.
have xsE t : (t <= T)%coq_nat -> List.nth_error xs t = Some (p (T - t)%coq_nat).
  move=> lt; rewrite /xs List.nth_error_map rev_nth_error ScanProofs.assoc_scan_length ll; last lia.
  have -> : (S T - S t = T - t)%coq_nat by lia.
  have [y Ey] : exists y, List.nth_error (ScanModel.assoc_scan (@sampling_operator n) l) (T - t)%coq_nat = Some y.
    by apply: nth_ex; rewrite ScanProofs.assoc_scan_length; lia.
  by rewrite Ey /= (H _ _ Ey).
split=> //; first by rewrite xsE //; have -> : (T - T)%coq_nat = 0%N by lia.
move=> t a x' Ea; have lt := nth_lt Ea; rewrite -/T in lt.
rewrite -[X in X = Some x' -> _]/(List.nth_error xs (S t)) (xsE (S t)) ?(xsE t); try lia; case=> <-; congr Some.
have -> : (T - t)%coq_nat = S (T - S t)%coq_nat by lia.
rewrite /=.
by rewrite rev_nth_error -/T; [have -> : (T - S (T - S t)%coq_nat)%coq_nat = t by lia|lia]; rewrite Ea.
Qed.
End Path.

(** ** affine representation of a backward recursion driven by independent noises *)
Section Law.
Variables (n T : nat).
Variables (mT : 'cV[R]_n) (LT : 'M[R]_n) (E : nat -> 'M[R]_n) (g : nat -> 'cV[R]_n) (D : nat -> 'M[R]_n).
Let mk := nat_rect (fun _ => 'cV[R]_n) mT (fun k v => E (T - k.+1)%N *m v + g (T - k.+1)%N).
Let ak := nat_rect (fun _ => nat -> 'M[R]_n) (fun s => if s == T then LT else 0)
  (fun k A s => E (T - k.+1)%N *m A s + if s == (T - k.+1)%N then D (T - k.+1)%N else 0).
Definition law_mean t := mk (T - t).
Definition law_coef t := ak (T - t).
Definition law_cov t u : 'M[R]_n := \sum_(s < T.+1) law_coef t s *m (law_coef u s)^T.
Lemma sumD (t : nat) (M : 'M[R]_n) p (f : 'M[R]_n -> 'M[R]_(n, p)) : f 0 = 0 -> (t <= T)%N ->
  \sum_(s < T.+1) f (if (s : nat) == t then M else 0) = f M.
Proof.
move=> f0 tT; have lt : (t < T.+1)%N by [].
rewrite (bigD1 (Ordinal lt)) //= eqxx big1 ?addr0 // => s; rewrite -val_eqE /= => /negPf ->; exact: f0.
Qed.
Lemma subT t : (t < T)%N -> (T - t = (T - t.+1).+1)%N /\ (T - (T - t.+1).+1 = t)%N.
Proof. by move=> lt; split; nlia. Qed.
Lemma law_meanS t : (t < T)%N -> law_mean t = E t *m law_mean t.+1 + g t.
Proof. by move=> lt; rewrite /law_mean; have [-> e] := subT lt; rewrite /= e. Qed.
Lemma law_meanT : law_mean T = mT.
Proof. by rewrite /law_mean subnn. Qed.
Lemma law_coefS t s : (t < T)%N -> law_coef t s = E t *m law_coef t.+1 s + if s == t then D t else 0.
Proof. by move=> lt; rewrite /law_coef; have [-> e] := subT lt; rewrite /= e. Qed.
Lemma law_coefT s : law_coef T s = if s == T then LT else 0.
Proof. by rewrite /law_coef subnn. Qed.
Lemma law_coef0 s t : (s < t)%N -> (t <= T)%N -> law_coef t s = 0.
Proof.
move=> st tT; rewrite -(subKn tT); have : (s < T - (T - t))%N by rewrite subKn.
move: (T - t)%N (leq_subr t T) => k; elim: k => [|k IH] kT sk.
  by rewrite subn0 law_coefT ltn_eqF //; nlia.
have lt : (T - k.+1 < T)%N by nlia.
rewrite (law_coefS _ lt) ltn_eqF // addr0.
have -> : (T - k.+1).+1 = (T - k)%N by nlia.
by rewrite IH ?mulmx0 //; nlia.
Qed.
Lemma law_covT : law_cov T T = cov LT.
Proof.
rewrite /law_cov; under eq_bigr => s _ do rewrite law_coefT.
by rewrite (sumD LT (f := fun X => X *m X^T)) ?mul0mx.
Qed.
Lemma law_cov_lt t u : (t < u)%N -> (u <= T)%N -> law_cov t u = E t *m law_cov t.+1 u.
Proof.
move=> tu uT; have lt : (t < T)%N by nlia.
rewrite /law_cov; under eq_bigr => s _ do rewrite (law_coefS _ lt) mulmxDl.
rewrite big_split /= mulmx_sumr.
rewrite [X in _ + X]big1 ?addr0; first by apply: eq_bigr => s _; rewrite mulmxA.
by move=> s _; case: eqP => [->|_]; rewrite ?mul0mx // (law_coef0 tu uT) trmx0 mulmx0.
Qed.
Lemma law_covS t : (t < T)%N -> law_cov t t = E t *m law_cov t.+1 t.+1 *m (E t)^T + cov (D t).
Proof.
move=> lt; rewrite /law_cov.
under eq_bigr => s _ do rewrite (law_coefS _ lt).
have step (s : 'I_T.+1) : true -> (E t *m law_coef t.+1 s + (if (s : nat) == t then D t else 0))
    *m (E t *m law_coef t.+1 s + (if (s : nat) == t then D t else 0))^T
  = E t *m (law_coef t.+1 s *m (law_coef t.+1 s)^T) *m (E t)^T + cov (if (s : nat) == t then D t else 0).
  move=> _; case: eqP => [->|_]; first by rewrite (law_coef0 (ltnSn t)) // !mul0mx !mulmx0 !mul0mx !add0r.
  by rewrite addr0 /cov mul0mx addr0 trmx_mul !mulmxA.
rewrite (eq_bigr _ step) big_split /= mulmx_sumr mulmx_suml; congr (_ + _).
by rewrite (sumD (D t) (f := fun X => cov X)) //; [rewrite /cov mul0mx|exact: ltnW].
Qed.
Lemma law_path (x eps : nat -> 'cV[R]_n) :
  x T = mT + LT *m eps T -> (forall t, (t < T)%N -> x t = E t *m x t.+1 + g t + D t *m eps t) ->
  forall t, (t <= T)%N -> x t = law_mean t + \sum_(s < T.+1) law_coef t s *m eps s.
Proof.
move=> xT xS t tT; rewrite -(subKn tT); move: (T - t)%N (leq_subr t T) => k; elim: k => [|k IH] kT.
  rewrite subn0 xT law_meanT; congr (_ + _); under eq_bigr => s _ do rewrite law_coefT.
  rewrite (bigD1 ord_max) //= eqxx big1 ?addr0 // => s; rewrite -val_eqE /= => /negPf ->; exact: mul0mx.
have lt : (T - k.+1 < T)%N by nlia.
have e : (T - k.+1).+1 = (T - k)%N by nlia.
rewrite (xS _ lt) (law_meanS lt) e IH; last exact: ltnW.
under [in RHS]eq_bigr => s _ do rewrite (law_coefS _ lt) mulmxDl.
rewrite big_split /= mulmxDr mulmx_sumr e -!addrA; congr (_ + _).
rewrite addrCA; congr (_ + _); congr (_ + _); first by apply: eq_bigr => s _; rewrite mulmxA.
have lt' : (T - k.+1 < T.+1)%N by nlia.
rewrite (bigD1 (Ordinal lt')) //= eqxx big1 ?addr0 // => s; rewrite -val_eqE /= => /negPf ->; exact: mul0mx.
Qed.
End Law.

(** ** the library's sampler *)
Section Sampler.
Variable tria : forall m l : nat, 'M[R]_(m, l) -> 'M[R]_m.
Hypothesis tria_spec : tria_ok tria.
Variable n : nat.
(** filtering mean and factor, then the transition parameters *)
Definition sparams := ('cV[R]_n * 'M[R]_n * 'M[R]_n * 'cV[R]_n * 'M[R]_n)%type.
(** attach the standard normal draw of each time *)
Fixpoint with_eps (eps : nat -> 'cV[R]_n) (t : nat) (ps : list sparams) :=
  match ps with
  | nil => nil
  | (m, L, F, c, Lq) :: rest => (m, L, F, c, Lq, eps t) :: with_eps eps t.+1 rest
  end.
Definition sampled ps mT LT eps : list 'cV[R]_n :=
  List.map (@sa_sample n) (ScanModel.assoc_scan_rev (@sampling_operator n)
    (sqrt_associative_params tria (with_eps eps 0 ps) mT LT (eps (List.length ps)))).
Lemma with_eps_length eps t ps : List.length (with_eps eps t ps) = List.length ps.
Proof. by elim: ps t => //= -[[[[m L] F] c] Lq] ps IH t /=; rewrite IH. Qed.
Lemma with_eps_nth eps t ps i m L F c Lq : List.nth_error ps i = Some (m, L, F, c, Lq) ->
  List.nth_error (with_eps eps t ps) i = Some (m, L, F, c, Lq, eps (t + i)%N).
Proof.
elim: ps t i => [|[[[[? ?] ?] ?] ?] ps IH] t [|i] //=; first by move=> [-> -> -> -> ->]; rewrite addn0.
by move=> /IH ->; rewrite addnS.
Qed.
Lemma sampled_path ps mT LT eps :
  let xs := sampled ps mT LT eps in let T := List.length ps in
  [/\ List.length xs = S T, List.nth_error xs T = Some (mT + LT *m eps T) &
   forall t m L F c Lq x', List.nth_error ps t = Some (m, L, F, c, Lq) -> List.nth_error xs (S t) = Some x' ->
     let e := smoother_params tria m L F c Lq in
     List.nth_error xs t = Some (sE e *m x' + sg e + sD e *m eps t)].
Proof.
move=> xs T; rewrite /xs /sampled /sqrt_associative_params.
have [h1 h2 h3] := sampling_path
  [seq (let: (m, chol_P, F, c, chol_Q, e) := s in sampler_params_interm tria m chol_P F c chol_Q e) | s <- with_eps eps 0 ps]
  (erefl : sa_gain (sampler_params_final mT LT (eps T)) = 0).
have le : List.length [seq (let: (m, chol_P, F, c, chol_Q, e) := s in sampler_params_interm tria m chol_P F c chol_Q e) | s <- with_eps eps 0 ps] = T.
  by rewrite List.map_length with_eps_length.
rewrite le in h1 h2; split=> // t m L F c Lq x' Ep Ex'; set e := smoother_params _ _ _ _ _ _.
rewrite (h3 t (sampler_params_interm tria m L F c Lq (eps t)) x' _ Ex').
  rewrite /sampler_params_interm -/e /=; case: e => g E D /=; by rewrite addrA.
by rewrite List.nth_error_map (with_eps_nth _ _ Ep).
Qed.
(** C20 *)
Lemma sampled_rts ps mT LT eps :
  (forall t m L F c Lq, List.nth_error ps t = Some (m, L, F, c, Lq) -> rts_pred (cov L) F (cov Lq) \in unitmx) ->
  let xs := sampled ps mT LT eps in let T := List.length ps in
  [/\ List.length xs = S T, List.nth_error xs T = Some (mT + LT *m eps T) &
   forall t m L F c Lq x', List.nth_error ps t = Some (m, L, F, c, Lq) -> List.nth_error xs (S t) = Some x' ->
     exists D, [/\ is_trig_mx D, cov D = rts_cond_cov (cov L) F (cov Lq) &
       List.nth_error xs t = Some (rts_mean m (cov L) F c (cov Lq) x' + D *m eps t)]].
Proof.
move=> reg xs T; have [h1 h2 h3] := sampled_path ps mT LT eps.
split=> // t m L F c Lq x' Ep Ex'.
have [p1 p2 p3 p4] := smoother_paramsE (c := c) (m := m) tria_spec (reg _ _ _ _ _ _ Ep) erefl.
exists (sD (smoother_params tria m L F c Lq)); split=> //.
rewrite /xs (h3 _ _ _ _ _ _ _ Ep Ex') p1 p2 /rts_mean; congr Some; congr (_ + _).
by rewrite mulmxBr addrCA.
Qed.
Lemma sampled_law ps mT LT :
  (forall t m L F c Lq, List.nth_error ps t = Some (m, L, F, c, Lq) -> rts_pred (cov L) F (cov Lq) \in unitmx) ->
  let T := List.length ps in
  exists (ms : nat -> 'cV[R]_n) (A : nat -> nat -> 'M[R]_n),
  let C t u := \sum_(s < T.+1) A t s *m (A u s)^T in
  [/\ (forall eps t, (t <= T)%N ->
         List.nth_error (sampled ps mT LT eps) t = Some (ms t + \sum_(s < T.+1) A t s *m eps s)),
      ms T = mT, C T T = cov LT &
   forall t m L F c Lq, List.nth_error ps t = Some (m, L, F, c, Lq) ->
     [/\ ms t = rts_mean m (cov L) F c (cov Lq) (ms t.+1),
         C t t = rts_cov (cov L) F (cov Lq) (C t.+1 t.+1) &
         forall u, (t < u)%N -> (u <= T)%N -> C t u = rts_gain (cov L) F (cov Lq) *m C t.+1 u]].
Proof.
move=> reg T.
pose e t := if List.nth_error ps t is Some (m, L, F, c, Lq) then smoother_params tria m L F c Lq else MkSSE 0 0 0.
pose E t := sE (e t); pose g t := sg (e t); pose D t := sD (e t).
exists (law_mean T mT E g), (law_coef T LT E D) => C.
have CE t u : C t u = law_cov T LT E D t u by [].
split.
- move=> eps t tT; pose x u := if List.nth_error (sampled ps mT LT eps) u is Some v then v else 0.
  have [h1 h2 h3] := sampled_path ps mT LT eps.
  have xE u : (u <= T)%N -> List.nth_error (sampled ps mT LT eps) u = Some (x u).
    move=> uT; have [v Ev] : exists v, List.nth_error (sampled ps mT LT eps) u = Some v.
      by apply: nth_ex; rewrite h1 -/T; nlia.
    by rewrite /x Ev.
  rewrite (xE _ tT); congr Some.
  apply: (law_path (D := D)) => //.
    by move: h2; rewrite (xE _ (leqnn _)) => -[->].
  move=> u uT; have [[[[[m L] F] c] Lq] Eu] : exists p, List.nth_error ps u = Some p by apply: nth_ex; rewrite -/T; nlia.
  have := h3 _ _ _ _ _ _ _ Eu (xE _ uT); rewrite (xE _ (ltnW uT)) => -[->].
  by rewrite /E /g /D /e Eu.
- exact: law_meanT.
- by rewrite CE law_covT.
- move=> t m L F c Lq Ep.
  have tT : (t < T)%N by have := nth_lt Ep; rewrite -/T => h; nlia.
  have [p1 p2 p3 p4] := smoother_paramsE (c := c) (m := m) tria_spec (reg _ _ _ _ _ _ Ep) erefl.
  have eE : e t = smoother_params tria m L F c Lq by rewrite /e Ep.
  have E1 : E t = rts_gain (cov L) F (cov Lq) by rewrite /E eE p1.
  have E2 : g t = m - rts_gain (cov L) F (cov Lq) *m (F *m m + c) by rewrite /g eE p2.
  have E3 : cov (D t) = rts_cond_cov (cov L) F (cov Lq) by rewrite /D eE p4.
  split.
  + by rewrite law_meanS // E1 E2 /rts_mean mulmxBr addrCA.
  + by rewrite !CE law_covS // E1 E3 /rts_cov /rts_cond_cov mulmxBr mulmxBl; zmod.
  + by move=> u tu uT; rewrite !CE law_cov_lt // E1.
Qed.
End Sampler.

(** ** the two-step smoothing factor of the README *)
Section Joint.
Variable n : nat.
Variables (L' V G : 'M[R]_n).
Definition joint_factor : 'M[R]_(n + n) := block_mx L' 0 (G *m L') V.
Lemma joint_cov : cov joint_factor
  = block_mx (cov L') (cov L' *m G^T) (G *m cov L') (G *m cov L' *m G^T + cov V).
Proof.
rewrite /cov /joint_factor tr_block_mx mulmx_block !trmx0 !mul0mx !mulmx0 !addr0.
by rewrite trmx_mul !mulmxA.
Qed.
(** density of the stacked pair (x_{t+1}, x_t) *)
Lemma joint_density (x' x m' m : 'cV[R]_n) : L' \in unitmx -> V \in unitmx ->
  gauss (col_mx x' x) (col_mx m' m) (cov joint_factor)
  = gauss x' m' (cov L') + gauss x (G *m x' + (m - G *m m')) (cov V).
Proof.
move=> uL uV.
have Ji : joint_factor *m block_mx (invmx L') 0 (- (invmx V *m G)) (invmx V) = 1%:M.
  rewrite /joint_factor mulmx_block !mul0mx !mulmx0 !addr0 !add0r mulmxV // mulmxV // mulmxN mulmxA mulmxV //.
  by rewrite mul1mx mulmxK // subrr -scalar_mx_block.
have [uJ _] := mulmx1_unit Ji.
rewrite /gauss opp_col_mx add_col_mx !mahalanobis_chol // (invmx_uniq Ji).
rewrite mul_block_col mul0mx addr0.
have -> : - (invmx V *m G) *m (x' - m') + invmx V *m (x - m) = invmx V *m (x - (G *m x' + (m - G *m m'))).
  by mxzmod.
rewrite {1}/dot tr_col_mx mul_row_col [in LHS]mxE -!/(dot _ _) natrD.
have dJ : \det (cov joint_factor) = \det (cov L') * \det (cov V).
  by rewrite /cov !det_mulmx !det_tr /joint_factor det_lblock; rewrite mulrACA.
rewrite dJ (lnM (det_gram_pos uL) (det_gram_pos uV)).
by move: (ln _) (ln _) (ln _) (dot _ _) (dot _ _) => ? ? ? ? ?; toR; field.
Qed.
End Joint.
