(** Two linear Gaussian models related by a pair of linear maps have related Kalman recursions: the common
    core of the product and change-of-coordinates theorems. *)
From Coq Require Import Reals Lra Lia List.
From mathcomp Require Import all_ssreflect all_algebra.
From Verif Require Import RStruct MxBase ZmodTac KalmanModel GaussSpec KalmanSpec LinearizeProofs2 LinearFilter.
Set Implicit Arguments.
Unset Strict Implicit.
Unset Printing Implicit Defensive.
Local Open Scope ring_scope.
Import GRing.Theory Num.Theory Order.Theory.

(** the inverse of the observed block, padded with zeros *)
Definition mask n (y : 'cV[option R]_n) : 'M[R]_n := (Sel y)^T *m Sel y.
Definition pinv n (y : 'cV[option R]_n) (S : 'M[R]_n) : 'M[R]_n :=
  (Sel y)^T *m invmx (Sel y *m S *m (Sel y)^T) *m Sel y.

Section Padded.
Variables (n : nat) (y : 'cV[option R]_n).
Lemma maskE : mask y = \matrix_(i, j) ((i == j) && isSome (y i ord0))%:R.
Proof.
apply/matrixP => i j; rewrite [RHS]mxE.
case E: (y i ord0) => [r|]; last by rewrite SelT_missing // andbF.
have [|a ea] := @sel_exists _ y i; first by rewrite E.
by rewrite -[in LHS]ea SelT_mul SelE ea /= andbT.
Qed.
Lemma Sel_mask : Sel y *m mask y = Sel y.
Proof. by rewrite /mask mulmxA SelSelT mul1mx. Qed.
Lemma mask_SelT : mask y *m (Sel y)^T = (Sel y)^T.
Proof. by rewrite /mask -mulmxA SelSelT mulmx1. Qed.
Variable S : 'M[R]_n.
Lemma pinv_maskr : pinv y S *m mask y = pinv y S.
Proof. by rewrite /pinv -[LHS]mulmxA Sel_mask. Qed.
Lemma pinv_maskl : mask y *m pinv y S = pinv y S.
Proof. by rewrite /pinv !mulmxA mask_SelT. Qed.
Hypothesis u : Sel y *m S *m (Sel y)^T \in unitmx.
Lemma pinvL : pinv y S *m S *m mask y = mask y.
Proof. by rewrite /pinv /mask -!mulmxA (mulmxA S) (mulmxA (Sel y) (S *m _)) (mulmxA (Sel y) S) (mulmxA (invmx _)) mulVmx // mul1mx. Qed.
Lemma pinvR : mask y *m S *m pinv y S = mask y.
Proof. by rewrite /pinv /mask -!mulmxA (mulmxA S) (mulmxA (Sel y) (S *m _)) (mulmxA (Sel y) S) (mulmxA _ (invmx _)) mulmxV // mul1mx. Qed.
End Padded.

Lemma innovE nx ny (P : 'M[R]_nx) (H : 'M[R]_(ny, nx)) (Rn : 'M[R]_ny) (y : 'cV[option R]_ny) :
  innovation_cov P (obs_rows y H) (obs_block y Rn) = Sel y *m (H *m P *m H^T + Rn) *m (Sel y)^T.
Proof. by rewrite /innovation_cov obs_blockE -Sel_mul trmx_mul mulmxDr mulmxDl !mulmxA. Qed.
Lemma obs_valuesE n (y : 'cV[option R]_n) : obs_values y = Sel y *m map_mx value y.
Proof. by rewrite Sel_mul; apply/matrixP => a j; rewrite !mxE [j]ord1. Qed.
Section Cond.
Variables (nx ny : nat) (m : 'cV[R]_nx) (P : 'M[R]_nx) (H : 'M[R]_(ny, nx)) (d : 'cV[R]_ny) (Rn : 'M[R]_ny) (y : 'cV[option R]_ny).
Let W := pinv y (H *m P *m H^T + Rn).
Lemma cond_meanE : cond_mean m P (obs_rows y H) (obs_rows y d) (obs_block y Rn) (obs_values y)
  = m + P *m H^T *m W *m (map_mx value y - (H *m m + d)).
Proof.
rewrite /cond_mean /kalman_gain innovE /W /pinv obs_valuesE -!Sel_mul; congr (_ + _).
by rewrite -(mulmxA (Sel y) H m) -mulmxDr -mulmxBr trmx_mul !mulmxA.
Qed.
Lemma cond_covE : cond_cov P (obs_rows y H) (obs_block y Rn) = P - P *m H^T *m W *m H *m P.
Proof. by rewrite /cond_cov /kalman_gain innovE /W /pinv -!Sel_mul trmx_mul -!mulmxA. Qed.
End Cond.

Lemma inter_inv n n' (M W S : 'M[R]_n) (M' W' S' : 'M[R]_n') (V V' : 'M[R]_(n', n)) :
  V *m M = M' *m V -> V' *m M = M' *m V' -> V *m S = S' *m V' ->
  W' *m M' = W' -> M *m W = W -> M *m S *m W = M -> W' *m S' *m M' = M' -> V' *m W = W' *m V.
Proof.
move=> kV kV' rS wm mw h h'.
have <- : W' *m V *m S *m W = W' *m V.
  have e : W' *m V = W' *m V *m M by rewrite -{1}wm -(mulmxA W') -kV mulmxA.
  by rewrite [in RHS]e -h !mulmxA -e.
rewrite -(mulmxA W' V) rS -{2}mw !mulmxA.
have -> : W' *m S' *m V' *m M = W' *m S' *m M' *m V' by rewrite -!mulmxA kV'.
by rewrite h' -kV' -mulmxA mw.
Qed.
Section Maps.
Variables nx nx' ny ny' : nat.
Variables U U' : 'M[R]_(nx', nx).
Definition rel_belief (b : belief nx) (b' : belief nx') : Prop :=
  U *m bmean b = bmean b' /\ U *m bcov b = bcov b' *m U'.
(** [V] and [V'] may change from step to step *)
Definition rel_step (V V' : 'M[R]_(ny', ny)) (s : lgstep nx ny) (s' : lgstep nx' ny') : Prop :=
  [/\ [/\ U *m lF s = lF s' *m U, U' *m (lF s)^T = (lF s')^T *m U', U *m lc s = lc s' & U *m lQ s = lQ s' *m U'],
      [/\ V *m lH s = lH s' *m U, U' *m (lH s)^T = (lH s')^T *m V', V *m ld s = ld s' & V *m lR s = lR s' *m V'] &
      [/\ V *m mask (ly s) = mask (ly s') *m V, V' *m mask (ly s) = mask (ly s') *m V' &
          V *m map_mx value (ly s) = map_mx value (ly s')]].
Definition Sfull n m (b : belief n) (s : lgstep n m) : 'M[R]_m := lH s *m pred_cov b s *m (lH s)^T + lR s.

Lemma rel_pred V V' b b' s s' : rel_belief b b' -> rel_step V V' s s' ->
  U *m pred_mean b s = pred_mean b' s' /\ U *m pred_cov b s = pred_cov b' s' *m U'.
Proof.
move=> [rm rP] [[rF rF' rc rQ] _ _]; rewrite /pred_mean /pred_cov; split.
  by rewrite mulmxDr rc mulmxA rF -mulmxA rm.
by rewrite mulmxDr mulmxDl rQ !mulmxA rF -(mulmxA _ U) rP -!mulmxA rF'.
Qed.
Lemma rel_S V V' b b' s s' : rel_belief b b' -> rel_step V V' s s' ->
  V *m Sfull b s = Sfull b' s' *m V'.
Proof.
move=> rb rs; have [rm rP] := rel_pred rb rs; case: rs => _ [rH rH' rd rR] _.
by rewrite /Sfull mulmxDr mulmxDl rR !mulmxA rH -(mulmxA _ U) rP -!mulmxA rH'.
Qed.
Lemma rel_W V V' b b' s s' : rel_belief b b' -> rel_step V V' s s' ->
  Sel (ly s) *m Sfull b s *m (Sel (ly s))^T \in unitmx ->
  Sel (ly s') *m Sfull b' s' *m (Sel (ly s'))^T \in unitmx ->
  V' *m pinv (ly s) (Sfull b s) = pinv (ly s') (Sfull b' s') *m V.
Proof.
move=> rb rs u u'; have rS := rel_S rb rs; case: rs => _ _ [kV kV' _].
by apply: (inter_inv kV kV' rS); [exact: pinv_maskr|exact: pinv_maskl|exact: pinvR|exact: pinvL].
Qed.
Lemma rel_kf_step V V' b b' s s' : rel_belief b b' -> rel_step V V' s s' ->
  innovation_cov (pred_cov b s) (obsH s) (obsR s) \in unitmx ->
  innovation_cov (pred_cov b' s') (obsH s') (obsR s') \in unitmx ->
  rel_belief (kf_step b s) (kf_step b' s').
Proof.
rewrite /obsH /obsR !innovE => rb rs u u'; have rW := rel_W rb rs u u'.
have [rm rP] := rel_pred rb rs; case: (rs) => _ [rH rH' rd rR] [kV kV' ry].
split; rewrite /= /obsH /obsR /obsd /obsy ?cond_meanE ?cond_covE -!/(Sfull _ _); move: (pinv _ _) (pinv _ _) rW => W W' rW.
  rewrite mulmxDr rm; congr (_ + _).
  rewrite !mulmxA rP -(mulmxA _ U') rH' -!mulmxA (mulmxA V') rW -!mulmxA; do 3!congr (_ *m _).
  by rewrite mulmxBr mulmxDr ry rd mulmxA rH -mulmxA rm.
rewrite mulmxBr mulmxBl rP; congr (_ - _).
rewrite !mulmxA rP -(mulmxA _ U') rH' -!mulmxA (mulmxA V') rW -!mulmxA; do 3!congr (_ *m _).
by rewrite mulmxA rH -mulmxA rP.
Qed.
End Maps.

(** smoothing *)
Section Rts.
Variables (n n' : nat) (U U' : 'M[R]_(n', n)).
Variables (m : 'cV[R]_n) (P F : 'M[R]_n) (c : 'cV[R]_n) (Q : 'M[R]_n).
Variables (m' : 'cV[R]_n') (P' F' : 'M[R]_n') (c' : 'cV[R]_n') (Q' : 'M[R]_n').
Hypotheses (rm : U *m m = m') (rP : U *m P = P' *m U') (rF : U *m F = F' *m U) (rF' : U' *m F^T = F'^T *m U')
  (rc : U *m c = c') (rQ : U *m Q = Q' *m U').
Hypotheses (u : rts_pred P F Q \in unitmx) (u' : rts_pred P' F' Q' \in unitmx).
Lemma rel_rts_pred : U *m rts_pred P F Q = rts_pred P' F' Q' *m U'.
Proof. by rewrite /rts_pred mulmxDr mulmxDl rQ !mulmxA rF -(mulmxA _ U) rP -!mulmxA rF'. Qed.
Lemma rel_rts_inv : U' *m invmx (rts_pred P F Q) = invmx (rts_pred P' F' Q') *m U.
Proof.
rewrite -[LHS]mul1mx -(mulVmx u') -!mulmxA; congr (_ *m _).
by rewrite mulmxA -rel_rts_pred -mulmxA mulmxV // mulmx1.
Qed.
Lemma rel_rts_gain : U *m rts_gain P F Q = rts_gain P' F' Q' *m U.
Proof. by rewrite /rts_gain !mulmxA rP -(mulmxA _ U') rF' -!mulmxA rel_rts_inv. Qed.
Lemma rel_rts_mean x x' : U *m x = x' -> U *m rts_mean m P F c Q x = rts_mean m' P' F' c' Q' x'.
Proof.
move=> rx; rewrite /rts_mean mulmxDr rm mulmxA rel_rts_gain -mulmxA.
have -> : U *m (x - (F *m m + c)) = x' - (F' *m m' + c') => //.
by rewrite mulmxBr rx mulmxDr rc (mulmxA U F) rF -mulmxA rm.
Qed.
Hypotheses (sP : P^T = P) (sQ : Q^T = Q) (sP' : P'^T = P') (sQ' : Q'^T = Q').
Lemma rts_predT k (X : 'M[R]_k) (G : 'M[R]_k) (Y : 'M[R]_k) : X^T = X -> Y^T = Y -> (rts_pred X G Y)^T = rts_pred X G Y.
Proof. by move=> sX sY; rewrite /rts_pred linearD /= !trmx_mul trmxK sX sY mulmxA. Qed.
Lemma rts_gainT k (X : 'M[R]_k) (G : 'M[R]_k) (Y : 'M[R]_k) : X^T = X -> Y^T = Y ->
  (rts_gain X G Y)^T = invmx (rts_pred X G Y) *m G *m X.
Proof. by move=> sX sY; rewrite /rts_gain !trmx_mul trmxK sX trmx_inv rts_predT // mulmxA. Qed.
Lemma rel_rts_cov X X' : U *m X = X' *m U' -> U *m rts_cov P F Q X = rts_cov P' F' Q' X' *m U'.
Proof.
move=> rX; have rG : U' *m (rts_gain P F Q)^T = (rts_gain P' F' Q')^T *m U'.
  by rewrite !rts_gainT // !mulmxA rel_rts_inv -(mulmxA _ U F) rF -!mulmxA rP.
rewrite /rts_cov mulmxDr mulmxDl rP; congr (_ + _).
move: (rts_gain P F Q) (rts_gain P' F' Q') rel_rts_gain rG => g g' rg rG.
by rewrite !mulmxA rg -(mulmxA _ U) mulmxBr rX rel_rts_pred -mulmxBl -!mulmxA rG.
Qed.
End Rts.
