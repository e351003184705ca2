(** Multinomial resampling when a draw is 0. *)
From Coq Require Import Reals List Arith ZArith Bool Lia Lra Permutation.
From Verif Require Import Ext ScanModel DiscreteSpec Sums ResamplingModel ResamplingSpec ResamplingProofs ConditionalProofs
  KillingProofs ConditionalLaw ZeroDrawModel ZeroDrawSpec.
Import ListNotations.
Open Scope R_scope.

Notation neglog := (fun u => eopp (elog (Fin u))).
Lemma neglog_pos u : 0 < u -> neglog u = Fin (- ln u).
Proof. intros H. simpl. destruct (Rlt_dec 0 u); [reflexivity|lra]. Qed.
Lemma neglog_0 : neglog 0 = PInf.
Proof. simpl. destruct (Rlt_dec 0 0); [lra|]. destruct (Req_EM_T 0 0); [reflexivity|lra]. Qed.

Lemma cumsum_from_app s l m : cumsum_from s (l ++ m) = cumsum_from s l ++ cumsum_from (last (cumsum_from s l) s) m.
Proof.
  revert s. induction l as [|a l IH]; intros s; [reflexivity|]. simpl. f_equal. rewrite IH. do 2 f_equal.
  destruct (cumsum_from (eadd s a) l) eqn:E; [reflexivity|]. simpl. 
  destruct l0; [reflexivity|]. clear. revert e0. induction l0; intros; [reflexivity|]. simpl in *. apply IHl0.
Qed.
Lemma cumsum_fin us s : List.Forall (fun u => 0 < u) us ->
  cumsum_from (Fin s) (map neglog us) = map Fin (rcumsum_from s (map (fun u => - ln u) us)).
Proof.
  intros H. revert s. induction H as [|u us Hu _ IH]; intros s; [reflexivity|].
  cbn [map cumsum_from rcumsum_from]. rewrite (neglog_pos u Hu). cbn [eadd]. now rewrite IH.
Qed.
Lemma cumsum_inf us : List.Forall (fun u => 0 <= u) us ->
  cumsum_from PInf (map neglog us) = repeat PInf (length us).
Proof.
  induction 1 as [|u us Hu _ IH]; [reflexivity|]. cbn [map cumsum_from length repeat].
  replace (eadd PInf (neglog u)) with PInf; [now rewrite IH|].
  destruct Hu as [Hu| <-]; [now rewrite (neglog_pos u Hu)|now rewrite neglog_0].
Qed.
Lemma last_repeat {A} (a : A) n d : last (repeat a (S n)) d = a.
Proof. induction n; [reflexivity|]. exact IHn. Qed.
Lemma last_app_cons {A} (l : list A) a m d : last (l ++ a :: m) d = last (a :: m) d.
Proof. induction l as [|b l IH]; [reflexivity|]. simpl app. destruct (l ++ a :: m) eqn:E; [now destruct l|]. rewrite <- IH. reflexivity. Qed.
Lemma removelast_repeat {A} (a : A) n : removelast (repeat a (S n)) = repeat a n.
Proof. induction n; [reflexivity|]. cbn [repeat removelast] in *. now rewrite IHn. Qed.
Lemma map_repeat' {A B} (f : A -> B) a n : map f (repeat a n) = repeat (f a) n.
Proof. induction n; simpl; congruence. Qed.
Lemma last_fin l s : exists r, last (map Fin l) (Fin s) = Fin r.
Proof. induction l as [|a l IH]; [now exists s|]. destruct l; [now exists a|exact IH]. Qed.
Lemma map_const {A B} (f : A -> B) b l : (forall a, In a l -> f a = b) -> map f l = repeat b (length l).
Proof. induction l; simpl; intros H; [reflexivity|]. rewrite H by now left. f_equal. apply IHl. intros; apply H; now right. Qed.

(** the "sorted uniforms" when the first zero is at position [length us] *)
Lemma sorted_uniforms_zero us vs : List.Forall (fun u => 0 < u) us -> List.Forall (fun u => 0 <= u) vs ->
  sorted_uniforms_ext (us ++ 0 :: vs) = repeat (Fin 0) (length us) ++ repeat NaN (length vs).
Proof.
  intros Hu Hv. unfold sorted_uniforms_ext, cumsum. rewrite map_app, cumsum_from_app. cbn [map cumsum_from].
  rewrite neglog_0. set (s := last (cumsum_from (Fin 0) (map neglog us)) (Fin 0)). assert (Es : eadd s PInf = PInf).
  { unfold s. rewrite cumsum_fin by easy. destruct (last_fin (rcumsum_from 0 (map (fun u => - ln u) us)) 0) as (r & ->). reflexivity. }
  rewrite Es, cumsum_inf by easy. rewrite last_app_cons. change (PInf :: repeat PInf (length vs)) with (repeat PInf (S (length vs))).
  rewrite last_repeat, removelast_app by (cbn; discriminate). rewrite removelast_repeat, map_app, map_repeat'. f_equal.
  rewrite cumsum_fin by easy. rewrite map_map. cbn [ediv].
  rewrite (map_const _ (Fin 0)) by reflexivity. now rewrite rcumsum_length, map_length.
Qed.

Lemma split_at_zero us : List.Forall (fun u => 0 <= u) us -> In 0 us ->
  exists vs ws, us = vs ++ 0 :: ws /\ List.Forall (fun u => 0 < u) vs /\ List.Forall (fun u => 0 <= u) ws.
Proof.
  induction 1 as [|u us Hu H IH]; intros Hin; [easy|]. destruct (Req_EM_T u 0) as [->|Hne].
  - exists [], us. repeat split; [constructor|easy].
  - destruct Hin as [E|Hin]; [easy|]. destruct (IH Hin) as (vs & ws & -> & Hv & Hw).
    exists (u :: vs), ws. repeat split; [constructor; [lra|easy]|easy].
Qed.

(** ** CPU: every index is 0 *)
Lemma weights_head_nonneg l : let s := nth 0 (weights l) NaN in egtb (Fin 0) s = false /\ egtb NaN s = false.
Proof.
  assert (H : forall e, egtb (Fin 0) (eexp e) = false).
  { intros [x| | |]; simpl; try reflexivity; destruct Rlt_dec; try reflexivity.
    - pose proof (exp_pos x). lra.
    - lra. }
  destruct l as [|a l]; [split; reflexivity|]. simpl. split; [apply H|reflexivity].
Qed.
Lemma advance_stuck fuel u ws j s : egtb u s = false -> advance_ext fuel u ws j s = (j, s).
Proof. intros E. destruct fuel; simpl; [reflexivity|]. now rewrite E. Qed.
Lemma numba_stuck su ws s : (forall u, In u su -> egtb u s = false) ->
  numba_loop_ext su ws 0 s = repeat 0%nat (length su).
Proof.
  induction su as [|u su IH]; intros H; [reflexivity|]. simpl. rewrite advance_stuck by (apply H; now left).
  f_equal. apply IH. intros; apply H. now right.
Qed.
Lemma in_zeros_nans e a b : In e (repeat (Fin 0) a ++ repeat NaN b) -> e = Fin 0 \/ e = NaN.
Proof. intros H. apply in_app_or in H. destruct H as [H|H]; apply repeat_spec in H; auto. Qed.
Lemma cpu_collapse us l : List.Forall (fun u => 0 <= u) us -> In 0 us ->
  inverse_cdf_ext true (sorted_uniforms_ext us) l = repeat 0%nat (length us - 1).
Proof.
  intros H Hin. destruct (split_at_zero us H Hin) as (vs & ws & -> & Hv & Hw).
  rewrite sorted_uniforms_zero by easy. unfold inverse_cdf_ext, inverse_cdf_cpu_ext.
  destruct (weights_head_nonneg l) as (A & B). rewrite numba_stuck.
  - rewrite map_repeat'. f_equal. rewrite app_length, !repeat_length, app_length. simpl. lia.
  - intros u Hu. apply in_zeros_nans in Hu. destruct Hu as [->| ->]; assumption.
Qed.

(** ** Other platforms: the indices before the zero are 0, the others are the last particle *)
Lemma default_collapse us vs l : valid_logits l -> List.Forall (fun u => 0 < u) us -> List.Forall (fun u => 0 <= u) vs ->
  inverse_cdf_ext false (sorted_uniforms_ext (us ++ 0 :: vs)) l
  = repeat 0%nat (length us) ++ repeat (length l - 1)%nat (length vs).
Proof.
  intros V Hu Hv. rewrite sorted_uniforms_zero by easy. unfold inverse_cdf_ext, inverse_cdf_default_ext.
  rewrite map_app, !map_repeat', weights_length. f_equal; f_equal.
  - unfold searchsorted_ext. rewrite weights_valid by easy. change (map (fun i => Fin (wt l i)) (seq 0 (length l))) with (Fw (wt l) (length l)).
    rewrite cumsum_Fw, filter_map_length.
    replace (List.filter _ _) with (@nil nat); [reflexivity|]. symmetry. 
    assert (G : forall m, List.filter (fun a => sort_ltb (Fin (cdf (wt l) (S a))) (Fin 0)) m = []).
    { induction m as [|a m IH]; [reflexivity|]. cbn [List.filter]. rewrite IH. unfold sort_ltb, eltb, egtb.
      destruct Rlt_dec as [D|D]; [|reflexivity]. exfalso. 
      pose proof (cdf_mono (wt l) 0 (S a) (fun k => wt_nonneg l k V) ltac:(lia)) as C. rewrite cdf_0 in C. lra. }
    apply G.
  - unfold searchsorted_ext. rewrite weights_valid by easy. change (map (fun i => Fin (wt l i)) (seq 0 (length l))) with (Fw (wt l) (length l)).
    rewrite cumsum_Fw, filter_map_length. 
    assert (G : forall m, List.filter (fun a => sort_ltb (Fin (cdf (wt l) (S a))) NaN) m = m).
    { induction m as [|a m IH]; [reflexivity|]. change (a :: List.filter (fun a => sort_ltb (Fin (cdf (wt l) (S a))) NaN) m = a :: m). now rewrite IH. }
    rewrite G, seq_length. unfold clip. lia.
Qed.

(** ** Positive draws: the model agrees with the one in real arithmetic *)
Lemma sorted_uniforms_agree us n : length us = S n -> List.Forall (fun u => 0 < u < 1) us ->
  sorted_uniforms_ext us = map Fin (sorted_uniforms us).
Proof.
  intros Hl H. unfold sorted_uniforms_ext, sorted_uniforms, cumsum.
  assert (H' : List.Forall (fun u => 0 < u) us) by (eapply Forall_impl; [|exact H]; simpl; intros; lra).
  rewrite cumsum_fin by easy. set (z := rcumsum_from 0 _).
  assert (Lz : length z = S n) by (unfold z; now rewrite rcumsum_length, map_length).
  assert (EL : last (map Fin z) NaN = Fin (last z 0)).
  { rewrite !last_nth, map_length. rewrite (nth_indep _ NaN (Fin 0)) by (rewrite map_length; lia). apply map_nth. }
  rewrite EL. assert (ER : removelast (map Fin z) = map Fin (removelast z)).
  { clear. induction z as [|a z IH]; [reflexivity|]. destruct z; [reflexivity|]. cbn [map removelast] in *. now rewrite IH. }
  rewrite ER, !map_map. apply map_ext. intros a. cbn [ediv].
  destruct (Req_EM_T (last z 0) 0) as [E0|]; [|reflexivity]. exfalso.
  assert (P : List.Forall (fun x => 0 < x) (map (fun u => - ln u) us)).
  { rewrite Forall_forall in *. intros x Hx. apply in_map_iff in Hx. destruct Hx as (u & <- & Hx).
    specialize (H _ Hx). assert (L1 : ln u < ln 1) by (apply ln_increasing; lra). rewrite ln_1 in L1. lra. }
  rewrite last_nth, Lz in E0. replace (S n - 1)%nat with n in E0 by lia. unfold z in E0.
  rewrite rcumsum_nth in E0 by (rewrite map_length; lia).
  pose proof (psum_lt (map (fun u => - ln u) us) 0 (S n) P) as Q. rewrite map_length in Q. specialize (Q ltac:(lia)).
  simpl firstn at 1 in Q. cbn [lsum] in Q. lra.
Qed.
Lemma advance_agree fuel u ws j s : advance_ext fuel (Fin u) ws j s = advance fuel u ws j s.
Proof. revert j s. induction fuel; intros; simpl; [reflexivity|]. now rewrite IHfuel. Qed.
Lemma numba_agree su ws j s : numba_loop_ext (map Fin su) ws j s = numba_loop su ws j s.
Proof.
  revert j s. induction su as [|u su IH]; intros; simpl; [reflexivity|]. rewrite advance_agree.
  destruct (advance _ _ _ _ _). now rewrite IH.
Qed.
Lemma sort_ltb_fin c u : sort_ltb c (Fin u) = eltb c (Fin u).
Proof. destruct c; reflexivity. Qed.
Lemma inverse_cdf_agree cpu su l : inverse_cdf_ext cpu (map Fin su) l = inverse_cdf cpu su l.
Proof.
  destruct cpu; unfold inverse_cdf_ext, inverse_cdf.
  - unfold inverse_cdf_cpu_ext, inverse_cdf_cpu, inverse_cdf_numba. now rewrite numba_agree.
  - unfold inverse_cdf_default_ext, inverse_cdf_default. rewrite map_map. apply map_ext. intros u. f_equal.
    unfold searchsorted_ext, searchsorted. f_equal. induction (cumsum (weights l)) as [|c m IH]; [reflexivity|].
    cbn [List.filter]. now rewrite sort_ltb_fin, IH.
Qed.
Lemma multinomial_agree cpu {X} (dX : X) us perm l xs n : length us = S n -> List.Forall (fun u => 0 < u < 1) us ->
  multinomial_ext dX cpu us perm l xs n = multinomial_resampling dX cpu us perm l xs n.
Proof.
  intros Hl H. unfold multinomial_ext, multinomial_resampling. now rewrite (sorted_uniforms_agree us n), inverse_cdf_agree.
Qed.

(** ** Averages over generators *)
Lemma lsum_flat_map {A B} (f : B -> R) (g : A -> list B) l : lsum f (flat_map g l) = lsum (fun a => lsum f (g a)) l.
Proof. induction l; [reflexivity|]. cbn [flat_map lsum]. now rewrite lsum_app, IHl. Qed.
Lemma draws_length M k : length (draws M k) = (M ^ k)%nat.
Proof.
  induction k; [reflexivity|]. cbn [draws Nat.pow]. rewrite <- IHk. 
  assert (G : forall l : list R, length (flat_map (fun u => map (cons u) (draws M k)) l) = (length l * length (draws M k))%nat).
  { induction l as [|a l IH]; [reflexivity|]. cbn [flat_map length]. rewrite app_length, map_length, IH. lia. }
  rewrite G. unfold grid. now rewrite map_length, seq_length.
Qed.
Lemma average_S M k f : (0 < M)%nat ->
  average M (S k) f = lsum (fun u => average M k (fun us => f (u :: us))) (grid M) / INR M.
Proof.
  intros HM. unfold average. rewrite !draws_length. cbn [draws Nat.pow]. rewrite lsum_flat_map, mult_INR.
  rewrite (lsum_ext (fun a => lsum f (map (cons a) (draws M k))) (fun a => lsum (fun us => f (a :: us)) (draws M k))) by (intros; now rewrite lsum_map).
  rewrite lsum_div. field. assert (0 < INR M) by now apply lt_0_INR. split; [|lra].
  apply not_0_INR. apply Nat.pow_nonzero. lia.
Qed.
Lemma draws_in M k us : (0 < M)%nat -> In us (draws M k) -> length us = k /\ List.Forall (fun u => 0 <= u < 1) us.
Proof.
  intros HM. revert us. induction k; intros us H; cbn [draws] in H.
  - destruct H as [<-|[]]. split; [reflexivity|constructor].
  - apply in_flat_map in H. destruct H as (u & Hu & H). apply in_map_iff in H. destruct H as (r & <- & H).
    destruct (IHk _ H) as (A & B). split; [simpl; lia|]. constructor; [|easy].
    apply in_map_iff in Hu. destruct Hu as (i & <- & Hi). apply in_seq in Hi.
    assert (0 < INR M) by now apply lt_0_INR. pose proof (pos_INR i). assert (INR i < INR M) by (apply lt_INR; lia).
    split; [apply Rmult_le_pos; [lra|left; now apply Rinv_0_lt_compat]|]. apply Rmult_lt_reg_r with (INR M); [lra|].
    unfold Rdiv. rewrite Rmult_assoc, Rinv_l; lra.
Qed.

(** the average of a function that is [a] if some draw is 0 and [b] otherwise *)
Definition in_dec0 (us : list R) : {In 0 us} + {~ In 0 us} := in_dec Req_EM_T 0 us.
Lemma average_ext M k f g : (forall us, In us (draws M k) -> f us = g us) -> average M k f = average M k g.
Proof. intros H. unfold average. f_equal. now apply lsum_ext. Qed.
Lemma average_le M k f g : (forall us, In us (draws M k) -> f us <= g us) -> average M k f <= average M k g.
Proof.
  intros H. unfold average. unfold Rdiv. apply Rmult_le_compat_r.
  - destruct (length (draws M k)) eqn:E; [simpl; rewrite Rinv_0; lra|]. left. apply Rinv_0_lt_compat, lt_0_INR. lia.
  - revert H. generalize (draws M k). induction l; intros H; [simpl; lra|]. cbn [lsum].
    apply Rplus_le_compat; [apply H; now left|]. apply IHl. intros; apply H; now right.
Qed.
Lemma average_const M k c : (0 < M)%nat -> average M k (fun _ => c) = c.
Proof.
  intros HM. unfold average. assert (G : forall l : list (list R), lsum (fun _ => c) l = INR (length l) * c).
  { induction l as [|x l IH]; [simpl; ring|]. cbn [lsum length]. rewrite IH, S_INR. ring. }
  rewrite G, draws_length. field. apply not_0_INR. apply Nat.pow_nonzero. lia.
Qed.
Lemma average_zero M k a b : (0 < M)%nat ->
  average M k (fun us => if in_dec0 us then a else b) = a + (b - a) * (1 - / INR M) ^ k.
Proof.
  intros HM. assert (P : 0 < INR M) by now apply lt_0_INR. induction k.
  - unfold average. simpl. destruct (in_dec0 []) as [[]|_]. simpl. field.
  - rewrite average_S by easy. unfold grid. destruct M as [|M]; [lia|]. cbn [seq map lsum].
    rewrite (average_ext _ _ _ (fun _ => a)).
    2: { intros us _. destruct (in_dec0 _) as [|n]; [reflexivity|]. elim n. left. simpl. unfold Rdiv. ring. }
    rewrite average_const by easy.
    rewrite lsum_map. rewrite (lsum_ext _ (fun _ => a + (b - a) * (1 - / INR (S M)) ^ k)).
    + assert (G : forall c (l : list nat), lsum (fun _ => c) l = INR (length l) * c).
      { intros c. induction l as [|x l IH]; [simpl; ring|]. cbn [lsum length]. rewrite IH, S_INR. ring. }
      rewrite G, seq_length, <- tech_pow_Rmult. rewrite S_INR in *. pose proof (pos_INR M). field. lra.
    + intros i Hi. rewrite <- IHk. apply average_ext. intros us _. apply in_seq in Hi.
      assert (0 < INR i) by (apply lt_0_INR; lia). 
      destruct (in_dec0 (_ :: us)) as [I|I], (in_dec0 us) as [J|J]; try reflexivity.
      * destruct I as [E|I]; [|easy]. exfalso. assert (0 < INR i / INR (S M)) by (apply Rdiv_lt_0_compat; lra). lra.
      * elim I. now right.
Qed.
