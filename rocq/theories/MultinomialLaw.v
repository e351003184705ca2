(** The law of the indices of multinomial resampling. *)
From Coq Require Import Reals List Arith Bool Lia Lra Permutation.
From Coquelicot Require Import Coquelicot.
From Verif Require Import Ext DiscreteSpec Sums ResamplingModel ResamplingSpec ResamplingProofs
  ConditionalProofs SystematicProofs ConditionalLaw IterSpec Iter Spacings.
Import ListNotations.
Open Scope R_scope.

Lemma neg_app a b : neg (a ++ b) = neg a + neg b.
Proof. unfold neg. apply lsum_app. Qed.
Lemma neg_pos us : us <> [] -> inside us -> 0 < neg us.
Proof.
  intros Hne Hi. destruct us as [|u us]; [easy|]. inversion Hi as [|? ? Hu Hr]; subst. unfold neg. cbn [lsum].
  pose proof (ln_neg u Hu). assert (0 <= lsum (fun u => - ln u) us); [|lra].
  apply lsum_nonneg. intros v Hv. unfold inside in Hr. rewrite Forall_forall in Hr. pose proof (ln_neg v (Hr v Hv)). lra.
Qed.
Lemma su_nth us n j : length us = S n -> (j < n)%nat ->
  nth j (sorted_uniforms us) 0 = neg (firstn (S j) us) / neg us.
Proof.
  intros Hl Hj. unfold sorted_uniforms. set (z := rcumsum_from 0 (map (fun u => - ln u) us)).
  assert (Lz : length z = S n) by (unfold z; now rewrite rcumsum_length, map_length).
  assert (Nz : forall k, (k < S n)%nat -> nth k z 0 = neg (firstn (S k) us)).
  { intros k Hk. unfold z. rewrite rcumsum_nth by (rewrite map_length; lia). rewrite firstn_map, lsum_map. unfold neg. ring. }
  rewrite last_nth, Lz. replace (S n - 1)%nat with n by lia. rewrite (Nz n) by lia.
  replace (firstn (S n) us) with us by (rewrite <- Hl; now rewrite firstn_all).
  rewrite (nth_indep _ 0 (0 / neg us)) by (rewrite map_length, removelast_length; lia).
  rewrite (map_nth (fun x => x / neg us)), removelast_nth' by lia. now rewrite Nz by lia.
Qed.
(** indicator that the [j]-th sorted uniform is at most [x] *)
Definition hits (x : R) (j : nat) (us : list R) : R := if Rle_dec (nth j (sorted_uniforms us) 0) x then 1 else 0.
Lemma hits_chi x n j us : length us = S n -> inside us -> (j < n)%nat -> hits x j us = chi x (S j) 0 us.
Proof.
  intros Hl Hi Hj. unfold hits, chi. rewrite (su_nth us n) by easy.
  assert (P : 0 < neg us) by (apply neg_pos; [intros ->; discriminate|exact Hi]).
  assert (E : neg us = neg (firstn (S j) us) + neg (skipn (S j) us)) by (rewrite <- neg_app; now rewrite firstn_skipn).
  set (a := neg (firstn (S j) us)) in *. set (b := neg (skipn (S j) us)) in *.
  assert (Q : a / neg us <= x <-> a <= x * neg us).
  { apply Rle_div_l. exact P. }
  destruct (Rle_dec (a / neg us) x) as [D|D], Rle_dec as [F|F]; try reflexivity; exfalso.
  - apply F. apply Q in D. rewrite E in D. nra.
  - apply D. apply Q. rewrite E. nra.
Qed.
Lemma hits_law x n j : 0 <= x <= 1 -> (j < n)%nat ->
  igood (S n) (hits x j) /\ imean (S n) (hits x j) = tail x n (S j).
Proof.
  intros Hx Hj. destruct (Req_dec x 0) as [->|H0]; [|destruct (Req_dec x 1) as [->|H1]].
  - assert (E : forall us, length us = S n -> inside us -> hits 0 j us = 0).
    { intros us L I. destruct (sorted_uniforms_facts us n L I) as (A & _ & C). unfold hits.
      destruct Rle_dec as [D|D]; [|reflexivity]. specialize (C (nth j (sorted_uniforms us) 0) ltac:(apply nth_In; lia)). lra. }
    destruct (imean_const (S n) 0) as (A & B). split.
    + apply igood_ext with (2 := A). intros; symmetry; now apply E.
    + rewrite (imean_ext _ _ (fun _ => 0) E), B. symmetry. apply tail_zero. lia.
  - assert (E : forall us, length us = S n -> inside us -> hits 1 j us = 1).
    { intros us L I. destruct (sorted_uniforms_facts us n L I) as (A & _ & C). unfold hits.
      destruct Rle_dec as [D|D]; [reflexivity|]. specialize (C (nth j (sorted_uniforms us) 0) ltac:(apply nth_In; lia)). lra. }
    destruct (imean_const (S n) 1) as (A & B). split.
    + apply igood_ext with (2 := A). intros; symmetry; now apply E.
    + rewrite (imean_ext _ _ (fun _ => 1) E), B. symmetry. apply tail_one. lia.
  - destruct (chi_law x ltac:(lra) n (S j) ltac:(lia)) as (A & B). split.
    + apply igood_ext with (2 := A). intros; symmetry; now apply (hits_chi x n).
    + rewrite <- B. apply imean_ext. intros; now apply (hits_chi x n).
Qed.

Lemma filter_length_le {A} (p : A -> bool) (l : list A) : (length (List.filter p l) <= length l)%nat.
Proof. induction l; simpl; [lia|]. destruct p; simpl; lia. Qed.
(** ** Indices *)
Section Index.
  Variables (cpu : bool) (l : list ext).
  Hypothesis Hv : valid_logits l.
  Let N := length l.
  Definition si (us : list R) (j : nat) : nat := nth j (inverse_cdf cpu (sorted_uniforms us) l) 0%nat.
  Lemma si_facts us n j : length us = S n -> inside us -> (j < n)%nat ->
    (si us j < N)%nat /\ forall i, (i < N)%nat -> (si us j <= i)%nat <-> nth j (sorted_uniforms us) 0 <= cdf (wt l) (S i).
  Proof.
    intros L I Hj. destruct (sorted_uniforms_facts us n L I) as (A & B & C).
    destruct (inverse_cdf_spec cpu _ l Hv B) as (D & E). specialize (E j ltac:(lia)). fold (si us j) in E.
    specialize (C (nth j (sorted_uniforms us) 0) ltac:(apply nth_In; lia)).
    apply inverse_at_cell in E; [|exact Hv|lra]. destruct E as (E1 & E2 & E3). split; [exact E1|]. intros i Hi. split; intros H.
    - eapply Rle_trans; [exact E3|]. apply cdf_mono; [intros; now apply wt_nonneg|lia].
    - destruct (le_lt_dec (si us j) i) as [|Hlt]; [easy|]. exfalso.
      assert (cdf (wt l) (S i) <= cdf (wt l) (si us j)) by (apply cdf_mono; [intros; now apply wt_nonneg|lia]). lra.
  Qed.
  Definition ind (b : bool) : R := if b then 1 else 0.
  Lemma si_le us n j i : length us = S n -> inside us -> (j < n)%nat -> (i < N)%nat ->
    ind (si us j <=? i)%nat = hits (cdf (wt l) (S i)) j us.
  Proof.
    intros L I Hj Hi. destruct (si_facts us n j L I Hj) as (_ & E). specialize (E i Hi). unfold ind, hits.
    destruct (Nat.leb_spec (si us j) i) as [H|H], Rle_dec as [D|D]; try reflexivity; exfalso; [tauto|].
    apply E in D. lia.
  Qed.
  Lemma si_eq us n j i : length us = S n -> inside us -> (j < n)%nat -> (i < N)%nat ->
    ind (si us j =? i)%nat = hits (cdf (wt l) (S i)) j us - hits (cdf (wt l) i) j us.
  Proof.
    intros L I Hj Hi. rewrite <- (si_le us n j i) by easy. destruct i as [|i].
    - destruct (sorted_uniforms_facts us n L I) as (A & _ & C).
      specialize (C (nth j (sorted_uniforms us) 0) ltac:(apply nth_In; lia)).
      unfold hits. rewrite cdf_0. destruct Rle_dec as [D|D]; [lra|]. unfold ind.
      destruct (Nat.eqb_spec (si us j) 0), (Nat.leb_spec (si us j) 0); try lia; lra.
    - rewrite <- (si_le us n j i) by (easy || lia). unfold ind.
      destruct (Nat.eqb_spec (si us j) (S i)), (Nat.leb_spec (si us j) (S i)), (Nat.leb_spec (si us j) i); try lia; lra.
  Qed.
  Lemma si_mono us n a b : length us = S n -> inside us -> (a <= b < n)%nat -> (si us a <= si us b)%nat.
  Proof.
    intros L I H. destruct (sorted_uniforms_facts us n L I) as (A & B & C).
    pose proof (inverse_cdf_sorted cpu _ l Hv B) as S. apply S. destruct (inverse_cdf_spec cpu _ l Hv B) as (D & _). lia.
  Qed.
  Lemma si_law n j i : (j < n)%nat -> (i < N)%nat ->
    igood (S n) (fun us => ind (si us j =? i)%nat) /\
    imean (S n) (fun us => ind (si us j =? i)%nat) = tail (cdf (wt l) (S i)) n (S j) - tail (cdf (wt l) i) n (S j).
  Proof.
    intros Hj Hi. destruct (hits_law (cdf (wt l) (S i)) n j (cdf_range l (S i) Hv ltac:(unfold N in *; lia)) Hj) as (A1 & A2).
    destruct (hits_law (cdf (wt l) i) n j (cdf_range l i Hv ltac:(unfold N in *; lia)) Hj) as (B1 & B2).
    destruct (imean_lin (S n) _ _ 1 (-1) A1 B1) as (C1 & C2). split.
    - apply igood_ext with (2 := C1). intros us L I. rewrite (si_eq us n) by easy. ring.
    - rewrite (imean_ext _ _ (fun us => 1 * hits (cdf (wt l) (S i)) j us + (-1) * hits (cdf (wt l) i) j us)).
      + rewrite C2, A2, B2. ring.
      + intros us L I. rewrite (si_eq us n) by easy. ring.
  Qed.
  (** any function of the [j]-th sorted index *)
  Lemma si_mean n j (f : nat -> R) : (j < n)%nat ->
    igood (S n) (fun us => f (si us j)) /\
    imean (S n) (fun us => f (si us j)) = lsum (fun i => f i * (tail (cdf (wt l) (S i)) n (S j) - tail (cdf (wt l) i) n (S j))) (seq 0 N).
  Proof.
    intros Hj. destruct (imean_lsum (S n) (seq 0 N) f (fun i us => ind (si us j =? i)%nat)) as (A & B).
    { intros i Hi. apply in_seq in Hi. now apply si_law. }
    assert (E : forall us, length us = S n -> inside us -> lsum (fun i => f i * ind (si us j =? i)%nat) (seq 0 N) = f (si us j)).
    { intros us L I. rewrite <- (lsum_seq_delta f N (si us j) (proj1 (si_facts us n j L I Hj))). apply lsum_seq_ext.
      intros i _. unfold ind. rewrite Nat.eqb_sym. destruct (Nat.eqb_spec i (si us j)), (Nat.eq_dec i (si us j)); try congruence; ring_simplify; try reflexivity. }
    split; [apply igood_ext with (1 := E), A|]. rewrite <- (imean_ext _ _ _ E), B. apply lsum_ext.
    intros i Hi. apply in_seq in Hi. now rewrite (proj2 (si_law n j i Hj ltac:(lia))).
  Qed.
  (** a function summed over all indices *)
  Lemma si_sum n (f : nat -> R) :
    igood (S n) (fun us => lsum (fun j => f (si us j)) (seq 0 n)) /\
    imean (S n) (fun us => lsum (fun j => f (si us j)) (seq 0 n)) = INR n * lsum (fun i => wt l i * f i) (seq 0 N).
  Proof.
    destruct (imean_lsum (S n) (seq 0 n) (fun _ => 1) (fun j us => f (si us j))) as (A & B).
    { intros j Hj. apply in_seq in Hj. now apply si_mean. }
    assert (E : forall us : list R, length us = S n -> inside us ->
      lsum (fun j => 1 * f (si us j)) (seq 0 n) = lsum (fun j => f (si us j)) (seq 0 n)) by (intros; apply lsum_ext; intros; ring).
    split; [apply igood_ext with (1 := E), A|]. rewrite <- (imean_ext _ _ _ E), B.
    rewrite (lsum_seq_ext _ (fun j => lsum (fun i => f i * (tail (cdf (wt l) (S i)) n (S j) - tail (cdf (wt l) i) n (S j))) (seq 0 N))).
    2:{ intros j Hj. rewrite (proj2 (si_mean n j f Hj)). ring. }
    rewrite lsum_swap, <- lsum_scal. apply lsum_ext. intros i _. rewrite lsum_scal, lsum_minus, !tail_sum, cdf_S. ring.
  Qed.
  (** the number of indices that are at most [i] *)
  Lemma count_le_sorted (g : nat -> nat) i n : (forall a b, (a <= b < n)%nat -> (g a <= g b)%nat) -> forall j, (1 <= j <= n)%nat ->
    (j <= count_le i (map g (seq 0 n)))%nat <-> (g (j - 1) <= i)%nat.
  Proof.
    unfold count_le. induction n; intros M j Hj; [lia|].
    rewrite seq_S, map_app, filter_app, app_length. cbn [map List.filter Nat.add].
    assert (M' : forall a b, (a <= b < n)%nat -> (g a <= g b)%nat) by (intros; apply M; lia).
    assert (B : (length (List.filter (fun k => (k <=? i)%nat) (map g (seq 0 n))) <= n)%nat).
    { eapply Nat.le_trans; [apply filter_length_le|]. now rewrite map_length, seq_length. }
    destruct (Nat.leb_spec (g n) i) as [H|H]; cbn [length].
    - destruct (Nat.eq_dec j (S n)) as [->|].
      + replace (S n - 1)%nat with n by lia. split; [easy|]. intros _. destruct n; [simpl; lia|].
        assert (S n <= length (List.filter (fun k => (k <=? i)%nat) (map g (seq 0 (S n)))))%nat; [|lia].
        apply (IHn M' (S n)); [lia|]. replace (S n - 1)%nat with n by lia. pose proof (M n (S n) ltac:(lia)). lia.
      + rewrite <- (IHn M' j) by lia. split; [|lia]. intros J.
        destruct (le_lt_dec j (length (List.filter (fun k => (k <=? i)%nat) (map g (seq 0 n))))) as [|Hlt]; [easy|].
        apply (IHn M' j); [lia|]. pose proof (M (j - 1)%nat n ltac:(lia)). lia.
    - rewrite Nat.add_0_r. destruct (Nat.eq_dec j (S n)) as [->|].
      + replace (S n - 1)%nat with n by lia. lia.
      + apply IHn; [exact M'|lia].
  Qed.
  Lemma count_le_perm i a b : Permutation a b -> count_le i a = count_le i b.
  Proof.
    unfold count_le. intros P. induction P; simpl; auto; try congruence.
    - destruct (x <=? i)%nat; simpl; lia.
    - destruct (y <=? i)%nat, (x <=? i)%nat; reflexivity.
  Qed.
  Lemma si_list us n : length us = S n -> inside us -> inverse_cdf cpu (sorted_uniforms us) l = map (si us) (seq 0 n).
  Proof.
    intros L I. destruct (sorted_uniforms_facts us n L I) as (A & B & C).
    destruct (inverse_cdf_spec cpu _ l Hv B) as (D & _). rewrite A in D. rewrite <- D. symmetry. apply map_nth_id.
  Qed.
  Lemma count_law n i j : (i < N)%nat ->
    igood (S n) (fun us => at_least j (count_le i (map (si us) (seq 0 n)))) /\
    imean (S n) (fun us => at_least j (count_le i (map (si us) (seq 0 n)))) = tail (cdf (wt l) (S i)) n j.
  Proof.
    intros Hi. destruct j as [|j]; [|destruct (le_lt_dec (S j) n) as [Hj|Hj]].
    - destruct (imean_const (S n) 1) as (A & B).
      assert (E : forall us : list R, length us = S n -> inside us -> 1 = at_least 0 (count_le i (map (si us) (seq 0 n)))) by reflexivity.
      split; [apply igood_ext with (1 := E), A|]. rewrite <- (imean_ext _ _ _ E), B. destruct n; reflexivity.
    - destruct (hits_law (cdf (wt l) (S i)) n j (cdf_range l (S i) Hv ltac:(unfold N in *; lia)) Hj) as (A & B).
      assert (E : forall us, length us = S n -> inside us -> hits (cdf (wt l) (S i)) j us = at_least (S j) (count_le i (map (si us) (seq 0 n)))).
      { intros us L I. rewrite <- (si_le us n) by easy. unfold ind, at_least.
        pose proof (count_le_sorted (si us) i n (fun a b => si_mono us n a b L I) (S j) ltac:(lia)) as C.
        replace (S j - 1)%nat with j in C by lia.
        destruct (Nat.leb_spec (si us j) i), (Nat.leb_spec (S j) (count_le i (map (si us) (seq 0 n)))); try reflexivity; exfalso; lia. }
      split; [apply igood_ext with (1 := E), A|]. rewrite <- (imean_ext _ _ _ E). exact B.
    - destruct (imean_const (S n) 0) as (A & B).
      assert (E : forall us : list R, length us = S n -> inside us -> 0 = at_least (S j) (count_le i (map (si us) (seq 0 n)))).
      { intros us _ _. unfold at_least. destruct (Nat.leb_spec (S j) (count_le i (map (si us) (seq 0 n)))) as [H|]; [|reflexivity].
        unfold count_le in H. pose proof (filter_length_le (fun k => k <=? i)%nat (map (si us) (seq 0 n))) as F.
        rewrite map_length, seq_length in F. lia. }
      split; [apply igood_ext with (1 := E), A|]. rewrite <- (imean_ext _ _ _ E), B. symmetry. now apply tail_big.
  Qed.
End Index.

(** ** Random permutations *)
Lemma inserts_length {A} (a : A) p : length (inserts a p) = S (length p).
Proof. induction p; [reflexivity|]. cbn [inserts length]. now rewrite map_length, IHp. Qed.
Lemma inserts_perm {A} (a : A) p q : In q (inserts a p) -> Permutation q (a :: p).
Proof.
  revert q. induction p as [|b p IH]; intros q Hq; cbn [inserts] in Hq.
  - destruct Hq as [<-|[]]. reflexivity.
  - destruct Hq as [<-|Hq]; [reflexivity|]. apply in_map_iff in Hq. destruct Hq as (r & <- & Hr).
    rewrite (IH r Hr). constructor.
Qed.
Lemma perms_perm {A} (l : list A) p : In p (perms l) -> Permutation p l.
Proof.
  revert p. induction l as [|a l IH]; intros p Hp; cbn [perms] in Hp.
  - destruct Hp as [<-|[]]. reflexivity.
  - apply in_flat_map in Hp. destruct Hp as (q & Hq & Hp). rewrite (inserts_perm a q p Hp). constructor. now apply IH.
Qed.
Lemma perms_count {A} (l : list A) : length (perms l) = fact (length l).
Proof.
  induction l as [|a l IH]; [reflexivity|]. cbn [perms length fact].
  assert (G : forall m : list (list A), (forall p, In p m -> length p = length l) -> length (flat_map (inserts a) m) = (S (length l) * length m)%nat).
  { induction m as [|p m IHm]; intros H; cbn [flat_map length]; [lia|]. rewrite app_length, inserts_length, IHm by (intros; apply H; now right). rewrite (H p) by now left. lia. }
  rewrite G, IH; [reflexivity|]. intros p Hp. apply Permutation_length. now apply perms_perm.
Qed.
Lemma inserts_nth {A} (a d : A) p (f : A -> R) : forall s, (s <= length p)%nat ->
  lsum (fun q => f (nth s q d)) (inserts a p) =
  f a + INR s * f (nth (s - 1) p d) + INR (length p - s) * f (nth s p d).
Proof.
  induction p as [|b p IH]; intros s Hs; cbn [inserts lsum length] in *.
  - assert (s = 0)%nat as -> by lia. simpl. ring.
  - rewrite lsum_map. destruct s as [|s]; cbn [nth].
    + rewrite (lsum_ext _ (fun _ => f b * 1)) by (intros; ring). rewrite lsum_scal.
      assert (C : forall (m : list (list A)), lsum (fun _ => 1) m = INR (length m)).
      { induction m; [reflexivity|]. cbn [lsum length]. rewrite IHm, S_INR. ring. }
      rewrite C, inserts_length. cbn [Nat.sub length]. simpl INR. ring.
    + rewrite IH by lia. cbn [Nat.sub]. rewrite Nat.sub_0_r. rewrite S_INR.
      destruct s as [|s]; [simpl; ring|]. cbn [nth Nat.sub]. rewrite Nat.sub_0_r. ring.
Qed.
Lemma perms_nth {A} (d : A) (f : A -> R) (l : list A) : forall s, (s < length l)%nat ->
  lsum (fun p => f (nth s p d)) (perms l) = INR (fact (length l - 1)) * lsum f l.
Proof.
  induction l as [|a l IH]; intros s Hs; cbn [length] in Hs; [lia|]. cbn [perms].
  rewrite lsum_flat_map.
  rewrite (lsum_ext _ (fun p => f a * 1 + (INR s * f (nth (s - 1) p d) + INR (length l - s) * f (nth s p d)))).
  2:{ intros p Hp. pose proof (Permutation_length (perms_perm l p Hp)) as E. rewrite inserts_nth by lia. rewrite E. ring. }
  rewrite lsum_plus, lsum_scal, lsum_plus, !lsum_scal.
  assert (C : lsum (fun _ : list A => 1) (perms l) = INR (fact (length l))).
  { rewrite <- perms_count. generalize (perms l). clear. induction l; [reflexivity|]. cbn [lsum length]. rewrite IHl, S_INR. ring. }
  rewrite C. cbn [length lsum]. replace (S (length l) - 1)%nat with (length l) by lia.
  destruct l as [|b l]; [assert (s = 0)%nat as -> by (simpl in Hs; lia); simpl; ring|].
  set (m := length (b :: l)) in *. assert (Hm : (1 <= m)%nat) by (unfold m; simpl; lia).
  assert (F : INR (fact m) = INR m * INR (fact (m - 1))).
  { destruct m; [lia|]. rewrite fact_simpl, mult_INR. do 2 f_equal. f_equal. lia. }
  assert (T1 : INR s * lsum (fun p => f (nth (s - 1) p d)) (perms (b :: l)) = INR s * (INR (fact (m - 1)) * lsum f (b :: l))).
  { destruct s; [simpl INR; ring|]. rewrite IH; [reflexivity|fold m; lia]. }
  assert (T2 : INR (m - s) * lsum (fun p => f (nth s p d)) (perms (b :: l)) = INR (m - s) * (INR (fact (m - 1)) * lsum f (b :: l))).
  { destruct (Nat.eq_dec s m) as [->|]; [rewrite Nat.sub_diag; simpl INR; ring|]. rewrite IH; [reflexivity|fold m; lia]. }
  rewrite T1, T2, F, minus_INR by lia. ring.
Qed.
Lemma perm_mean_slot n s (f : nat -> R) : (s < n)%nat -> perm_mean n (fun p => f (nth s p 0%nat)) = lsum f (seq 0 n) / INR n.
Proof.
  intros Hs. unfold perm_mean. rewrite (perms_nth 0%nat f (seq 0 n) s) by (rewrite seq_length; lia). rewrite seq_length.
  destruct n; [lia|]. rewrite fact_simpl, mult_INR. cbn [Nat.sub]. rewrite Nat.sub_0_r. field.
  split; [apply not_0_INR; lia|apply INR_fact_neq_0].
Qed.
Lemma perm_mean_ext n f g : (forall p, Permutation p (seq 0 n) -> f p = g p) -> perm_mean n f = perm_mean n g.
Proof. intros H. unfold perm_mean. f_equal. apply lsum_ext. intros p Hp. apply H. now apply perms_perm. Qed.
Lemma perm_mean_lin n f g a b : perm_mean n (fun p => a * f p + b * g p) = a * perm_mean n f + b * perm_mean n g.
Proof. unfold perm_mean. rewrite lsum_plus, !lsum_scal. field. apply INR_fact_neq_0. Qed.
Lemma perm_mean_const n c : perm_mean n (fun _ => c) = c.
Proof.
  unfold perm_mean. rewrite (lsum_ext _ (fun _ => c * 1)) by (intros; ring). rewrite lsum_scal.
  assert (C : forall m : list (list nat), lsum (fun _ => 1) m = INR (length m)).
  { induction m; [reflexivity|]. cbn [lsum length]. rewrite IHm, S_INR. ring. }
  rewrite C, perms_count, seq_length. field. apply INR_fact_neq_0.
Qed.
Lemma inserts_complete {A} (a : A) p q : In (p ++ a :: q) (inserts a (p ++ q)).
Proof. induction p as [|b p IH]; cbn [app inserts]; [destruct q; now left|]. right. now apply in_map. Qed.
Lemma perms_complete {A} (l : list A) : forall p, Permutation p l -> In p (perms l).
Proof.
  induction l as [|a l IH]; intros p Hp; cbn [perms].
  - apply Permutation_sym, Permutation_nil in Hp. subst. now left.
  - assert (Ia : In a p) by (apply (Permutation_in _ (Permutation_sym Hp)); now left).
    apply in_split in Ia. destruct Ia as (p1 & p2 & ->). apply in_flat_map. exists (p1 ++ p2). split; [|apply inserts_complete].
    apply IH. symmetry. apply (Permutation_cons_app_inv p1 p2 (a := a)). now symmetry.
Qed.
