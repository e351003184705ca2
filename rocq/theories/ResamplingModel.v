(** Model of cuthbertlib/resampling and cuthbertlib/smc/ess.py.
    Random keys are replaced by the draws they produce (uniforms in [0,1), a permutation, a categorical
    draw), passed as arguments.  Log weights are extended floats, so -inf (zero weight) is allowed.
    Particles ("positions") are lists. *)
From Coq Require Import Reals List Arith ZArith Bool.
From Verif Require Import Ext ScanModel.
Import ListNotations.
Open Scope R_scope.

(** ** Array helpers *)
Fixpoint esuml (l : list ext) : ext := match l with [] => Fin 0 | a :: r => eadd a (esuml r) end.
Fixpoint emaxl (l : list ext) : ext := match l with [] => NInf | a :: r => emax a (emaxl r) end.
(** jax logsumexp: log of the sum of exponentials (the max-shift used there does not change the
    exact value) *)
Definition logsumexp (l : list ext) : ext := elog (esuml (map eexp l)).
(** [a > b], [a < b], [a <= b] on extended floats (false when NaN is involved) *)
Definition egtb (a b : ext) : bool :=
  match a, b with
  | Fin x, Fin y => if Rlt_dec y x then true else false
  | NaN, _ | _, NaN => false
  | PInf, PInf => false | PInf, _ => true
  | _, PInf => false
  | NInf, _ => false
  | Fin _, NInf => true
  end.
Definition eltb (a b : ext) : bool := egtb b a.
Definition eleb (a b : ext) : bool :=
  match a, b with
  | Fin x, Fin y => if Rle_dec x y then true else false
  | NaN, _ | _, NaN => false
  | NInf, _ => true
  | _, PInf => true
  | PInf, _ => false
  | Fin _, NInf => false
  end.
Fixpoint cumsum_from (s : ext) (l : list ext) : list ext :=
  match l with [] => [] | a :: r => let s' := eadd s a in s' :: cumsum_from s' r end.
(** jnp.cumsum *)
Definition cumsum (l : list ext) : list ext := cumsum_from (Fin 0) l.
(** jnp.roll on a 1-d array: result[i] = x[(i - shift) mod n] *)
Definition roll {A} (d : A) (l : list A) (shift : Z) : list A :=
  map (fun i => nth (Z.to_nat ((Z.of_nat i - shift) mod Z.of_nat (length l))) l d)
      (seq 0 (length l)).
(** x.at[i].set(v); an out-of-range index leaves the array unchanged (JAX scatter semantics) *)
Fixpoint set_at {A} (l : list A) (i : nat) (v : A) : list A :=
  match l, i with
  | [], _ => []
  | _ :: r, O => v :: r
  | a :: r, S i' => a :: set_at r i' v
  end.
(** x[idx] for an index array; JAX clamps out-of-range gathers to the last element *)
Definition gather {A} (l : list A) (idx : list nat) (d : A) : list A :=
  map (fun i => nth (Nat.min i (length l - 1)) l d) idx.

(** utils.py:33 *)
Definition weights (logits : list ext) : list ext :=
  map (fun l => eexp (esub l (logsumexp logits))) logits.

(** utils.py:80-82: the inner while loop; the fuel bounds the number of increments of [j], which the
    loop condition limits to [length ws - 1]. *)
Fixpoint advance (fuel : nat) (u : R) (ws : list ext) (j : nat) (s : ext) : nat * ext :=
  match fuel with
  | O => (j, s)
  | S fuel' =>
      if egtb (Fin u) s && (j <? length ws - 1)%nat
      then advance fuel' u ws (S j) (eadd s (nth (S j) ws NaN))
      else (j, s)
  end.
(** utils.py:79-83: the outer loop *)
Fixpoint numba_loop (su : list R) (ws : list ext) (j : nat) (s : ext) : list nat :=
  match su with
  | [] => []
  | u :: r => let '(j', s') := advance (length ws) u ws j s in j' :: numba_loop r ws j' s'
  end.
(** utils.py:72-83 *)
Definition inverse_cdf_numba (su : list R) (ws : list ext) : list nat :=
  numba_loop su ws 0 (nth 0 ws NaN).
Definition clip (lo hi i : nat) : nat := Nat.max lo (Nat.min i hi).
(** utils.py:50-69 *)
Definition inverse_cdf_cpu (su : list R) (ws : list ext) : list nat :=
  map (clip 0 (length ws - 1)) (inverse_cdf_numba su ws).
(** jnp.searchsorted(cs, v) (side="left") on a sorted array: the number of entries below v *)
Definition searchsorted (cs : list ext) (v : R) : nat :=
  length (List.filter (fun c => eltb c (Fin v)) cs).
(** utils.py:39-47 *)
Definition inverse_cdf_default (su : list R) (ws : list ext) : list nat :=
  map (fun u => clip 0 (length ws - 1) (searchsorted (cumsum ws) u)) su.
(** utils.py:14-36; [cpu] is the platform *)
Definition inverse_cdf (cpu : bool) (su : list R) (logits : list ext) : list nat :=
  if cpu then inverse_cdf_cpu su (weights logits) else inverse_cdf_default su (weights logits).

Section Resamplers.
  Context {X : Type}.
  Variable dX : X. (* only used to make list indexing total *)
  Variable cpu : bool.

  (** utils.py:86-88 *)
  Definition apply_resampling_indices (positions : list X) (idx : list nat) : list X :=
    gather positions idx dX.

  Definition zeros (n : nat) : list ext := repeat (Fin 0) n.

  (** systematic.py:33: the grid *)
  Definition systematic_uniforms (u : R) (n : nat) : list R :=
    map (fun k => (u + INR k) / INR n) (seq 0 n).
  (** systematic.py:29-36; [u] is the draw of random.uniform(key, ()) *)
  Definition systematic_resampling (u : R) (logits : list ext) (positions : list X) (n : nat)
    : list nat * list ext * list X :=
    let idx := inverse_cdf cpu (systematic_uniforms u n) logits in
    (idx, zeros n, apply_resampling_indices positions idx).

  (** multinomial.py:65-71 with [us] the n+1 draws; z[:-1] / z[-1] with z = cumsum(-log us).
      Draws equal to 0 give infinities in floats; here draws are positive reals (stated as a
      hypothesis where used). *)
  Fixpoint rcumsum_from (s : R) (l : list R) : list R :=
    match l with [] => [] | a :: r => (s + a) :: rcumsum_from (s + a) r end.
  Definition sorted_uniforms (us : list R) : list R :=
    let z := rcumsum_from 0 (map (fun u => - ln u) us) in
    map (fun x => x / last z 0) (removelast z).
  (** multinomial.py:29-45; [us] (n+1 uniforms) and [perm] (the random permutation) are the draws *)
  Definition multinomial_resampling (us : list R) (perm : list nat)
             (logits : list ext) (positions : list X) (n : nat) : list nat * list ext * list X :=
    let idx := inverse_cdf cpu (sorted_uniforms us) logits in
    let idx := map (fun i => nth i idx 0%nat) perm in
    (idx, zeros n, apply_resampling_indices positions idx).
  (** multinomial.py:48-62 *)
  Definition multinomial_conditional (us : list R) (perm : list nat)
             (logits : list ext) (positions : list X) (n pivot_in pivot_out : nat)
    : list nat * list ext * list X :=
    let '(idx, lo, _) := multinomial_resampling us perm logits positions n in
    let idx := set_at idx pivot_in pivot_out in
    (idx, lo, apply_resampling_indices positions idx).

  (** systematic.py:75-85: the offset, from the unnormalised first weight and draws U, V *)
  Definition conditional_offset (tmp U V : R) : R :=
    let tmp_floor := IZR (Int_part tmp) in
    if Rle_dec tmp 1 then tmp * U
    else
      let rem := tmp - tmp_floor in
      let p_cond := rem * (tmp_floor + 1) / tmp in
      if Rlt_dec V p_cond then rem * U else rem + (1 - rem) * U.
  (** the real number held by an extended float (only used where the float is finite) *)
  Definition fin_val (e : ext) : R := match e with Fin r => r | _ => 0 end.
  (** jnp.flatnonzero(idx == 0, size=n, fill_value=-1) *)
  Definition flatnonzero0 (idx : list nat) (n : nat) : list Z :=
    let locs := map (fun p => Z.of_nat (fst p))
                    (List.filter (fun p => Nat.eqb (snd p) 0) (combine (seq 0 (length idx)) idx)) in
    firstn n (locs ++ repeat (-1)%Z n).
  (** systematic.py:66-95 *)
  Definition conditional_resampling_0_to_0 (U V W : R) (logits : list ext) (n : nat) : list nat :=
    let ws := weights logits in
    let tmp := INR n * fin_val (nth 0 ws NaN) in
    let uniform := conditional_offset tmp U V in
    let linspace := map (fun k => (INR k + uniform) / INR n) (seq 0 n) in
    let idx := inverse_cdf cpu linspace logits in
    let n_zero := length (List.filter (fun i => Nat.eqb i 0) idx) in
    let zero_loc := flatnonzero0 idx n in
    let roll_idx := Z.to_nat (Int_part (INR n_zero * W)) in
    let idx := if Nat.eqb n_zero 1 then idx
               else roll 0%nat idx (- nth roll_idx zero_loc 0%Z)%Z in
    map (clip 0 (length logits - 1)) idx.
  (** systematic.py:39-63 *)
  Definition systematic_conditional (U V W : R) (logits : list ext) (positions : list X)
             (n pivot_in pivot_out : nat) : list nat * list ext * list X :=
    let lse := logsumexp logits in
    let logits := map (fun l => esub l lse) logits in
    let arange := seq 0 (length logits) in
    let logits := roll NaN logits (- Z.of_nat pivot_out)%Z in
    let arange := roll 0%nat arange (- Z.of_nat pivot_out)%Z in
    let idx := conditional_resampling_0_to_0 U V W logits n in
    let idx := gather arange idx 0%nat in
    let idx := roll 0%nat idx (Z.of_nat pivot_in) in
    (idx, zeros n, apply_resampling_indices positions idx).

  (** killing.py:53 for one particle: log(uniform) <= logit - max_logit *)
  Definition survived (v : R) (logit max_logit : ext) : bool :=
    eleb (elog (Fin v)) (esub logit max_logit).
  (** killing.py:53-58 *)
  Definition killing_index (logits : list ext) (v : R) (s other : nat) : nat :=
    if survived v (nth s logits NaN) (emaxl logits) then s else other.
  (** killing.py:37-61; [vs] are the N uniforms, [us] and [perm] the draws of the inner multinomial *)
  Definition killing_resampling (vs us : list R) (perm : list nat)
             (logits : list ext) (positions : list X) (n : nat)
    : result (list nat * list ext * list X) :=
    let N := length logits in
    if negb (Nat.eqb n N) then Err AssertionError
    else
      let '(other, _, _) := multinomial_resampling us perm logits positions N in
      let idx := map2 (fun s vo => killing_index logits (fst vo) s (snd vo))
                      (seq 0 N) (combine vs other) in
      Ok (idx, zeros N, apply_resampling_indices positions idx).

  (** killing.py:98-100 *)
  Definition log1mexp (x : ext) : ext := elog (esub (Fin 1) (eexp x)).
  (** killing.py:81-89 *)
  Definition killing_pivot_weights (logits : list ext) (n pivot_out : nat) : list ext :=
    let m := emaxl logits in
    let pl := map (fun l => log1mexp (esub l m)) logits in
    let pl := map (fun l => esub l (elog (Fin (INR n)))) pl in
    let pl := set_at pl pivot_out NInf in
    let pi := log1mexp (logsumexp pl) in
    let pl := set_at pl pivot_out pi in
    map (fun l => eexp (esub l (logsumexp pl))) pl.
  (** killing.py:64-95; [pivot] is the draw of random.choice(key_shuffle, n, p=pivot_weights) *)
  Definition killing_conditional (vs us : list R) (perm : list nat) (pivot : nat)
             (logits : list ext) (positions : list X) (n pivot_in pivot_out : nat)
    : result (list nat * list ext * list X) :=
    match killing_resampling vs us perm logits positions n with
    | Err e => Err e
    | Ok (idx_uncond, _, _) =>
        let idx := roll 0%nat idx_uncond (Z.of_nat pivot_in - Z.of_nat pivot)%Z in
        let idx := set_at idx pivot_in pivot_out in
        Ok (idx, zeros (length logits), apply_resampling_indices positions idx)
    end.

  (** smc/ess.py:9-24 *)
  Definition log_ess (lw : list ext) : ext :=
    esub (emul (Fin 2) (logsumexp lw)) (logsumexp (map (emul (Fin 2)) lw)).
  Definition ess (lw : list ext) : ext := eexp (log_ess lw).

  (** adaptive.py:18-72 *)
  Definition ess_decorator {Key}
             (func : Key -> list ext -> list X -> nat -> result (list nat * list ext * list X))
             (threshold : R) (key : Key) (logits : list ext) (positions : list X) (n : nat)
    : result (list nat * list ext * list X) :=
    let N := length logits in
    if negb (Nat.eqb n N) then Err AssertionError
    else if eltb (log_ess logits) (elog (Fin (threshold * INR n)))
         then func key logits positions n
         else Ok (seq 0 n, logits, positions).
End Resamplers.
