(** Model of multinomial and killing resampling for every output of random.uniform, which lies in [0,1) and may be 0.
    [ResamplingModel.v] models the same functions with real quotients; here the infinities and NaNs of a
    zero draw are kept. *)
From Coq Require Import Reals List Arith ZArith Bool.
From Verif Require Import Ext ScanModel ResamplingModel.
Import ListNotations.
Open Scope R_scope.

(** multinomial.py:65-71; [us] are the n+1 draws: z = cumsum(-log us), z[:-1] / z[-1] *)
Definition sorted_uniforms_ext (us : list R) : list ext :=
  let z := cumsum (map (fun u => eopp (elog (Fin u))) us) in
  map (fun x => ediv x (last z NaN)) (removelast z).

(** utils.py:80-82 on floats; comparisons with NaN are false *)
Fixpoint advance_ext (fuel : nat) (u : ext) (ws : list ext) (j : nat) (s : ext) : nat * ext :=
  match fuel with
  | O => (j, s)
  | S fuel' =>
      if egtb u s && (j <? length ws - 1)%nat
      then advance_ext fuel' u ws (S j) (eadd s (nth (S j) ws NaN))
      else (j, s)
  end.
(** utils.py:79-83 *)
Fixpoint numba_loop_ext (su : list ext) (ws : list ext) (j : nat) (s : ext) : list nat :=
  match su with
  | [] => []
  | u :: r => let '(j', s') := advance_ext (length ws) u ws j s in j' :: numba_loop_ext r ws j' s'
  end.
(** utils.py:50-83 *)
Definition inverse_cdf_cpu_ext (su : list ext) (ws : list ext) : list nat :=
  map (clip 0 (length ws - 1)) (numba_loop_ext su ws 0 (nth 0 ws NaN)).
(** the order of jnp.sort: NaN last *)
Definition sort_ltb (a b : ext) : bool :=
  match a, b with NaN, _ => false | _, NaN => true | _, _ => eltb a b end.
(** jnp.searchsorted(cs, v, method="sort") (side="left"): rank of v among cs by sorting both *)
Definition searchsorted_ext (cs : list ext) (v : ext) : nat := length (List.filter (fun c => sort_ltb c v) cs).
(** utils.py:39-47 *)
Definition inverse_cdf_default_ext (su : list ext) (ws : list ext) : list nat :=
  map (fun u => clip 0 (length ws - 1) (searchsorted_ext (cumsum ws) u)) su.
(** utils.py:14-36 *)
Definition inverse_cdf_ext (cpu : bool) (su : list ext) (logits : list ext) : list nat :=
  if cpu then inverse_cdf_cpu_ext su (weights logits) else inverse_cdf_default_ext su (weights logits).

Section Resamplers.
  Context {X : Type}.
  Variable dX : X. (* only used to make list indexing total *)
  Variable cpu : bool.
  (** multinomial.py:29-45; [us] (n+1 uniforms) and [perm] (the random permutation) are the draws *)
  Definition multinomial_ext (us : list R) (perm : list nat) (logits : list ext) (positions : list X) (n : nat)
    : list nat * list ext * list X :=
    let idx := inverse_cdf_ext cpu (sorted_uniforms_ext us) logits in
    let idx := map (fun i => nth i idx 0%nat) perm in
    (idx, zeros n, apply_resampling_indices dX positions idx).
  (** multinomial.py:48-62 *)
  Definition multinomial_conditional_ext (us : list R) (perm : list nat)
             (logits : list ext) (positions : list X) (n pivot_in pivot_out : nat)
    : list nat * list ext * list X :=
    let '(idx, lo, _) := multinomial_ext us perm logits positions n in
    let idx := set_at idx pivot_in pivot_out in
    (idx, lo, apply_resampling_indices dX positions idx).
  (** killing.py:37-61; [vs] are the N uniforms, [us] and [perm] the draws of the inner multinomial *)
  Definition killing_ext (vs us : list R) (perm : list nat) (logits : list ext) (positions : list X) (n : nat)
    : result (list nat * list ext * list X) :=
    let N := length logits in
    if negb (Nat.eqb n N) then Err AssertionError
    else
      let '(other, _, _) := multinomial_ext us perm logits positions N in
      let idx := map2 (fun s vo => killing_index logits (fst vo) s (snd vo))
                      (seq 0 N) (combine vs other) in
      Ok (idx, zeros N, apply_resampling_indices dX positions idx).
End Resamplers.
