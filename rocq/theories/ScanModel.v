(** Model of the drivers [cuthbert.filter] and [cuthbert.smoother] together with the two JAX
    primitives they use ([jax.lax.scan], [jax.lax.associative_scan]).

    Simplifications: a pytree with a leading time axis is a list (one entry per time step), so
    leaves with inconsistent leading dimensions cannot be expressed; [vmap f] is the elementwise map;
    warnings (filtering.py:34-37, smoothing.py:44-48) have no effect and are dropped, so the
    [associative] flag of the objects is not part of the model. *)
From Coq Require Import List Arith.
Import ListNotations.

(** Python exceptions that the modelled functions can raise. *)
Inductive exn := IndexError | ValueError | AssertionError | TypeError.

Inductive result (A : Type) :=
| Ok (a : A)
| Err (e : exn).
Arguments Ok {A} a.
Arguments Err {A} e.

(** ** Slicing with stride 2 (jax slice_in_dim with stride=2). *)
(** [l[0::2]] *)
Fixpoint evens {A} (l : list A) : list A :=
  match l with
  | [] => []
  | [a] => [a]
  | a :: _ :: r => a :: evens r
  end.
(** [l[1::2]] *)
Definition odds {A} (l : list A) : list A := evens (tl l).

(** [vmap f] of a binary function on two arrays. *)
Fixpoint map2 {A B C} (f : A -> B -> C) (l : list A) (m : list B) : list C :=
  match l, m with
  | a :: l', b :: m' => f a b :: map2 f l' m'
  | _, _ => []
  end.

(** jax [_interleave]: a0 b0 a1 b1 ... where [b] has the same length as [a] or one less. *)
Fixpoint interleave {A} (a b : list A) : list A :=
  match a with
  | [] => b
  | x :: a' => match b with
               | [] => a
               | y :: b' => x :: y :: interleave a' b'
               end
  end.

(** jax.lax.associative_scan with reverse=False (jax/_src/lax/control_flow/loops.py, [_scan]):
    recursion on the array of pairwise products.  The fuel argument only makes the recursion
    structural; [assoc_scan] starts it with the array length, which is always enough
    (lemma [assoc_scan_eq] in ScanProofs.v gives the fuel-free recursion equation). *)
Fixpoint assoc_scan_fuel {A} (fuel : nat) (f : A -> A -> A) (elems : list A) : list A :=
  match fuel with
  | 0 => elems
  | S fuel' =>
      if length elems <? 2 then elems
      else
        let reduced := map2 f (evens (removelast elems)) (odds elems) in
        let odd_elems := assoc_scan_fuel fuel' f reduced in
        let even_tail :=
          if Nat.even (length elems)
          then map2 f (removelast odd_elems) (evens (skipn 2 elems))
          else map2 f odd_elems (evens (skipn 2 elems)) in
        interleave (firstn 1 elems ++ even_tail) odd_elems
  end.
Definition assoc_scan {A} (f : A -> A -> A) (elems : list A) : list A :=
  assoc_scan_fuel (length elems) f elems.
(** associative_scan(..., reverse=True): flip, scan, flip. *)
Definition assoc_scan_rev {A} (f : A -> A -> A) (elems : list A) : list A :=
  rev (assoc_scan f (rev elems)).

(** jax.lax.scan whose body returns [(state, state)]: the stacked outputs. *)
Fixpoint scan_states {S X} (body : S -> X -> S) (s : S) (xs : list X) : list S :=
  match xs with
  | [] => []
  | x :: xs' => let s' := body s x in s' :: scan_states body s' xs'
  end.
(** jax.lax.scan with reverse=True: consumes [xs] from the end, stacks outputs in place. *)
Definition scan_states_rev {S X} (body : S -> X -> S) (s : S) (xs : list X) : list S :=
  rev (scan_states body s (rev xs)).

(** ** cuthbert/inference.py:8-220 — the callback bundles.
    A key is [None] when the user passed [key=None] (filtering.py:41-44: an array that fails when
    used as a key). *)
Record Filter (In Key St : Type) := MkFilter {
  init_prepare : In -> option Key -> St;
  filter_prepare : In -> option Key -> St;
  filter_combine : St -> St -> St }.
Arguments MkFilter {In Key St}.
Arguments init_prepare {In Key St}.
Arguments filter_prepare {In Key St}.
Arguments filter_combine {In Key St}.

Record Smoother (In Key FSt SSt : Type) := MkSmoother {
  convert_filter_to_smoother_state : FSt -> In -> option Key -> SSt;
  smoother_prepare : FSt -> In -> option Key -> SSt;
  smoother_combine : SSt -> SSt -> SSt }.
Arguments MkSmoother {In Key FSt SSt}.
Arguments convert_filter_to_smoother_state {In Key FSt SSt}.
Arguments smoother_prepare {In Key FSt SSt}.
Arguments smoother_combine {In Key FSt SSt}.

Section Drivers.
  Context {In Key FSt SSt : Type}.
  (** [random.split(key, n)]: an array of [n] keys (external). *)
  Variable split : Key -> nat -> list Key.

  (** filtering.py:41-46, smoothing.py:69-74 *)
  Definition prepare_keys (key : option Key) (n : nat) : list (option Key) :=
    match key with
    | None => repeat None n
    | Some k => map Some (split k n)
    end.

  (** cuthbert/filtering.py:13-81.  Indexing [x[0]] of an empty array raises. *)
  Definition filter (obj : Filter In Key FSt) (model_inputs : list In)
             (parallel : bool) (key : option Key) : result (list FSt) :=
    match model_inputs with
    | [] => Err IndexError
    | init_input :: prep_inputs =>
        (* T + 1 = length model_inputs *)
        match prepare_keys key (length model_inputs) with
        | [] => Err IndexError
        | k0 :: ks =>
            let init_state := init_prepare obj init_input k0 in
            if parallel then
              let other := map2 (filter_prepare obj) prep_inputs ks in
              Ok (assoc_scan (filter_combine obj) (init_state :: other))
            else
              let body prev (xk : In * option Key) :=
                filter_combine obj prev (filter_prepare obj (fst xk) (snd xk)) in
              Ok (init_state :: scan_states body init_state (combine prep_inputs ks))
        end
    end.

  (** cuthbert/utils.py:9-32, [dummy_tree_like]: a value with the same structure but dummy content;
      abstract here (see DummyModel.v for the array-level model). *)
  Variable dummy_like : In -> In.
  (** The [model_inputs] field of a filter state. *)
  Variable state_model_inputs : FSt -> In.

  (** cuthbert/smoothing.py:14-128. *)
  Definition smoother (obj : Smoother In Key FSt SSt) (filter_states : list FSt)
             (model_inputs : option (list In)) (parallel : bool) (key : option Key)
    : result (list SSt) :=
    (* 50-51 *)
    let model_inputs := match model_inputs with
                        | None => map state_model_inputs filter_states
                        | Some l => l
                        end in
    match filter_states with
    | [] => Err IndexError
    | fs0 :: _ =>
      let T := length filter_states - 1 in
      (* 60-67 *)
      let checked :=
        if length model_inputs =? T + 1 then Ok (tl model_inputs)
        else if length model_inputs =? T then Ok model_inputs
        else Err ValueError in
      match checked with
      | Err e => Err e
      | Ok model_inputs =>
        (* 69-74 *)
        let keys := prepare_keys key (T + 1) in
        (* 76-77 *)
        let final_filter_state := last filter_states fs0 in
        let other_filter_states := removelast filter_states in
        (* 81: indexing [x[0]] *)
        match model_inputs, keys with
        | inp0 :: _, k0 :: ks =>
          let final := convert_filter_to_smoother_state obj final_filter_state (dummy_like inp0) k0 in
          if parallel then
            (* 87-104 *)
            let prep := map2 (fun p k => smoother_prepare obj (fst p) (snd p) k)
                             (combine other_filter_states model_inputs) ks in
            Ok (assoc_scan_rev (fun current next => smoother_combine obj next current)
                               (prep ++ [final]))
          else
            (* 107-126 *)
            let body next (x : FSt * In * option Key) :=
              smoother_combine obj
                (smoother_prepare obj (fst (fst x)) (snd (fst x)) (snd x)) next in
            Ok (scan_states_rev body final
                  (combine (combine other_filter_states model_inputs) ks) ++ [final])
        | _, _ => Err IndexError
        end
      end
    end.
End Drivers.
