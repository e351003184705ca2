(** Specification: two independent linear Gaussian models side by side, and one model written in other
    coordinates and units. Nothing here refers to the model definitions. *)
From Coq Require Import Reals List.
From mathcomp Require Import all_ssreflect all_algebra.
From Verif Require Import RStruct GaussSpec KalmanSpec.
Set Implicit Arguments.
Unset Strict Implicit.
Unset Printing Implicit Defensive.
Local Open Scope ring_scope.
Import GRing.Theory.

(** ** side by side *)
Section Product.
Variables n1 n2 k1 k2 : nat.
Definition diag_block m p (A : 'M[R]_m) (B : 'M[R]_p) : 'M[R]_(m + p) := block_mx A 0 0 B.
Definition both (b1 : belief n1) (b2 : belief n2) : belief (n1 + n2) :=
  Belief (col_mx (bmean b1) (bmean b2)) (diag_block (bcov b1) (bcov b2)) (bell b1 + bell b2).
(** nothing in either system enters the other *)
Definition both_step (s1 : lgstep n1 k1) (s2 : lgstep n2 k2) : lgstep (n1 + n2) (k1 + k2) :=
  LgStep (diag_block (lF s1) (lF s2)) (col_mx (lc s1) (lc s2)) (diag_block (lQ s1) (lQ s2))
         (block_mx (lH s1) 0 0 (lH s2)) (col_mx (ld s1) (ld s2)) (diag_block (lR s1) (lR s2))
         (col_mx (ly s1) (ly s2)).
End Product.

(** ** other coordinates x' = T x for the state, other units y'_i = u_i y_i for the observations *)
Section Coordinates.
Variables nx ny : nat.
Variable T : 'M[R]_nx.
Definition rescaled (u : 'cV[R]_ny) (y : 'cV[option R]_ny) : 'cV[option R]_ny :=
  \col_i omap (fun v => u i ord0 * v) (y i ord0).
Definition units (u : 'cV[R]_ny) : 'M[R]_ny := diag_mx u^T.
Definition rewritten_step (u : 'cV[R]_ny) (s : lgstep nx ny) : lgstep nx ny :=
  LgStep (T *m lF s *m invmx T) (T *m lc s) (T *m lQ s *m T^T)
         (units u *m lH s *m invmx T) (units u *m ld s) (units u *m lR s *m units u)
         (rescaled u (ly s)).
(** the log of the change of volume of the observed coordinates *)
Definition log_volume (u : 'cV[R]_ny) (s : lgstep nx ny) : R :=
  \sum_(i | isSome (ly s i ord0)) ln `|u i ord0|.
Definition rewritten (e : R) (b : belief nx) : belief nx :=
  Belief (T *m bmean b) (T *m bcov b *m T^T) (bell b - e).
End Coordinates.
