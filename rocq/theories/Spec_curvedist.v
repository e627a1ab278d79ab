(** Specification side: which control points act on a curve at a parameter. *)
From Coq Require Import Reals ZArith List.
From Verif Require Import Spec_r3 Spec_nurbs.
Import ListNotations.
Open Scope R_scope.

Definition control (P : list rv) (k : Z) : rv := nth (Z.to_nat k) P rzero.
(** u is between knots k and k+p+1 (the last control point has no upper limit) *)
Definition acts (U : list Z) (n p : Z) (u : R) (k : Z) : Prop :=
  (0 <= k <= n)%Z /\ knot U k <= u /\ ((k + p < n)%Z -> u <= knot U (k + p + 1)).
