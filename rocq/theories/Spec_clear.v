(** Specification side: inputs whose orientations and distances are clear of the rounding errors of float64. *)
From Coq Require Import Reals List.
From Verif Require Import Spec_r3 Spec_plane Spec_acc64.
Import ListNotations.
Open Scope R_scope.

(** the orientation of a, b, c exceeds the rounding error of four roundings, or it is degenerate in a way the floats see:
    every term vanishes, or b and c have the same X and Y *)
Definition clear_orient (a b c : rv) : Prop :=
  gamma 4 * cross_terms a b c < Rabs (ccw a b c) \/ cross_terms a b c = 0 \/ (rx b = rx c /\ ry b = ry c).
(** the squared distance differs from the threshold eps by more than the rounding error of five roundings *)
Definition clear_dist (a b : rv) : Prop := gamma 5 * rdist2 a b < Rabs (rdist2 a b - epsR).
Definition clear_points (l : list rv) : Prop :=
  (forall a b c, In a l -> In b l -> In c l -> clear_orient a b c) /\ (forall a b, In a l -> In b l -> clear_dist a b).
