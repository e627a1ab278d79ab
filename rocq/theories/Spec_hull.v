(** What the boundary of a planar point set is, without reference to any algorithm. *)
From Coq Require Import List Reals.
From Verif Require Import Spec_r3 Spec_plane.
Import ListNotations.
Open Scope R_scope.

(** some line through [v] has all of [vs] on one (closed) side *)
Definition on_boundary (vs : list rv) (v : rv) : Prop :=
  exists nx ny, (nx <> 0 \/ ny <> 0) /\ forall q, In q vs -> nx * rx q + ny * ry q <= nx * rx v + ny * ry v.
Definition not_on_line (vs : list rv) : Prop := exists a b c, In a vs /\ In b vs /\ In c vs /\ ccw a b c <> 0.

(** a corner point: strictly furthest in some direction *)
Definition corner (vs : list rv) (v : rv) : Prop :=
  exists nx ny, forall q, In q vs -> q <> v -> nx * rx q + ny * ry q < nx * rx v + ny * ry v.
