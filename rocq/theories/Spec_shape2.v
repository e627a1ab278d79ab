(** Specification side: orientation of triangle meshes. *)
From Coq Require Import Reals ZArith List.
From Verif Require Import Spec_r3 Spec_shape.
Import ListNotations.
Open Scope R_scope.

(** the directed sides of a triangle *)
Definition sides (t : Z * Z * Z) : list (Z * Z) := let '(a, b, c) := t in [(a, b); (b, c); (c, a)].
(** no two triangles run through an edge in the same direction, and none degenerates in its indices *)
Definition oriented (tris : list (Z * Z * Z)) : Prop := NoDup (flat_map sides tris) /\ forall a b, In (a, b) (flat_map sides tris) -> a <> b.

(** the volume of the parallelepiped spanned by three vectors: positive when a, b, c are seen counterclockwise from outside, the origin being inside *)
Definition det3 (a b c : rv) : R :=
  rx a * (ry b * rz c - rz b * ry c) - ry a * (rx b * rz c - rz b * rx c) + rz a * (rx b * ry c - ry b * rx c).
(** the normal direction of the triangle a, b, c *)
Definition tri_normal (a b c : rv) : rv :=
  let u := rsub b a in let v := rsub c a in
  RV (ry u * rz v - rz u * ry v) (rz u * rx v - rx u * rz v) (rx u * ry v - ry u * rx v).
(** the outward direction of a torus around the z axis at p: away from the nearest point of its core circle *)
Definition torus_out (R0 : R) (p : rv) : rv :=
  let d := sqrt (rx p * rx p + ry p * ry p) in RV ((1 - R0 / d) * rx p) ((1 - R0 / d) * ry p) (rz p).

(** an edge of two triangles *)
Definition shared (pos : Z -> rv) (tris : list (Z * Z * Z)) (a : nat) (P Q : rv) : Prop :=
  exists b t', b <> a /\ nth_error tris b = Some t' /\ has_edge pos t' P Q.
