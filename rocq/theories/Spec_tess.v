(** Specification side: how far a triangle mesh is from the surface it stands for. *)
From Coq Require Import Reals ZArith List.
From Verif Require Import Spec_r3 Spec_shape.
Import ListNotations.
Open Scope R_scope.

(** the points of a triangle *)
Definition in_triangle (a b c p : rv) : Prop :=
  exists u v w, 0 <= u /\ 0 <= v /\ 0 <= w /\ u + v + w = 1 /\
    p = RV (u * rx a + v * rx b + w * rx c) (u * ry a + v * ry b + w * ry c) (u * rz a + v * rz b + w * rz c).
(** the points of a mesh *)
Definition in_mesh (pos : Z -> rv) (tris : list (Z * Z * Z)) (p : rv) : Prop :=
  exists i j k, In (i, j, k) tris /\ in_triangle (pos i) (pos j) (pos k) p.
(** squared distance *)
Definition d2 (p q : rv) : R := (rx p - rx q) * (rx p - rx q) + (ry p - ry q) * (ry p - ry q) + (rz p - rz q) * (rz p - rz q).
Definition origin : rv := RV 0 0 0.
(** squared length of a step of the grid on the unit sphere, measured along a meridian and along the equator *)
Definition grid_step2 (sc st : Z) : R := (PI / IZR st) * (PI / IZR st) + (2 * PI / IZR sc) * (2 * PI / IZR sc).
(** the same on a torus *)
Definition torus_step2 (R0 r : R) (sc st : Z) : R :=
  (r * (2 * PI / IZR st)) * (r * (2 * PI / IZR st)) + ((R0 + r) * (2 * PI / IZR sc)) * ((R0 + r) * (2 * PI / IZR sc)).
