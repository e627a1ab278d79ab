(** Specification side: other triangulations of the same vertices, angles, enclosing circles. *)
From Coq Require Import ZArith List Reals.
From Verif Require Import Spec_r3 Spec_plane Spec_delaunay Spec_delaunay2.
Import ListNotations.
Open Scope R_scope.

(** [S] is a triangulation of the vertices [V]: clockwise triangles of vertices, no vertex in a triangle except at its
    corners, and together they cover the convex hull (every weighted mean of three vertices) *)
Definition triangulates (pts : list rv) (V : list Z) (S : list (Z * Z * Z)) : Prop :=
  (forall a b c, In (a, b, c) S -> In a V /\ In b V /\ In c V /\ ccw (point pts a) (point pts b) (point pts c) < 0) /\
  (forall a b c v, In (a, b, c) S -> In v V -> in_triangle_or_edge pts (point pts v) (a, b, c) -> v = a \/ v = b \/ v = c) /\
  (forall u v w q al be ga, In u V -> In v V -> In w V -> mean_of (point pts u) (point pts v) (point pts w) q al be ga ->
     exists t, In t S /\ in_triangle_or_edge pts q t).
(** the angle at p between the directions to q and to r *)
Definition angle (p q r : rv) : R :=
  acos (((rx q - rx p) * (rx r - rx p) + (ry q - ry p) * (ry r - ry p)) / (sqrt (dist2xy q p) * sqrt (dist2xy r p))).
(** the smallest angle of a list of triangles *)
Fixpoint min_angle (pts : list rv) (S : list (Z * Z * Z)) : R :=
  match S with
  | [] => PI
  | (a, b, c) :: S' => let A := point pts a in let B := point pts b in let C := point pts c in
      Rmin (Rmin (angle A B C) (Rmin (angle B C A) (angle C A B))) (min_angle pts S')
  end.
(** some circle of squared radius r2 has the whole triangle inside or on it *)
Definition fits (pts : list rv) (r2 : R) (t : Z * Z * Z) : Prop :=
  let '(a, b, c) := t in exists o, dist2xy (point pts a) o <= r2 /\ dist2xy (point pts b) o <= r2 /\ dist2xy (point pts c) o <= r2.
(** x y z are the corners of a triangle of [S], starting from some corner *)
Definition has_corner (S : list (Z * Z * Z)) (x y z : Z) : Prop := In (x, y, z) S \/ In (y, z, x) S \/ In (z, x, y) S.
