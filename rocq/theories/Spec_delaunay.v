(** Specification side: what a Delaunay triangulation of points in a horizontal plane is. *)
From Coq Require Import ZArith List Reals.
From Verif Require Import Spec_r3 Spec_plane Spec_halfedge.
Import ListNotations.
Open Scope R_scope.

(** all points have the same Z *)
Definition planar (pts : list rv) : Prop := forall a b, In a pts -> In b pts -> rz a = rz b.
(** the XY projections of all points are on one line *)
Definition on_a_line (l : list rv) : Prop :=
  exists nx ny k, (nx <> 0 \/ ny <> 0) /\ forall p, In p l -> nx * rx p + ny * ry p = k.
(** the point with a given index *)
Definition point (pts : list rv) (i : Z) : rv := nth (Z.to_nat i) pts (RV 0 0 0).
(** the corners of triangle k are the entries 3k, 3k+1, 3k+2 *)
Fixpoint triples (l : list Z) : list (Z * Z * Z) :=
  match l with a :: b :: c :: l' => (a, b, c) :: triples l' | _ => [] end.
(** area of a triangle given by three indices; positive when clockwise, which is the orientation
    the library uses *)
Definition area3 (pts : list rv) (t : Z * Z * Z) : R :=
  let '(a, b, c) := t in - ccw (point pts a) (point pts b) (point pts c) / 2.
(** no vertex is strictly inside the circumcircle of a triangle *)
Definition delaunay (pts : list rv) (T : list Z) : Prop :=
  forall a b c, In (a, b, c) (triples T) -> forall o r2,
    circle3 o r2 (point pts a) (point pts b) (point pts c) ->
    forall v, In v T -> r2 <= dist2xy (point pts v) o.
(** [I] are the vertices of the boundary, in order, so that each boundary half-edge runs from the
    end of an edge of I to its start *)
Definition boundary (T H : list Z) (I : list Z) : Prop :=
  NoDup I /\ forall u v, In (u, v) (polygon_edges I) <->
    exists e, (0 <= e < Z.of_nat (length T))%Z /\ entry H e = (-1)%Z /\ entry T e = v /\ entry T (corner_next e) = u.
(** the XY projection of q is strictly inside a clockwise triangle; inside it or on its edges *)
Definition in_triangle (pts : list rv) (q : rv) (t : Z * Z * Z) : Prop :=
  let '(a, b, c) := t in
  ccw (point pts a) (point pts b) q < 0 /\ ccw (point pts b) (point pts c) q < 0 /\ ccw (point pts c) (point pts a) q < 0.
Definition in_triangle_or_edge (pts : list rv) (q : rv) (t : Z * Z * Z) : Prop :=
  let '(a, b, c) := t in
  ccw (point pts a) (point pts b) q <= 0 /\ ccw (point pts b) (point pts c) q <= 0 /\ ccw (point pts c) (point pts a) q <= 0.
(** strictly inside a counter-clockwise convex polygon *)
Definition strictly_inside (h : list rv) (q : rv) : Prop := forall e, In e (polygon_edges h) -> 0 < ccw (fst e) (snd e) q.
