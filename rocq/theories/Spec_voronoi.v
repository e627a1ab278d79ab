(** Specification side: nearest vertices, empty circles and the Voronoi diagram. *)
From Coq Require Import ZArith List Reals.
From Verif Require Import Spec_r3 Spec_plane Spec_delaunay Spec_delaunay2.
Import ListNotations.
Open Scope R_scope.

(** q is in the convex hull of the vertices: a weighted mean of three of them *)
Definition hull_point (pts : list rv) (T : list Z) (q : rv) : Prop :=
  exists u v w al be ga, In u T /\ In v T /\ In w T /\ mean_of (point pts u) (point pts v) (point pts w) q al be ga.
(** no vertex is strictly inside the circle *)
Definition free_circle (pts : list rv) (T : list Z) (o : rv) (r2 : R) : Prop := forall v, In v T -> r2 <= dist2xy (point pts v) o.
(** o is a corner of the Voronoi diagram: its nearest vertices, at squared distance r2, are not all on one line *)
Definition voronoi_corner (pts : list rv) (T : list Z) (o : rv) (r2 : R) : Prop :=
  free_circle pts T o r2 /\ exists u v w, In u T /\ In v T /\ In w T /\ circle3 o r2 (point pts u) (point pts v) (point pts w) /\
    ccw (point pts u) (point pts v) (point pts w) <> 0.
(** o and r2 are centre and squared radius of the circumcircle of a returned triangle *)
Definition circumcircle_of (pts : list rv) (T : list Z) (o : rv) (r2 : R) : Prop :=
  exists a b c, In (a, b, c) (triples T) /\ circle3 o r2 (point pts a) (point pts b) (point pts c).
(** the nearest vertices of u and v meet: some point has both as nearest vertices *)
Definition voronoi_neighbours (pts : list rv) (T : list Z) (u v : Z) : Prop :=
  exists o, dist2xy (point pts u) o = dist2xy (point pts v) o /\ free_circle pts T o (dist2xy (point pts u) o).
(** what the triangulation has to do with nearest vertices *)
Definition shows_nearest (pts : list rv) (T : list Z) : Prop :=
  (* the corners of the Voronoi diagram are exactly the circumcentres *)
  (forall o r2, voronoi_corner pts T o r2 <-> circumcircle_of pts T o r2) /\
  (* joined vertices are neighbours in the diagram; vertices with a point that has only them as nearest vertices are joined *)
  (forall u v, joined T u v -> voronoi_neighbours pts T u v) /\
  (forall u v o, In u T -> In v T -> u <> v -> dist2xy (point pts u) o = dist2xy (point pts v) o ->
    (forall w, In w T -> w <> u -> w <> v -> dist2xy (point pts u) o < dist2xy (point pts w) o) -> joined T u v) /\
  (* a largest empty circle with its centre in the hull: every such circle is smaller than a circumcircle, unless it is one *)
  (forall q s2, hull_point pts T q -> free_circle pts T q s2 -> exists o r2, circumcircle_of pts T o r2 /\ s2 + dist2xy q o <= r2) /\
  (* covering: if no circumradius is above m, every point of the hull has a vertex within m *)
  (forall m, (forall o r2, circumcircle_of pts T o r2 -> r2 <= m) -> forall q, hull_point pts T q -> exists v, In v T /\ dist2xy (point pts v) q <= m).
