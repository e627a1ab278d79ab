(** Specification side: which edges and triangles a Delaunay triangulation must have. *)
From Coq Require Import ZArith List Reals.
From Verif Require Import Spec_r3 Spec_plane Spec_delaunay.
Import ListNotations.
Open Scope R_scope.

(** u and v are two corners of one triangle *)
Definition joined (T : list Z) (u v : Z) : Prop :=
  u <> v /\ exists a b c, In (a, b, c) (triples T) /\ In u [a; b; c] /\ In v [a; b; c].
(** the triangle a b c is there, starting from some corner *)
Definition has_triangle (T : list Z) (a b c : Z) : Prop :=
  In (a, b, c) (triples T) \/ In (b, c, a) (triples T) \/ In (c, a, b) (triples T).
(** the vertices of [T] other than those of [S] are strictly outside the circle *)
Definition empty_circle (pts : list rv) (T : list Z) (o : rv) (r2 : R) (S : list Z) : Prop :=
  (forall v, In v S -> dist2xy (point pts v) o = r2) /\
  forall w, In w T -> ~ In w S -> r2 < dist2xy (point pts w) o.
(** squared distance of two vertices *)
Definition d2 (pts : list rv) (u v : Z) : R := dist2xy (point pts u) (point pts v).
(** v is a nearest vertex to the vertex u *)
Definition nearest_vertex (pts : list rv) (T : list Z) (u v : Z) : Prop :=
  In v T /\ v <> u /\ forall w, In w T -> w <> u -> d2 pts u v <= d2 pts u w.
(** no other vertex in the closed disc with diameter uv: the angle u w v is acute *)
Definition gabriel (pts : list rv) (T : list Z) (u v : Z) : Prop :=
  forall w, In w T -> w <> u -> w <> v -> d2 pts u v < d2 pts u w + d2 pts w v.
(** a path from u to v along edges of triangles, each of squared length at most [m] *)
Inductive hops (pts : list rv) (T : list Z) (m : R) : Z -> Z -> Prop :=
| hops_nil u : hops pts T m u u
| hops_cons u w v : joined T u w -> d2 pts u w <= m -> hops pts T m w v -> hops pts T m u v.
(** a path along edges of triangles on which the distance to [q] strictly decreases *)
Inductive descends (pts : list rv) (T : list Z) (q : rv) : Z -> Z -> Prop :=
| desc_nil u : descends pts T q u u
| desc_cons u w v : joined T u w -> dist2xy (point pts w) q < dist2xy (point pts u) q -> descends pts T q w v -> descends pts T q u v.
(** no four different points on one circle *)
Definition no_four_cocircular (pts : list rv) : Prop :=
  forall a b c d o r2, In a pts -> In b pts -> In c pts -> In d pts -> NoDup [a; b; c; d] ->
    ~ (dist2xy a o = r2 /\ dist2xy b o = r2 /\ dist2xy c o = r2 /\ dist2xy d o = r2).
(** no point strictly inside the circle *)
Definition circle_free (pts : list rv) (o : rv) (r2 : R) : Prop := forall p, In p pts -> r2 <= dist2xy p o.
(** the positions of the corners of the triangles *)
Definition triangle_at (pts : list rv) (T : list Z) (A B C : rv) : Prop :=
  exists a b c, has_triangle T a b c /\ point pts a = A /\ point pts b = B /\ point pts c = C.
(** q is the weighted mean of a, b, c in the plane, with weights that are not negative *)
Definition mean_of (a b c q : rv) (al be ga : R) : Prop :=
  0 <= al /\ 0 <= be /\ 0 <= ga /\ al + be + ga = 1 /\ rx q = al * rx a + be * rx b + ga * rx c /\ ry q = al * ry a + be * ry b + ga * ry c.
(** the weighted mean of the squared distances: the error at q of interpolating the paraboloid linearly *)
Definition spread (a b c q : rv) (al be ga : R) : R := al * dist2xy a q + be * dist2xy b q + ga * dist2xy c q.
