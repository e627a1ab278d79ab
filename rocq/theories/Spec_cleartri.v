(** Specification side: planar inputs on which no decision of Triangulate is within the rounding error of float64. *)
From Coq Require Import Reals List.
From Verif Require Import Spec_r3 Spec_plane Spec_delaunay Spec_acc64 Spec_clear Spec_circ64.
Import ListNotations.
Open Scope R_scope.

(** no point too close to the circle through three others; coinciding points have vanishing terms *)
Definition clear_circle (a b c p : rv) : Prop :=
  gamma 11 * incircle_terms a b c p < Rabs (incircle_det a b c p) \/ incircle_terms a b c p = 0.
(** different points are not too close compared with the size of the input *)
Definition well_spread (l : list rv) : Prop :=
  forall a u v, In a l -> In u l -> In v l -> samexy u v \/ / 2 ^ 49 * dist2xy a u <= dist2xy u v.
(** no point strictly inside the circle with diameter a b (an edge of the Gabriel graph) *)
Definition diametral (l : list rv) (a b : rv) : Prop :=
  ~ samexy a b /\ forall c, In c l -> 0 <= (rx c - rx a) * (rx c - rx b) + (ry c - ry a) * (ry c - ry b).
(** the radii of the triangles on the edge a b differ by more than their errors, or not at all *)
Definition clear_radii (l : list rv) (a b : rv) : Prop :=
  forall c d, In c l -> In d l -> ccw a b c <> 0 -> ccw a b d <> 0 ->
  mild a b c /\ radius_err a b c < radius2 a b c /\
  (radius2 a b c = radius2 a b d \/ radius_err a b c + radius_err a b d < Rabs (radius2 a b c - radius2 a b d)).
(** the error of the center of an empty circle, and of the distances to it, is small against the distances of the points *)
Definition clear_center (l : list rv) (a b c : rv) : Prop :=
  forall o r2, circle3 o r2 a b c -> (forall v, In v l -> r2 <= dist2xy v o) ->
  forall p q, In p l -> In q l -> samexy p q \/
    (4 * (center_err a b c * center_err a b c) < dist2xy p q /\
     / 2 ^ 48 * (dist2xy p o + dist2xy q o + rz p * rz p) < dist2xy p q).
Record clear_triangulation (l : list rv) : Prop := {
  ct_planar : planar l;
  ct_points : clear_points l;
  ct_circles : forall a b c p, In a l -> In b l -> In c l -> In p l -> ccw a b c <> 0 -> clear_circle a b c p;
  ct_spread : well_spread l;
  ct_radii : forall a b, In a l -> In b l -> diametral l a b -> clear_radii l a b;
  ct_center : forall a b c, In a l -> In b l -> In c l -> diametral l a b -> ccw a b c <> 0 -> clear_center l a b c }.
