(** Specification side: walking through a triangulation towards a point. *)
From Coq Require Import ZArith List Reals.
From Verif Require Import Spec_r3 Spec_plane Spec_halfedge Spec_delaunay.
Import ListNotations.
Open Scope R_scope.

(** q is strictly on the other side of half-edge e than the (clockwise) triangle e belongs to *)
Definition beyond (pts : list rv) (T : list Z) (q : rv) (e : Z) : Prop :=
  0 < ccw (point pts (entry T e)) (point pts (entry T (corner_next e))) q.
(** triangle k' is across an edge of triangle k that separates k from q *)
Definition towards (pts : list rv) (T H : list Z) (q : rv) (k k' : Z) : Prop :=
  exists e, (0 <= e < Z.of_nat (length T))%Z /\ (e / 3 = k)%Z /\ beyond pts T q e /\ entry H e <> (-1)%Z /\ (entry H e / 3 = k')%Z.
(** triangles each of which is reached from the one before across such an edge (any such edge) *)
Inductive walk (pts : list rv) (T H : list Z) (q : rv) : list Z -> Prop :=
| walk_one k : (0 <= 3 * k < Z.of_nat (length T))%Z -> walk pts T H q [k]
| walk_cons k k' l : towards pts T H q k k' -> walk pts T H q (k' :: l) -> walk pts T H q (k :: k' :: l).
(** the corners of triangle k *)
Definition corners (T : list Z) (k : Z) : Z * Z * Z := (entry T (3 * k), entry T (3 * k + 1), entry T (3 * k + 2)).
