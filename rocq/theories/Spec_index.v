(** What can be indexed safely in a triangulation, written without the code of triangulate2. *)
From Coq Require Import ZArith List.
From Verif Require Import Arith M_r3 M_tri2.
Import ListNotations.
Open Scope Z_scope.

Section Index.
Context {A : Arith}.
(** the triangle list is cut into triples of positions of points; every half-edge entry is -1 or a position of the
    half-edge list; the two lists have the same length *)
Definition index_valid (T : Triangulation A) : Prop :=
  (exists q, length (tTriangles T) = (3 * q)%nat) /\
  length (tHalfedges T) = length (tTriangles T) /\
  (forall k, In k (tTriangles T) -> 0 <= k < Z.of_nat (length (tVectors T))) /\
  (forall h, In h (tHalfedges T) -> -1 <= h < Z.of_nat (length (tHalfedges T))).
End Index.
