(** Specification side: tetrahedra and extremal points. *)
From Coq Require Import Reals List ZArith.
From Verif Require Import Spec_r3.
Import ListNotations.
Open Scope R_scope.

(** the combination l1 v1 + l2 v2 + l3 v3 + l4 v4 *)
Definition combine4 (l1 l2 l3 l4 : R) (v1 v2 v3 v4 : rv) : rv :=
  radd (radd (rscale l1 v1) (rscale l2 v2)) (radd (rscale l3 v3) (rscale l4 v4)).
(** p is a convex combination of the four points *)
Definition in_tetra (v1 v2 v3 v4 p : rv) : Prop :=
  exists l1 l2 l3 l4, 0 <= l1 /\ 0 <= l2 /\ 0 <= l3 /\ 0 <= l4 /\ l1 + l2 + l3 + l4 = 1 /\
    p = combine4 l1 l2 l3 l4 v1 v2 v3 v4.
(** p is strictly inside *)
Definition strictly_in_tetra (v1 v2 v3 v4 p : rv) : Prop :=
  exists l1 l2 l3 l4, 0 < l1 /\ 0 < l2 /\ 0 < l3 /\ 0 < l4 /\ l1 + l2 + l3 + l4 = 1 /\
    p = combine4 l1 l2 l3 l4 v1 v2 v3 v4.

(** m is the least / greatest value of f on l *)
Definition is_least {T} (f : T -> R) (l : list T) (m : R) : Prop :=
  (exists p, In p l /\ f p = m) /\ (forall p, In p l -> m <= f p).
Definition is_greatest {T} (f : T -> R) (l : list T) (m : R) : Prop :=
  (exists p, In p l /\ f p = m) /\ (forall p, In p l -> f p <= m).

(** the largest finite binary64 number *)
Definition maxfloat : R := 2 ^ 1024 - 2 ^ 971.

(** a flat index list made of triangles *)
Definition flatten (tris : list (Z * Z * Z)) : list Z :=
  flat_map (fun '(a, b, c) => [a; b; c]) tris.
