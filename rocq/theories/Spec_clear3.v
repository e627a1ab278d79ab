(** Specification side: points of space whose orientations and in-sphere determinants are clear of the rounding errors of float64. *)
From Coq Require Import Reals ZArith List.
From Verif Require Import Spec_r3 Spec_sphere Spec_acc64.
Import ListNotations.
Open Scope R_scope.

(** the determinant of b-a, c-a, p-a exceeds the error of eight roundings: p is clearly on one side of the plane through a, b, c *)
Definition clear_side (a b c p : rv) : Prop :=
  gamma 8 * perm3 (rsub b a) (rsub c a) (rsub p a) < Rabs (rdet3 (rsub b a) (rsub c a) (rsub p a)).
(** p and the opposite vertex are clear of the four faces of the tetrahedron a b c d *)
Definition clear_tetra (a b c d p : rv) : Prop :=
  (clear_side a b c d /\ clear_side b c d a /\ clear_side c d a b /\ clear_side d a b c) /\
  (clear_side a b c p /\ clear_side b c d p /\ clear_side c d a p /\ clear_side d a b p).
(** e is clear of the sphere through a, b, c, d: sixteen roundings *)
Definition clear_sphere (a b c d e : rv) : Prop :=
  gamma 16 * permanent5 a b c d e < Rabs (insphere_det a b c d e).
(** four different numbers below m *)
Definition four_of (m a b c d : Z) : Prop :=
  (0 <= a < m /\ 0 <= b < m /\ 0 <= c < m /\ 0 <= d < m)%Z /\ NoDup [a; b; c; d].
(** every point of the list, from position four on, is clear of the spheres through four earlier points *)
Definition clear_spheres (all : list rv) : Prop :=
  forall j a b c d, (4 <= j < length all)%nat -> four_of (Z.of_nat j) a b c d ->
  let P i := nth (Z.to_nat i) all rzero in clear_sphere (P a) (P b) (P c) (P d) (nth j all rzero).
(** q is p moved by at most r in every coordinate *)
Definition within (r : R) (p q : rv) : Prop := Rabs (rx p - rx q) <= r /\ Rabs (ry p - ry q) <= r /\ Rabs (rz p - rz q) <= r.
(** no coordinate of the points exceeds M *)
Definition all_below (M : R) (l : list rv) : Prop := forall p, In p l -> Rabs (rx p) <= M /\ Rabs (ry p) <= M /\ Rabs (rz p) <= M.
