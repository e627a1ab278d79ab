(** Lines and planes in real space, for Props_plane64.v *)
From Coq Require Import Reals.
From Verif Require Import Spec_r3.
Open Scope R_scope.

(** the sum of the absolute values of the coordinates *)
Definition size1 (n : rv) : R := Rabs (rx n) + Rabs (ry n) + Rabs (rz n).
(** the unit vector along [d] *)
Definition dirn (d : rv) : rv := RV (rx d / rnorm d) (ry d / rnorm d) (rz d / rnorm d).
(** the point at parameter [s] of the line through [p] along [d] *)
Definition line_point (p d : rv) (s : R) : rv := RV (rx p + s * rx d) (ry p + s * ry d) (rz p + s * rz d).
(** how far [x] is from satisfying the equation n.x = n.q of the plane *)
Definition plane_gap (n q x : rv) : R := Rabs (rdot n x - rdot n q).
