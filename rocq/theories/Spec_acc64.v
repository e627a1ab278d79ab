(** Specification side: rounding error bounds for determinants of coordinate differences. *)
From Coq Require Import Reals.
From Verif Require Import Spec_r3 Spec_plane.
Open Scope R_scope.

(** k roundings with relative error at most 2^-53 each *)
Definition gamma (k : nat) : R := (1 + / 2 ^ 53) ^ k - 1.
(** sums of the absolute values of the terms of the determinants *)
Definition area_terms (a b c : rv) : R :=
  Rabs (ry b - ry a) * Rabs (rx c - rx b) + Rabs (rx b - rx a) * Rabs (ry c - ry b).
Definition cross_terms (p a b : rv) : R :=
  Rabs (rx a - rx p) * Rabs (ry b - ry p) + Rabs (ry a - ry p) * Rabs (rx b - rx p).
(** the 3x3 determinant with rows (q - p, |q - p|^2) for q = a, b, c, in the plane *)
Definition incircle_det (a b c p : rv) : R :=
  (rx a - rx p) * ((ry b - ry p) * dist2xy c p - dist2xy b p * (ry c - ry p))
  - (ry a - ry p) * ((rx b - rx p) * dist2xy c p - dist2xy b p * (rx c - rx p))
  + dist2xy a p * ((rx b - rx p) * (ry c - ry p) - (ry b - ry p) * (rx c - rx p)).
Definition incircle_terms (a b c p : rv) : R :=
  Rabs (rx a - rx p) * (Rabs (ry b - ry p) * dist2xy c p + dist2xy b p * Rabs (ry c - ry p))
  + Rabs (ry a - ry p) * (Rabs (rx b - rx p) * dist2xy c p + dist2xy b p * Rabs (rx c - rx p))
  + dist2xy a p * (Rabs (rx b - rx p) * Rabs (ry c - ry p) + Rabs (ry b - ry p) * Rabs (rx c - rx p)).
Definition dot_terms (a b : rv) : R := Rabs (rx a) * Rabs (rx b) + Rabs (ry a) * Rabs (ry b) + Rabs (rz a) * Rabs (rz b).
Definition cross3 (a b : rv) : rv := RV (ry a * rz b - rz a * ry b) (rz a * rx b - rx a * rz b) (rx a * ry b - ry a * rx b).
Definition rnorm2 (a : rv) : R := rdot a a.
(** the cross product with every term replaced by its absolute value *)
Definition cross3_terms (a b : rv) : rv :=
  RV (Rabs (ry a) * Rabs (rz b) + Rabs (rz a) * Rabs (ry b)) (Rabs (rz a) * Rabs (rx b) + Rabs (rx a) * Rabs (rz b))
     (Rabs (rx a) * Rabs (ry b) + Rabs (ry a) * Rabs (rx b)).
