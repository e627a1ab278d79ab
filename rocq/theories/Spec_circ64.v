(** Specification side: how well circumcenters and circumradii of triangles are conditioned. *)
From Coq Require Import Reals.
From Verif Require Import Spec_r3 Spec_plane Spec_acc64.
Open Scope R_scope.

(** the terms of the determinant relative to the determinant: at least 1, large for flat triangles *)
Definition cond (a b c : rv) : R := cross_terms a b c / Rabs (ccw a b c).
(** the circumcenter relative to a is a quotient; its terms with every sign dropped, for x and for y *)
Definition circ_x (a b c : rv) : R :=
  (Rabs (ry c - ry a) * dist2xy b a + Rabs (ry b - ry a) * dist2xy c a) / (2 * Rabs (ccw a b c)).
Definition circ_y (a b c : rv) : R :=
  (Rabs (rx b - rx a) * dist2xy c a + Rabs (rx c - rx a) * dist2xy b a) / (2 * Rabs (ccw a b c)).
Definition circ_terms (a b c : rv) : R := circ_x a b c + circ_y a b c.
(** error bounds for the center (|dx| + |dy|) and for the squared radius *)
Definition center_err (a b c : rv) : R := / 2 ^ 48 * cond a b c * circ_terms a b c + / 2 ^ 53 * (Rabs (rx a) + Rabs (ry a)).
Definition radius_err (a b c : rv) : R := / 2 ^ 47 * cond a b c * (circ_terms a b c * circ_terms a b c).
(** not so flat that the bounds mean nothing, not so large that squares overflow *)
Definition mild (a b c : rv) : Prop := ccw a b c <> 0 /\ cond a b c <= 2 ^ 48 /\ circ_terms a b c <= 2 ^ 400.
(** the squared circumradius from the three sides *)
Definition radius2 (a b c : rv) : R := dist2xy a b * dist2xy b c * dist2xy c a / (4 * (ccw a b c * ccw a b c)).
