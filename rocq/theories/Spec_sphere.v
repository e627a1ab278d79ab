(** Specification side: spheres, independent of the predicates' formulas. *)
From Coq Require Import Reals.
From Verif Require Import Spec_r3.
Open Scope R_scope.

Definition on_sphere (o : rv) (r2 : R) (p : rv) : Prop := rdist2 p o = r2.
Definition inside_sphere (o : rv) (r2 : R) (p : rv) : Prop := rdist2 p o < r2.
Definition outside_sphere (o : rv) (r2 : R) (p : rv) : Prop := rdist2 p o > r2.

Definition circumsphere (o : rv) (r2 : R) (a b c d : rv) : Prop :=
  on_sphere o r2 a /\ on_sphere o r2 b /\ on_sphere o r2 c /\ on_sphere o r2 d.

(** signed volume (times 6) of the parallelepiped spanned at [d] *)
Definition signed_volume (a b c d : rv) : R := rdet3 (rsub a d) (rsub b d) (rsub c d).

(** permanent of the matrix of absolute values *)
Definition perm3 (u v w : rv) : R :=
  Rabs (rx u) * (Rabs (ry v) * Rabs (rz w) + Rabs (rz v) * Rabs (ry w))
  + Rabs (ry u) * (Rabs (rx v) * Rabs (rz w) + Rabs (rz v) * Rabs (rx w))
  + Rabs (rz u) * (Rabs (rx v) * Rabs (ry w) + Rabs (ry v) * Rabs (rx w)).
Definition permanent5 (a b c d e : rv) : R :=
  rdist2 a e * perm3 (rsub b e) (rsub c e) (rsub d e)
  + rdist2 b e * perm3 (rsub a e) (rsub c e) (rsub d e)
  + rdist2 c e * perm3 (rsub a e) (rsub b e) (rsub d e)
  + rdist2 d e * perm3 (rsub a e) (rsub b e) (rsub c e).

(** the 4x4 determinant with rows (p - e, |p - e|^2), expanded along the last column *)
Definition insphere_det (a b c d e : rv) : R :=
  rdist2 a e * rdet3 (rsub b e) (rsub c e) (rsub d e)
  - rdist2 b e * rdet3 (rsub a e) (rsub c e) (rsub d e)
  + rdist2 c e * rdet3 (rsub a e) (rsub b e) (rsub d e)
  - rdist2 d e * rdet3 (rsub a e) (rsub b e) (rsub c e).
