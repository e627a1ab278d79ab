(** Specification side: squared distance to a line and to a plane as attained minima. *)
From Coq Require Import Reals.
From Verif Require Import Spec_r3.
Open Scope R_scope.

Definition line_point (a b x : rv) : Prop := exists t, x = radd a (rscale t (rsub b a)).
Definition plane_point (a b c x : rv) : Prop :=
  exists s t, x = radd a (radd (rscale s (rsub b a)) (rscale t (rsub c a))).
(** d2 is the squared distance of p to the set S *)
Definition set_dist2 (S : rv -> Prop) (p : rv) (d2 : R) : Prop :=
  (exists x, S x /\ rdist2 p x = d2) /\ forall x, S x -> d2 <= rdist2 p x.
Definition line_dist2 (a b : rv) := set_dist2 (line_point a b).
Definition plane_dist2 (a b c : rv) := set_dist2 (plane_point a b c).

Definition rcross (a b : rv) : rv :=
  RV (ry a * rz b - rz a * ry b) (rz a * rx b - rx a * rz b) (rx a * ry b - ry a * rx b).
Definition collinear3 (a b c : rv) : Prop :=
  exists d, d <> rzero /\ (exists s, rsub b a = rscale s d) /\ (exists t, rsub c a = rscale t d).
(** the largest finite float32 *)
Definition maxfloat32 : R := 2 ^ 128 - 2 ^ 104.
