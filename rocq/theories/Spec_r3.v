(** Specification side: plain real 3-vectors, independent of the model. *)
From Coq Require Import Reals.
Open Scope R_scope.

Record rv : Type := RV { rx : R; ry : R; rz : R }.

Definition rzero : rv := RV 0 0 0.
Definition radd (a b : rv) : rv := RV (rx a + rx b) (ry a + ry b) (rz a + rz b).
Definition rsub (a b : rv) : rv := RV (rx a - rx b) (ry a - ry b) (rz a - rz b).
Definition rscale (k : R) (a : rv) : rv := RV (k * rx a) (k * ry a) (k * rz a).
Definition rdot (a b : rv) : R := rx a * rx b + ry a * ry b + rz a * rz b.
Definition rnorm (a : rv) : R := sqrt (rdot a a).
Definition rdist2 (a b : rv) : R := rdot (rsub a b) (rsub a b).
Definition rdist (a b : rv) : R := sqrt (rdist2 a b).

(** determinant with rows a, b, c *)
Definition rdet3 (a b c : rv) : R :=
  rx a * (ry b * rz c - rz b * ry c)
  - ry a * (rx b * rz c - rz b * rx c)
  + rz a * (rx b * ry c - ry b * rx c).

Definition orthogonal (a b : rv) : Prop := rdot a b = 0.

(** [x] is on the line through [p] with direction [d] *)
Definition on_line (p d x : rv) : Prop := exists t, x = radd p (rscale t d).
(** [x] is on the plane through [q] with normal [n] *)
Definition on_plane (n q x : rv) : Prop := rdot n (rsub x q) = 0.
(** linear dependence of two vectors *)
Definition parallel (a b : rv) : Prop :=
  exists s t, (s <> 0 \/ t <> 0) /\ rscale s a = rscale t b.
(** four points in one plane: some non-trivial plane contains them *)
Definition coplanar (a b c d : rv) : Prop :=
  exists n, n <> rzero /\ rdot n (rsub a d) = 0 /\ rdot n (rsub b d) = 0 /\ rdot n (rsub c d) = 0.
