(** Specification side: triangle meshes given by positions and an index list. *)
From Coq Require Import Reals ZArith List.
From Verif Require Import Spec_r3.
Import ListNotations.
Open Scope R_scope.

Fixpoint triangles_of (l : list Z) : list (Z * Z * Z) :=
  match l with a :: b :: c :: l' => (a, b, c) :: triangles_of l' | _ => [] end.
Definition corner (t : Z * Z * Z) (k : Z) : Prop := let '(a, b, c) := t in k = a \/ k = b \/ k = c.
(** triangle t has corners at the positions P and Q *)
Definition has_edge (pos : Z -> rv) (t : Z * Z * Z) (P Q : rv) : Prop :=
  P <> Q /\ (exists k, corner t k /\ pos k = P) /\ (exists k, corner t k /\ pos k = Q).
(** every edge is on at least two triangles; coincident vertices are identified *)
Definition closed_mesh (pos : Z -> rv) (tris : list (Z * Z * Z)) : Prop :=
  forall a t P Q, nth_error tris a = Some t -> has_edge pos t P Q ->
  exists b t', b <> a /\ nth_error tris b = Some t' /\ has_edge pos t' P Q.

Definition on_sphere (c : rv) (r : R) (v : rv) : Prop := rdist v c = r.
Definition on_torus (c : rv) (R0 r : R) (v : rv) : Prop :=
  (sqrt (Rsqr (rx v - rx c) + Rsqr (ry v - ry c)) - R0) * (sqrt (Rsqr (rx v - rx c) + Rsqr (ry v - ry c)) - R0) +
  (rz v - rz c) * (rz v - rz c) = r * r.
Definition on_ellipse (c : rv) (a b : R) (v : rv) : Prop :=
  rz v = rz c /\ Rsqr ((rx v - rx c) / a) + Rsqr ((ry v - ry c) / b) = 1.
