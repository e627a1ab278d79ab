(** Specification side: points of a regular grid in space. *)
From Coq Require Import ZArith List Reals.
From Flocq Require Import Core.
From Verif Require Import Spec_r3 Spec_sphere Spec_bw.
Open Scope Z_scope.

(** k * 2^e *)
Definition grid_number (e k : Z) : R := (IZR k * bpow radix2 e)%R.
(** the grid point with integer coordinates i, j, k *)
Definition grid_point (e i j k : Z) : rv := RV (grid_number e i) (grid_number e j) (grid_number e k).
(** a grid point in the cube of side D whose lowest corner is (ox, oy, oz) *)
Definition in_cube (e ox oy oz D : Z) (v : rv) : Prop :=
  exists i j k, (ox <= i <= ox + D)%Z /\ (oy <= j <= oy + D)%Z /\ (oz <= k <= oz + D)%Z /\ v = grid_point e i j k.
(** exponents and corners for which the theorems of Props_grid3.v hold *)
Definition okgrid (e ox oy oz : Z) : Prop := -130 <= e <= 130 /\ Z.abs ox <= 2 ^ 51 /\ Z.abs oy <= 2 ^ 51 /\ Z.abs oz <= 2 ^ 51.
(** the in-sphere determinant of a tetrahedron (four positions in the list of points) and a point is not negative *)
Definition in_det (all : list rv) (p : rv) (q : quad) : Prop :=
  let '(a, b, c, d) := q in let P i := nth (Z.to_nat i) all rzero in (0 <= insphere_det (P a) (P b) (P c) (P d) p)%R.
