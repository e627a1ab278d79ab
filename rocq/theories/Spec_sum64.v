(** Specification side: the magnitudes against which the polygon area and the area of a triangle list are accurate. *)
From Coq Require Import Reals List ZArith.
From Verif Require Import Spec_r3 Spec_plane Spec_delaunay Spec_acc64.
Import ListNotations.
Open Scope R_scope.

Definition polygon_terms (l : list rv) : R :=
  Rsum (map (fun e => Rabs (rx (fst e) - rx (snd e)) * Rabs (ry (fst e) + ry (snd e))) (polygon_edges l)) / 2.
Definition triangle_terms (pts : list rv) (T : list Z) : R :=
  Rsum (map (fun t => let '(a, b, c) := t in area_terms (point pts a) (point pts b) (point pts c)) (triples T)) / 2.
