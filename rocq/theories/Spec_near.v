(** Statements about vectors near each other, for Props_float2.v *)
From Coq Require Import Reals.
From Verif Require Import Spec_r3.
Open Scope R_scope.

(** every coordinate of [a] is within [d] of that of [b] *)
Definition close3 (d : R) (a b : rv) : Prop := Rabs (rx a - rx b) <= d /\ Rabs (ry a - ry b) <= d /\ Rabs (rz a - rz b) <= d.
(** every coordinate is at most [M] in absolute value *)
Definition bounded3 (M : R) (a : rv) : Prop := Rabs (rx a) <= M /\ Rabs (ry a) <= M /\ Rabs (rz a) <= M.
(** [p] lies in the axis-parallel box between [lo] and [hi] *)
Definition in_box (lo hi p : rv) : Prop := rx lo <= rx p <= rx hi /\ ry lo <= ry p <= ry hi /\ rz lo <= rz p <= rz hi.
(** the point at parameter [t] of the segment from [a] to [b] *)
Definition segment_point (a b : rv) (t : R) : rv :=
  RV (rx a * (1 - t) + rx b * t) (ry a * (1 - t) + ry b * t) (rz a * (1 - t) + rz b * t).
(** the mean of four points *)
Definition mean_point (a b c d : rv) : rv :=
  RV ((rx a + rx b + rx c + rx d) / 4) ((ry a + ry b + ry c + ry d) / 4) ((rz a + rz b + rz c + rz d) / 4).
