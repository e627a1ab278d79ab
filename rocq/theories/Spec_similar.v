(** Specification side: moving and scaling the input, and sorts that only look at comparisons of the sorted elements. *)
From Coq Require Import Reals ZArith List.
From Verif Require Import Spec_r3.
Import ListNotations.
Open Scope R_scope.

(** scale by k about the origin, then move in the plane *)
Definition similar (k tx ty : R) (p : rv) : rv := RV (k * rx p + tx) (k * ry p + ty) (k * rz p).
(** a sort that depends only on how the elements to be sorted compare *)
Definition sort_local (sort : (Z -> Z -> bool) -> list Z -> list Z) : Prop :=
  forall less less' l, (forall a b, In a l -> In b l -> less a b = less' a b) -> sort less l = sort less' l.
(** the same in space: scale by k, then move *)
Definition similar3 (k : R) (t p : rv) : rv := RV (k * rx p + rx t) (k * ry p + ry t) (k * rz p + rz t).
