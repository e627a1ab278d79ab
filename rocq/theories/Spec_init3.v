(** Specification side: a vertex chosen by a maximum up to rounding errors. *)
From Coq Require Import Reals List.
From Verif Require Import Spec_r3 Spec_sphere Spec_acc64.
Import ListNotations.
Open Scope R_scope.

(** [val] is measured with an error of at most [err]. The chosen point [w] comes from the list and nothing in the list exceeds it by
    more than both errors; or nothing exceeds zero by more than its error and the choice is the origin *)
Definition near_greatest (val err : rv -> R) (l : list rv) (w : rv) : Prop :=
  (In w l /\ - err w < val w /\ forall q, In q l -> val q <= val w + (err w + err q)) \/
  (w = rzero /\ forall q, In q l -> val q <= err q).
(** squared area of the parallelogram a b q; determinant of the parallelepiped a b c q *)
Definition area_sq (a b q : rv) : R := rnorm2 (cross3 (rsub b a) (rsub q a)).
Definition area_sq_err (a b q : rv) : R := gamma 11 * rnorm2 (cross3_terms (rsub b a) (rsub q a)).
Definition volume6 (a b c q : rv) : R := rdet3 (rsub b a) (rsub c a) (rsub q a).
Definition volume6_err (a b c q : rv) : R := gamma 8 * perm3 (rsub b a) (rsub c a) (rsub q a).
