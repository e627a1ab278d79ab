(** Specification side of higher derivatives of B-spline curves. *)
From Coq Require Import Reals ZArith List.
From Verif Require Import Base Arith M_r3 Spec_r3 Spec_nurbs Spec_spline.
Import ListNotations.
Open Scope R_scope.

(** control points of the k-th derivative: the difference quotients of those of the derivative before *)
Inductive higher (U : list Z) (P : list rv) (n p : Z) : nat -> list rv -> Prop :=
| higher_0 : higher U P n p 0 P
| higher_S k Q Q' : higher U P n p k Q -> hodograph (skipn k U) Q (n - Z.of_nat k) (p - Z.of_nat k) Q' -> higher U P n p (S k) Q'.
(** f has k derivatives between lo and hi, the last of them continuous *)
Definition smooth (k : nat) (f : R -> R) (lo hi : R) : Prop :=
  exists g : nat -> R -> R, (forall u, lo < u < hi -> g 0%nat u = f u) /\
    (forall j u, (j < k)%nat -> lo < u < hi -> derivable_pt_lim (g j) u (g (S j) u)) /\
    (forall u, lo < u < hi -> continuity_pt (g k) u).
(** a polynomial of degree at most d *)
Definition polynomial (d : nat) (f : R -> R) : Prop := exists c : nat -> R, forall u, f u = sum_f_R0 (fun j => c j * u ^ j) d.
(** the difference quotients of f at x from the right, and from the left, tend to l *)
Definition right_slope (f : R -> R) (x l : R) : Prop := forall e, 0 < e -> exists d, 0 < d /\ forall h, 0 < h < d -> Rabs ((f (x + h) - f x) / h - l) < e.
Definition left_slope (f : R -> R) (x l : R) : Prop := forall e, 0 < e -> exists d, 0 < d /\ forall h, 0 < h < d -> Rabs ((f x - f (x - h)) / h - l) < e.
