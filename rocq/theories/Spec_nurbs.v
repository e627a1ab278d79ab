(** Specification side: B-spline basis functions by the Cox-de Boor recursion. *)
From Coq Require Import Reals ZArith List.
From Verif Require Import Spec_r3.
Import ListNotations.
Open Scope R_scope.

(** knot k of a list of integer knots *)
Definition knot (U : list Z) (k : Z) : R := IZR (nth (Z.to_nat k) U 0%Z).
Definition nondecreasing (U : list Z) : Prop :=
  forall a b, (0 <= a <= b)%Z -> (b < Z.of_nat (length U))%Z -> knot U a <= knot U b.
(** a / b with 0 / 0 = 0 *)
Definition quo (a b : R) : R := if Req_EM_T b 0 then 0 else a / b.
(** the recursion over degree-0 functions [B0] *)
Fixpoint coxdeboor (t : Z -> R) (B0 : Z -> R) (d : nat) (k : Z) (u : R) : R :=
  match d with
  | O => B0 k
  | S d' =>
      quo (u - t k) (t (k + Z.of_nat d)%Z - t k) * coxdeboor t B0 d' k u +
      quo (t (k + Z.of_nat d + 1)%Z - u) (t (k + Z.of_nat d + 1)%Z - t (k + 1)%Z) * coxdeboor t B0 d' (k + 1)%Z u
  end.
(** degree-0 functions: indicator of the half-open knot interval *)
Definition half_open (t : Z -> R) (u : R) (k : Z) : R :=
  if Rle_dec (t k) u then if Rlt_dec u (t (k + 1)%Z) then 1 else 0 else 0.
(** B-spline N_{k,d}(u) *)
Definition bspline (t : Z -> R) (d : nat) (k : Z) (u : R) : R := coxdeboor t (half_open t u) d k u.
(** the polynomial that N_{k,d} is on knot span i *)
Definition bpiece (t : Z -> R) (i : Z) (d : nat) (k : Z) (u : R) : R :=
  coxdeboor t (fun k => if Z.eq_dec k i then 1 else 0) d k u.

Fixpoint rsum (f : Z -> R) (n : nat) : R :=
  match n with O => 0 | S m => rsum f m + f (Z.of_nat m) end.
Fixpoint vsum (f : Z -> rv) (n : nat) : rv :=
  match n with O => rzero | S m => radd (vsum f m) (f (Z.of_nat m)) end.
