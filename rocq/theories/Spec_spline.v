(** Specification side of B-spline curves: de Boor's algorithm, Bernstein polynomials, difference
    quotients of control points, and what it means to be the data of a curve. *)
From Coq Require Import Reals ZArith List.
From Verif Require Import Base Arith M_r3 Spec_r3 Spec_nurbs.
Import ListNotations.
Open Scope R_scope.

(** one round of de Boor's algorithm: coefficient k becomes a weighted mean of coefficients k-1 and k *)
Definition mix (t : Z -> R) (u : R) (d : nat) (c : Z -> R) (k : Z) : R :=
  ((u - t k) * c k + (t (k + Z.of_nat d)%Z - u) * c (k - 1)%Z) / (t (k + Z.of_nat d)%Z - t k).
(** degree d, coefficients c, span i *)
Fixpoint deboor (t : Z -> R) (u : R) (d : nat) (c : Z -> R) (i : Z) : R :=
  match d with O => c i | S d' => deboor t u d' (mix t u d c) i end.

(** product and sum of the d knots after knot k *)
Fixpoint knot_product (t : Z -> R) (x : R) (d : nat) (k : Z) : R :=
  match d with O => 1 | S d' => knot_product t x d' k * (x - t (k + Z.of_nat d)%Z) end.
Fixpoint knot_sum (t : Z -> R) (d : nat) (k : Z) : R :=
  match d with O => 0 | S d' => knot_sum t d' k + t (k + Z.of_nat d)%Z end.

(** Bernstein polynomials *)
Definition bernstein (d r : nat) (x : R) : R := Binomial.C d r * x ^ r * (1 - x) ^ (d - r).

(** difference quotients of the coefficients of a curve of degree d *)
Definition slope (t : Z -> R) (d : nat) (c : Z -> R) (k : Z) : R :=
  (c k - c (k - 1)%Z) / (t (k + Z.of_nat d)%Z - t k).

(** knots, control points, last index and degree of a curve *)
Definition curve_data (U : list Z) (P : list rv) (n p : Z) : Prop :=
  nondecreasing U /\ (0 <= p <= n)%Z /\ (n + p < Z.of_nat (length U))%Z /\
  (n + 1 < Z.of_nat (length U))%Z /\ (n < Z.of_nat (length P))%Z.
(** the parameters of a curve; the right end only if the last span is not empty *)
Definition in_domain (U : list Z) (n p : Z) (u : R) : Prop :=
  knot U p <= u <= knot U (n + 1) /\ (u = knot U (n + 1) -> knot U n < u).
(** no m+1 inner knots in a row are equal *)
Definition multiplicity_at_most (U : list Z) (n p m : Z) : Prop :=
  forall k, (p < k)%Z -> (k + m <= n)%Z -> knot U k < knot U (k + m).

Inductive axis := AX | AY | AZ.
Definition rc (a : axis) : rv -> R := match a with AX => rx | AY => ry | AZ => rz end.
(** coordinate of control point k *)
Definition cp (a : axis) (P : list rv) (k : Z) : R := rc a (nth (Z.to_nat k) P rzero).
(** a finite coordinate of a returned point (0 when there is none; used where the point is known to be finite) *)
Definition coordinate (a : axis) (r : res (vec XR)) : R :=
  match r with
  | Ok v => match (match a with AX => vx v | AY => vy v | AZ => vz v end) with Fin x => x | _ => 0 end
  | _ => 0
  end.
(** control points of the derivative: n points, for the knots without the first one *)
Definition hodograph (U : list Z) (P : list rv) (n p : Z) (Q : list rv) : Prop :=
  (n <= Z.of_nat (length Q))%Z /\
  forall a k, (0 <= k < n)%Z -> knot U (k + 1) < knot U (k + 1 + p) ->
    cp a Q k = IZR p * (cp a P (k + 1) - cp a P k) / (knot U (k + 1 + p) - knot U (k + 1)).
(** maps that keep weighted means of two points *)
Definition affine (f : rv -> rv) : Prop := forall s a b,
  f (radd (rscale s a) (rscale (1 - s) b)) = radd (rscale s (f a)) (rscale (1 - s) (f b)).
