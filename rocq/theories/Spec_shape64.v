(** What is assumed of math.Cos, math.Sin and the constants derived from math.Pi in binary64, and distances of computed
    points from exact ones. *)
From Coq Require Import Reals ZArith.
From Flocq Require Import Core BinarySingleNaN.
From Verif Require Import Arith M_r3 M_shape Spec_r3.
Open Scope R_scope.

(** x is finite and within e of v *)
Definition within (x : B64) (v e : R) : Prop := is_finite (x : b64) = true /\ Rabs (B2R (x : b64) - v) <= e.
(** the constants are correct to a few units in the last place; cosine and sine are correct to eps for the arguments the
    package uses *)
Definition trig_acc (G : Trig B64) (eps : R) : Prop :=
  within (tPi G) PI (bpow radix2 (-50)) /\ within (tPi2 G) (2 * PI) (bpow radix2 (-50)) /\ within (tPiH G) (PI / 2) (bpow radix2 (-50)) /\
  (forall x : B64, is_finite (x : b64) = true -> Rabs (B2R (x : b64)) <= 16 ->
     within (tcos G x) (cos (B2R (x : b64))) eps /\ within (tsin G x) (sin (B2R (x : b64))) eps).
Definition vwithin (p : vec B64) (q : rv) (e : R) : Prop := within (vx p) (rx q) e /\ within (vy p) (ry q) e /\ within (vz p) (rz q) e.
(** sine is exact at 0 and, near 2 pi, correct to half its value *)
Definition sin_rel (G : Trig B64) : Prop :=
  (forall x : B64, is_finite (x : b64) = true -> B2R (x : b64) = 0 -> within (tsin G x) 0 0) /\
  (forall x : B64, is_finite (x : b64) = true -> Rabs (B2R (x : b64) - 2 * PI) <= / 1000 ->
     within (tsin G x) (sin (B2R (x : b64))) (Rabs (sin (B2R (x : b64))) / 2)).
