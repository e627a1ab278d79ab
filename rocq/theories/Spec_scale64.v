(** Specification side: multiplying binary64 points by a power of two (math.Ldexp). *)
From Coq Require Import Reals ZArith List.
From Flocq Require Import Core BinarySingleNaN.
From Verif Require Import Arith M_r3.
Open Scope R_scope.

Definition ldexp64 (e : Z) (x : b64) : b64 := @Bldexp 53 1024 b64_prec b64_pe mode_NE x e.
Definition scale64 (e : Z) (v : vec B64) : vec B64 := @mkvec B64 (ldexp64 e (vx v)) (ldexp64 e (vy v)) (ldexp64 e (vz v)).
(** multiples of 2^-90 up to 2^90 *)
Definition grid90 (r : R) : Prop := (exists n, r = IZR n * bpow radix2 (- 90)) /\ Rabs r <= bpow radix2 90.
(** a coordinate on that grid before and after the multiplication *)
Definition scalable (e : Z) (x : b64) : Prop := is_finite x = true /\ grid90 (B2R x) /\ grid90 (B2R x * bpow radix2 e).
Definition scalable_vec (e : Z) (v : vec B64) : Prop := scalable e (vx v) /\ scalable e (vy v) /\ scalable e (vz v).
(** two points clearly apart (at least sqrt(2^-51)) or clearly together (at most sqrt(2^-53)), the same before and after *)
Definition same_side (d d' : R) : Prop := (bpow radix2 (- 51) <= d /\ bpow radix2 (- 51) <= d') \/ (d <= bpow radix2 (- 53) /\ d' <= bpow radix2 (- 53)).
