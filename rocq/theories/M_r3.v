(** Model of package r3 (/repo/r3/vector.go, line.go, plane.go). *)
From Coq Require Import ZArith QArith.
From Verif Require Import Base Arith.

(* r3/vector.go:8-10  type Vector struct { X, Y, Z float64 } *)
Record vec (A : Arith) : Type := mkvec { vx : A; vy : A; vz : A }.
Arguments mkvec {A} vx vy vz.
Arguments vx {A} v.
Arguments vy {A} v.
Arguments vz {A} v.

Section R3.
Context {A : Arith}.
Notation "a +. b" := (fadd A a b) (at level 50, left associativity).
Notation "a -. b" := (fsub A a b) (at level 50, left associativity).
Notation "a *. b" := (fmul A a b) (at level 40, left associativity).
Notation "a /. b" := (fdiv A a b) (at level 40, left associativity).
Notation "a <. b" := (flt A a b) (at level 70).
Notation "a <=. b" := (fle A a b) (at level 70).
Notation "a ==. b" := (feq A a b) (at level 70).
Notation zero := (fofZ A 0).
Notation one := (fofZ A 1).

(* r3/vector.go:13  var Zero = Vector{} *)
Definition Zero : vec A := mkvec zero zero zero.

(* r3/vector.go:15-21 *)
Definition createVector (a b : vec A) : vec A :=
  mkvec (vx a -. vx b) (vy a -. vy b) (vz a -. vz b).

(* r3/vector.go:104  v.X*ov.X + v.Y*ov.Y + v.Z*ov.Z (left associative) *)
Definition Dot (v ov : vec A) : A :=
  vx v *. vx ov +. vy v *. vy ov +. vz v *. vz ov.

(* r3/vector.go:24 *)
Definition Norm (v : vec A) : A := fsqrt A (Dot v v).
(* r3/vector.go:27 *)
Definition Norm2 (v : vec A) : A := Dot v v.

(* r3/vector.go:68-73: the new value of the receiver *)
Definition Scale_method (v : vec A) (f : A) : vec A :=
  let x := f *. vx v in
  let y := f *. vy v in
  let z := f *. vz v in
  mkvec x y z.

(* r3/vector.go:76 *)
Definition Scaled (v : vec A) (f : A) : vec A :=
  mkvec (f *. vx v) (f *. vy v) (f *. vz v).

(* r3/vector.go:30-37: the new value of the receiver; note that there is no
   early return when n2 == 0, so the zeroed vector is still scaled by 1/sqrt(n2) *)
Definition Normalize_method (v : vec A) : vec A :=
  let n2 := Norm2 v in
  let v1 := if n2 ==. zero then mkvec zero zero zero else v in
  Scale_method v1 (one /. fsqrt A n2).

(* r3/vector.go:40-46 *)
Definition Normalize (v : vec A) : vec A :=
  let n2 := Norm2 v in
  if n2 ==. zero then mkvec zero zero zero
  else Scaled v (one /. fsqrt A n2).

(* r3/vector.go:49-52 *)
Definition IsUnit (v : vec A) : bool :=
  fabs A (Norm2 v -. one) <=. fofQ A (5 # 100000000000000).

(* r3/vector.go:55-59: the new value of the receiver *)
Definition Abs_method (v : vec A) : vec A :=
  let x := fabs A (vx v) in
  let y := fabs A (vy v) in
  let z := fabs A (vz v) in
  mkvec x y z.
(* r3/vector.go:61-65 *)
Definition Abs (v : vec A) : vec A :=
  mkvec (fabs A (vx v)) (fabs A (vy v)) (fabs A (vz v)).

(* r3/vector.go:79-84: the new value of the receiver *)
Definition Add_method (v ov : vec A) : vec A :=
  let v1 := mkvec (vx v +. vx ov) (vy v) (vz v) in
  let v2 := mkvec (vx v1) (vy v1 +. vy ov) (vz v1) in
  mkvec (vx v2) (vy v2) (vz v2 +. vz ov).
(* r3/vector.go:87-89 *)
Definition Add (v ov : vec A) : vec A :=
  mkvec (vx v +. vx ov) (vy v +. vy ov) (vz v +. vz ov).

(* r3/vector.go:92-96: the new value of the receiver *)
Definition Sub_method (v ov : vec A) : vec A :=
  let v1 := mkvec (vx v -. vx ov) (vy v) (vz v) in
  let v2 := mkvec (vx v1) (vy v1 -. vy ov) (vz v1) in
  mkvec (vx v2) (vy v2) (vz v2 -. vz ov).
(* r3/vector.go:99-101 *)
Definition Sub (v ov : vec A) : vec A :=
  mkvec (vx v -. vx ov) (vy v -. vy ov) (vz v -. vz ov).

(* r3/vector.go:107-109 *)
Definition Cross (v ov : vec A) : vec A :=
  mkvec (vy v *. vz ov -. vy ov *. vz v)
        (vz v *. vx ov -. vz ov *. vx v)
        (vx v *. vy ov -. vx ov *. vy v).

(* r3/plane.go:4-7 *)
Record Plane : Type := mkPlane { pNormal : vec A; pDistance : A }.
(* r3/plane.go:9-11 *)
Definition newPlane (normal origin : vec A) : Plane :=
  mkPlane normal (fneg A (Dot normal origin)).
(* r3/plane.go:12-21 (the receiver is unused) *)
Definition calculateNormal (a b c : vec A) : vec A :=
  let U := createVector b a in
  let V := createVector c a in
  mkvec (vy U *. vz V -. vz U *. vy V)
        (vz U *. vx V -. vx U *. vz V)
        (vx U *. vy V -. vy U *. vx V).

(* r3/vector.go:112 *)
Definition CalculateDistanceToPlane (v : vec A) (p : Plane) : A :=
  Dot (pNormal p) v +. Norm2 (pNormal p).

(* r3/vector.go:114-116 *)
Definition det2D (a b : vec A) : A := vx a *. vy b -. vy a *. vx b.

(* r3/vector.go:119-128 *)
Definition GetInterpolationVector (v b : vec A) (divisor : A) : vec A :=
  mkvec (vx v *. divisor +. vx b *. (one -. divisor))
        (vy v *. divisor +. vy b *. (one -. divisor))
        (vz v *. divisor +. vz b *. (one -. divisor)).

(* r3/vector.go:136-138 *)
Definition SquaredMagnitude (v : vec A) : A := Dot v v.
(* r3/vector.go:131-133 *)
Definition Magnitude (v : vec A) : A := fsqrt A (SquaredMagnitude v).

(* r3/vector.go:141-144 *)
Definition Distance (v ov : vec A) : A :=
  let diff := Sub v ov in Norm diff.
(* r3/vector.go:147-150 *)
Definition SquaredDistance (v ov : vec A) : A :=
  let diff := Sub v ov in Norm2 diff.

(* r3/vector.go:153-160 *)
Definition Interpolate (a b : vec A) (t : A) : vec A :=
  let t1 := one -. t in
  mkvec (vx a *. t1 +. vx b *. t)
        (vy a *. t1 +. vy b *. t)
        (vz a *. t1 +. vz b *. t).

(* r3/line.go:3-11 *)
Record Line : Type := mkLine { lVector : vec A; lDirection : vec A }.
Record Plane3D : Type := mkPlane3D { p3Normal : vec A; p3Vector : vec A }.

(* r3/line.go:13-20 *)
Definition IntersectPlane (line : Line) (plane : Plane3D) : res (vec A) :=
  if Dot (p3Normal plane) (Normalize (lDirection line)) ==. zero then Panic
  else
    let t := (Dot (p3Normal plane) (p3Vector plane) -. Dot (p3Normal plane) (lVector line))
               /. Dot (p3Normal plane) (Normalize (lDirection line)) in
    Ok (Add (lVector line) (Scaled (Normalize (lDirection line)) t)).
End R3.
Arguments Plane A : clear implicits.
Arguments Line A : clear implicits.
Arguments Plane3D A : clear implicits.

(** the three components of a binary64 vector, as bits *)
Definition vsf (v : vec B64) := (sf (vx v), sf (vy v), sf (vz v)).
