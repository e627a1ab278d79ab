(** Model of package nurbs (/repo/nurbs/basis.go, /repo/nurbs/curve.go).
    fmt.Println calls are dropped.  vec3.T of github.com/ungerik/go3d is [vec];
    its Scaled and Add are componentwise. *)
From Coq Require Import ZArith List Bool.
From Verif Require Import Base Arith M_r3.
From Verif Require Export GoLoop.
Import ListNotations.
Open Scope res_scope.

Section Nurbs.
Context {A : Arith}.
Notation "a +. b" := (fadd A a b) (at level 50, left associativity).
Notation "a -. b" := (fsub A a b) (at level 50, left associativity).
Notation "a *. b" := (fmul A a b) (at level 40, left associativity).
Notation "a /. b" := (fdiv A a b) (at level 40, left associativity).
Notation zero := (fofZ A 0).
Notation one := (fofZ A 1).

(* nurbs/basis.go:22-32, the loop *)
Fixpoint findSpanLoop (fuel : nat) (u : A) (U : list Z) (low high mid : Z) : res Z :=
  match fuel with
  | O => Diverge
  | S fuel =>
      let! a := zget U mid in
      let below := flt A u (fofZ A a) in
      let! again := (if below then Ok true else let! b := zget U (mid + 1) in Ok (fle A (fofZ A b) u)) in
      if again then
        let '(low, high) := if below then (low, mid) else (mid, high) in
        findSpanLoop fuel u U low high (Z.quot (low + high) 2)
      else Ok mid
  end.
(* nurbs/basis.go:13-34 *)
Definition findSpan (fuel : nat) (n p : Z) (u : A) (U : list Z) : res Z :=
  let! last := zget U (n + 1) in
  if feq A u (fofZ A last) then Ok n
  else findSpanLoop fuel u U p (n + 1) (Z.quot (p + (n + 1)) 2).

(* nurbs/basis.go:55-59 *)
Definition basisInner (lft rgt : list A) (j r : Z) (s : list A * A) : res (list A * A) :=
  let '(N, saved) := s in
  let! Nr := zget N r in
  let! rr := zget rgt (r + 1) in
  let! lj := zget lft (j - r) in
  let temp := Nr /. (rr +. lj) in
  let! N := zset N r (saved +. rr *. temp) in
  Ok (N, lj *. temp).
(* nurbs/basis.go:51-61 *)
Definition basisOuter (i : Z) (u : A) (U : list Z) (j : Z) (s : list A * list A * list A)
  : res (list A * list A * list A) :=
  let '(N, lft, rgt) := s in
  let! a := zget U (i + 1 - j) in
  let! lft := zset lft j (u -. fofZ A a) in
  let! b := zget U (i + j) in
  let! rgt := zset rgt j (fofZ A b -. u) in
  let! (N, saved) := forTo 0 (j - 1) (N, zero) (basisInner lft rgt j) in
  let! N := zset N j saved in
  Ok (N, lft, rgt).
(* nurbs/basis.go:45-63 *)
Definition basisFuns (i : Z) (u : A) (p : Z) (U : list Z) : res (list A) :=
  let! N := make (p + 1) zero in
  let! lft := make (p + 1) zero in
  let! rgt := make (p + 1) zero in
  let! N := zset N 0 one in
  let! (N, _, _) := forTo 1 p (N, lft, rgt) (basisOuter i u U) in
  Ok N.

(* nurbs/basis.go:98-105 *)
Definition dersInner (lft rgt : list A) (j r : Z) (s : list (list A) * A) : res (list (list A) * A) :=
  let '(ndu, saved) := s in
  let! rr := zget rgt (r + 1) in
  let! lj := zget lft (j - r) in
  let! ndu := set2 ndu j r (rr +. lj) in
  let! x := get2 ndu r (j - 1) in
  let! y := get2 ndu j r in
  let temp := x /. y in
  let! ndu := set2 ndu r j (saved +. rr *. temp) in
  Ok (ndu, lj *. temp).
(* nurbs/basis.go:94-107; right uses U[i+1], as in the source *)
Definition dersOuter (i u : Z) (U : list Z) (j : Z) (s : list (list A) * list A * list A)
  : res (list (list A) * list A * list A) :=
  let '(ndu, lft, rgt) := s in
  let! a := zget U (i + 1 - j) in
  let! lft := zset lft j (fofZ A (u - a)) in
  let! b := zget U (i + 1) in
  let! rgt := zset rgt j (fofZ A (b - u)) in
  let! (ndu, saved) := forTo 0 (j - 1) (ndu, zero) (dersInner lft rgt j) in
  let! ndu := set2 ndu j j saved in
  Ok (ndu, lft, rgt).
(* nurbs/basis.go:122-155, one derivative order k of function r; state (a, ders, s1, s2) *)
Definition dersK (ndu : list (list A)) (p r k : Z) (s : list (list A) * list (list A) * Z * Z)
  : res (list (list A) * list (list A) * Z * Z) :=
  let '(a, ders, s1, s2) := s in
  let rk := (r - k)%Z in
  let pk := (p - k)%Z in
  let! (a, d) :=
    (if (k <=? r)%Z then
       let! x := get2 a s1 0 in
       let! y := get2 ndu (pk + 1) rk in
       let! a := set2 a s2 0 (x /. y) in
       let! x := get2 a s2 0 in
       let! y := get2 ndu rk pk in
       Ok (a, x *. y)
     else Ok (a, zero)) in
  let j1 := if (-1 <=? rk)%Z then 1%Z else (- rk)%Z in
  let j2 := if (r - 1 <=? pk)%Z then (k - 1)%Z else (p - r)%Z in
  let! (a, d) := forTo j1 j2 (a, d) (fun j s =>
     let '(a, d) := s in
     let! x := get2 a s1 j in
     let! x' := get2 a s1 (j - 1) in
     let! y := get2 ndu (pk + 1) (rk + j) in
     let! a := set2 a s2 j ((x -. x') /. y) in
     let! x := get2 a s2 j in
     let! y := get2 ndu r pk in
     Ok (a, d +. x *. y)) in
  let! (a, d) :=
    (if (r <=? pk)%Z then
       let! x := get2 a s1 (k - 1) in
       let! y := get2 ndu (pk + 1) r in
       let! a := set2 a s2 k (fneg A x /. y) in
       let! x := get2 a s2 k in
       let! y := get2 ndu r pk in
       Ok (a, d +. x *. y)
     else Ok (a, d)) in
  let! ders := set2 ders k r d in
  Ok (a, ders, s2, s1).
(* nurbs/basis.go:116-156 *)
Definition dersR (ndu : list (list A)) (p n r : Z) (s : list (list A) * list (list A))
  : res (list (list A) * list (list A)) :=
  let '(a, ders) := s in
  let! a := set2 a 0 0 one in
  let! (a, ders, _, _) := forTo 1 n (a, ders, 0%Z, 1%Z) (dersK ndu p r) in
  Ok (a, ders).
(* nurbs/basis.go:158-164; state (ders, r) *)
Definition dersScale (p k : Z) (s : list (list A) * Z) : res (list (list A) * Z) :=
  let '(ders, r) := s in
  let! ders := forTo 0 p ders (fun j ders =>
     let! x := get2 ders k j in set2 ders k j (x *. fofZ A r)) in
  Ok (ders, (r * (p - k))%Z).
(* nurbs/basis.go:79-166 *)
Definition dersBasisFuns (i u p n : Z) (U : list Z) : res (list (list A)) :=
  let! row := make (p + 1) zero in
  let! ndu := make (p + 1) row in
  let! ders := make (p + 1) row in
  let! a := make (p + 1) row in
  let! lft := make (p + 1) zero in
  let! rgt := make (p + 1) zero in
  let! (ndu, _, _) := forTo 1 p (ndu, lft, rgt) (dersOuter i u U) in
  let! ders := forTo 0 p ders (fun j ders => let! x := get2 ndu j p in set2 ders 0 j x) in
  let! (_, ders) := forTo 0 p (a, ders) (dersR ndu p n) in
  let! (ders, _) := forTo 1 n (ders, p) (dersScale p) in
  Ok ders.

(* go3d float64/vec3: Scaled, Add (dependency) *)
Definition vec3Scaled (v : vec A) (f : A) : vec A := mkvec (vx v *. f) (vy v *. f) (vz v *. f).
Definition vec3Add (v w : vec A) : vec A := mkvec (vx v +. vx w) (vy v +. vy w) (vz v +. vz w).
(* nurbs/curve.go:17-27 *)
Definition curvePoint (fuel : nat) (n p : Z) (U : list Z) (P : list (vec A)) (u : A) : res (vec A) :=
  let! span := findSpan fuel n p u U in
  let! N := basisFuns span u p U in
  forTo 0 p (mkvec zero zero zero) (fun i C =>
    let! Q := zget P (span - p + i) in
    let! Ni := zget N i in
    Ok (vec3Add C (vec3Scaled Q Ni))).
End Nurbs.
