(** Model of package triangulate3 (/repo/triangulate3/*.go).  Not modelled:
    Tessellator.tessellate (prints the points, returns nothing). *)
From Coq Require Import ZArith QArith Bool List.
From Verif Require Import Base Arith M_r3.
Import ListNotations.
Open Scope res_scope.

Section Tri3.
Context {A : Arith}.
Notation "a +. b" := (fadd A a b) (at level 50, left associativity).
Notation "a -. b" := (fsub A a b) (at level 50, left associativity).
Notation "a *. b" := (fmul A a b) (at level 40, left associativity).
Notation "a /. b" := (fdiv A a b) (at level 40, left associativity).
Notation "a <. b" := (flt A a b) (at level 70).
Notation "a <=. b" := (fle A a b) (at level 70).
Notation zero := (fofZ A 0).

(* triangulate3/util.go:5-18 *)
Definition SameSide (v1 v2 v3 v4 p : vec A) : bool :=
  let normal := Cross (Sub v2 v1) (Sub v3 v1) in
  let dotV4 := Dot normal (Sub v4 v1) in
  let dotP := Dot normal (Sub p v1) in
  if (dotV4 <=. zero) && (dotP <=. zero) then true
  else if (zero <=. dotV4) && (zero <=. dotP) then true
  else false.

(* triangulate3/util.go:20-25 *)
Definition VectorInTetrahedron (v1 v2 v3 v4 p : vec A) : bool :=
  SameSide v1 v2 v3 v4 p && SameSide v2 v3 v4 v1 p &&
  SameSide v3 v4 v1 v2 p && SameSide v4 v1 v2 v3 p.

(* triangulate3/util.go:27-32 *)
Definition findCentroid (p0 p1 p2 p3 : vec A) : vec A :=
  let x := (vx p0 +. vx p1 +. vx p2 +. vx p3) /. fofZ A 4 in
  let y := (vy p0 +. vy p1 +. vy p2 +. vy p3) /. fofZ A 4 in
  let z := (vz p0 +. vz p1 +. vz p2 +. vz p3) /. fofZ A 4 in
  mkvec x y z.

(* triangulate3/util.go:34-51 *)
Definition Get2Ddist (a b c : vec A) : A :=
  let abx := vx b -. vx a in
  let aby := vy b -. vy a in
  let abz := vz b -. vz a in
  let acx := vx c -. vx a in
  let acy := vy c -. vy a in
  let acz := vz c -. vz a in
  let xy := abx *. acy -. aby *. acx in
  let yz := aby *. acz -. abz *. acy in
  let zx := abz *. acx -. abx *. acz in
  xy *. xy +. yz *. yz +. zx *. zx.

(* triangulate3/util.go:53-72 *)
Definition Get3Ddist (a b c d : vec A) : A :=
  let abx := vx b -. vx a in
  let aby := vy b -. vy a in
  let abz := vz b -. vz a in
  let acx := vx c -. vx a in
  let acy := vy c -. vy a in
  let acz := vz c -. vz a in
  let adx := vx d -. vx a in
  let ady := vy d -. vy a in
  let adz := vz d -. vz a in
  let bc := abx *. acy -. aby *. acx in
  let cd := acx *. ady -. acy *. adx in
  let db := adx *. aby -. ady *. abx in
  abz *. cd +. acz *. db +. adz *. bc.

(* math.MaxFloat32 = 2^128 - 2^104 *)
Definition MaxFloat32Q : Q := inject_Z (2 ^ 128 - 2 ^ 104).
Definition MaxFloat32 : A := fofQ A MaxFloat32Q.
Definition negMaxFloat32 : A := fofQ A (- MaxFloat32Q).
Definition maxStart : vec A := mkvec negMaxFloat32 negMaxFloat32 negMaxFloat32.
Definition minStart : vec A := mkvec MaxFloat32 MaxFloat32 MaxFloat32.

(* triangulate3/gdel3d.go:46-63 *)
Definition extremitiesStep (s : vec A * vec A) (v : vec A) : vec A * vec A :=
  let '(minExtremity, maxExtremity) := s in
  (if vx v <. vx minExtremity then v else minExtremity,
   if vx maxExtremity <. vx v then v else maxExtremity).
Definition computeExtremitiesForAxeX (Vectors : list (vec A)) : vec A * vec A :=
  fold_left extremitiesStep Vectors (minStart, maxStart).

(* triangulate3/gdel3d.go:20-31; the loop state is (max, furthestVector) *)
Definition furthest2Step (a b : vec A) (s : A * vec A) (v : vec A) : A * vec A :=
  let dist := Get2Ddist a b v in
  if fst s <. dist then (dist, v) else s.
Definition getFurthestFromTwoVectors (Vectors : list (vec A)) (a b : vec A) : vec A :=
  snd (fold_left (furthest2Step a b) Vectors (zero, Zero)).

(* triangulate3/gdel3d.go:33-44; note the test max > dist *)
Definition furthest3Step (a b c : vec A) (s : A * vec A) (v : vec A) : A * vec A :=
  let dist := Get3Ddist a b c v in
  if dist <. fst s then (dist, v) else s.
Definition getFurthestFromthreeVectors (Vectors : list (vec A)) (a b c : vec A) : vec A :=
  snd (fold_left (furthest3Step a b c) Vectors (zero, Zero)).

(* triangulate3/gdel3d.go:10-19 *)
Definition createInitialTetra (Vectors : list (vec A)) : list (vec A) :=
  let '(v0, v1) := computeExtremitiesForAxeX Vectors in
  let v2 := getFurthestFromTwoVectors Vectors v0 v1 in
  let v3 := getFurthestFromthreeVectors Vectors v0 v1 v2 in
  [v0; v1; v2; v3].

(* triangulate3/englober.go:60-88 *)
Definition updMin (m p : A) : A := if p <. m then p else m.
Definition updMax (m p : A) : A := if m <. p then p else m.
Definition boxStep (s : vec A * vec A) (v : vec A) : vec A * vec A :=
  let '(mn, mx) := s in
  (mkvec (updMin (vx mn) (vx v)) (updMin (vy mn) (vy v)) (updMin (vz mn) (vz v)),
   mkvec (updMax (vx mx) (vx v)) (updMax (vy mx) (vy v)) (updMax (vz mx) (vz v))).
Definition computeBoundingBoxForVectors (Vectors : list (vec A)) : vec A * vec A :=
  fold_left boxStep Vectors (minStart, maxStart).

(* triangulate3/englober.go:52-58 *)
Definition getTopVectorOfTetrahedron (minExtremity maxExtremity : vec A) : vec A :=
  mkvec (vx minExtremity) (fofZ A 2 *. vy maxExtremity) (vz minExtremity).

(* triangulate3/englober.go:9-51; Add is the mutating method *)
Definition constructEnglobingTetra (Vectors : list (vec A)) : res (list (vec A) * list Z) :=
  let offset := fofZ A 1 in
  let '(minE, maxE) := computeBoundingBoxForVectors Vectors in
  let minE := Add_method minE (mkvec (fneg A offset) (fneg A offset) (fneg A offset)) in
  let maxE := Add_method maxE (mkvec offset offset offset) in
  let lowerPlane := mkPlane3D (mkvec zero (fofZ A 1) zero) minE in
  let top := getTopVectorOfTetrahedron minE maxE in
  let upperVector1 := mkvec (vx minE) (vy maxE) (vz maxE) in
  let! tetraPoint1 := IntersectPlane (mkLine upperVector1 (Sub top upperVector1)) lowerPlane in
  let upperVector2 := mkvec (vx maxE) (vy maxE) (vz maxE) in
  let! tetraPoint2 := IntersectPlane (mkLine upperVector2 (Sub top upperVector2)) lowerPlane in
  let upperVector3 := mkvec (vx maxE) (vy maxE) (vz minE) in
  let! tetraPoint3 := IntersectPlane (mkLine upperVector3 (Sub top upperVector3)) lowerPlane in
  Ok ([top; tetraPoint1; tetraPoint2; tetraPoint3], [0; 1; 2; 0; 2; 3; 0; 3; 1; 1; 2; 3]%Z).
End Tri3.
