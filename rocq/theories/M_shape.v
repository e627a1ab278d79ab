(** Model of package shape (/repo/shape: circle.go, ellipse.go, sphere.go, torus.go, shape.go, mesh.go;
    icosphere.go is entirely commented out) and of transferModel / Export in package glTF.

    math.Cos, math.Sin and the constants derived from math.Pi are collected in [Trig]; theorems that do not
    mention real numbers hold for every [Trig]. *)
From Coq Require Import ZArith List Bool.
From Verif Require Import Base Arith M_r3 GoLoop.
Import ListNotations.
Open Scope res_scope.

Record Trig (A : Arith) := mkTrig {
  tPi : A;          (* float64(math.Pi) *)
  tPi2 : A;         (* float64(2 * math.Pi) *)
  tPiH : A;         (* float64(math.Pi / 2) *)
  tcos : A -> A;    (* math.Cos *)
  tsin : A -> A     (* math.Sin *)
}.
Arguments tPi {A} t. Arguments tPi2 {A} t. Arguments tPiH {A} t.
Arguments tcos {A} t _. Arguments tsin {A} t _.

(* conversion to uint32 *)
Definition wrap32 (z : Z) : Z := z mod 2 ^ 32.
(* int division: truncating, panics on 0 *)
Definition godiv (a b : Z) : res Z := if (b =? 0)%Z then Panic else Ok (Z.quot a b).

Section Shape.
Context {A : Arith} (G : Trig A).
Notation "a +. b" := (fadd A a b) (at level 50, left associativity).
Notation "a -. b" := (fsub A a b) (at level 50, left associativity).
Notation "a *. b" := (fmul A a b) (at level 40, left associativity).
Notation "a /. b" := (fdiv A a b) (at level 40, left associativity).
Notation zero := (fofZ A 0).
Notation one := (fofZ A 1).

(* shape/mesh.go:6-11 *)
Record Mesh := mkMesh {
  mVertices : list (vec A);
  mNormals : list (A * A * A);
  mTexCoords : list (A * A);
  mIndices : list Z
}.

(** ** Circle and ellipse *)
(* shape/circle.go:24-43 *)
Definition circleVertex (center : vec A) (radius : A) (sectorStep : A) (i : Z) : vec A :=
  let sectorAngle := tPiH G -. fofZ A i *. sectorStep in
  let x := radius *. tcos G sectorAngle in
  let y := radius *. tsin G sectorAngle in
  Add_method (mkvec x y zero) center.
Definition circleVertices (center : vec A) (radius : A) (sectorCount : Z) : res (list (vec A)) :=
  let sectorStep := tPi2 G /. fofZ A sectorCount in
  forTo 0 (sectorCount - 1) [center] (fun i V => Ok (V ++ [circleVertex center radius sectorStep i])).
(* shape/circle.go:45-55, identical to shape/ellipse.go:47-57 *)
Definition fanIndices (lenVertices : Z) : res (list Z) :=
  let! Ix := forTo 1 (lenVertices - 1) [] (fun i Ix =>
    Ok (Ix ++ [0%Z; wrap32 i; wrap32 (i + 1)] ++ [wrap32 (i + 1); wrap32 i; 0%Z])) in
  Ok (Ix ++ [0%Z; wrap32 (lenVertices - 1); 1%Z] ++ [1%Z; wrap32 (lenVertices - 1); 0%Z]).
(* shape/circle.go:15-22 *)
Definition circleConstruct (center : vec A) (radius : A) (sectorCount : Z) : res Mesh :=
  let! V := circleVertices center radius sectorCount in
  let! Ix := fanIndices (Z.of_nat (length V)) in
  Ok (mkMesh V [] [] Ix).
(* shape/ellipse.go:26-45 *)
Definition ellipseVertex (center : vec A) (semiAxis1 semiAxis2 : A) (sectorStep : A) (i : Z) : vec A :=
  let sectorAngle := tPiH G -. fofZ A i *. sectorStep in
  let x := semiAxis1 *. tcos G sectorAngle in
  let y := semiAxis2 *. tsin G sectorAngle in
  Add_method (mkvec x y zero) center.
Definition ellipseVertices (center : vec A) (semiAxis1 semiAxis2 : A) (sectorCount : Z) : res (list (vec A)) :=
  let sectorStep := tPi2 G /. fofZ A sectorCount in
  forTo 0 (sectorCount - 1) [center] (fun i V => Ok (V ++ [ellipseVertex center semiAxis1 semiAxis2 sectorStep i])).
(* shape/ellipse.go:17-24 *)
Definition ellipseConstruct (center : vec A) (semiAxis1 semiAxis2 : A) (sectorCount : Z) : res Mesh :=
  let! V := ellipseVertices center semiAxis1 semiAxis2 sectorCount in
  let! Ix := fanIndices (Z.of_nat (length V)) in
  Ok (mkMesh V [] [] Ix).

(** ** Sphere and torus.  The two files differ only in stackStep, xy and z. *)
(* shape/sphere.go:48-73, shape/torus.go:48-73: one vertex *)
Definition gridVertex (xy z sectorStep : A) (j : Z) : vec A :=
  let sectorAngle := fofZ A j *. sectorStep in
  mkvec (xy *. tcos G sectorAngle) (xy *. tsin G sectorAngle) z.
Definition gridStep (xy z sectorStep lengthInv : A) (sectorCount stackCount i j : Z)
  (s : list (vec A) * list (A * A * A) * list (A * A)) : res (list (vec A) * list (A * A * A) * list (A * A)) :=
  let '(V, N, T) := s in
  let v := gridVertex xy z sectorStep j in
  let normal := (vx v *. lengthInv, vy v *. lengthInv, vz v *. lengthInv) in
  let! s := godiv j sectorCount in
  let! t := godiv i stackCount in
  Ok (V ++ [v], N ++ [normal], T ++ [(fofZ A s, fofZ A t)]).
(* shape/sphere.go:40-74, shape/torus.go:40-74; xyOf, zOf: lines 43-44 *)
Definition gridVertices (xyOf zOf : A -> A) (radius stackStep : A) (sectorCount stackCount : Z)
  : res (list (vec A) * list (A * A * A) * list (A * A)) :=
  let sectorStep := tPi2 G /. fofZ A sectorCount in
  let lengthInv := one /. radius in
  forTo 0 (stackCount - 1) ([], [], []) (fun i s =>
    let stackAngle := tPiH G -. fofZ A i *. stackStep in
    let xy := xyOf stackAngle in
    let z := zOf stackAngle in
    forTo 0 sectorCount s (gridStep xy z sectorStep lengthInv sectorCount stackCount i)).
(* shape/sphere.go:77-122, shape/torus.go:77-122; state (Indices, k1, k2) *)
Definition gridIndices (sectorCount stackCount : Z) : res (list Z) :=
  let k1 := 0%Z in
  let k2 := wrap32 (sectorCount + 1) in
  let! (Ix, _, _) := forTo 0 (sectorCount - 1) ([], k1, k2) (fun _ s =>
    let '(Ix, k1, k2) := s in
    Ok (Ix ++ [wrap32 (k1 + 1); k2; wrap32 (k2 + 1)], wrap32 (k1 + 1), wrap32 (k2 + 1))) in
  forTo 1 (stackCount - 2) Ix (fun i Ix =>
    let k1 := wrap32 (i * (sectorCount + 1)) in
    let k2 := wrap32 (k1 + wrap32 (sectorCount + 1)) in
    let! (Ix, _, _) := forTo 0 (sectorCount - 1) (Ix, k1, k2) (fun _ s =>
      let '(Ix, k1, k2) := s in
      Ok (Ix ++ [k1; k2; wrap32 (k1 + 1)] ++ [wrap32 (k1 + 1); k2; wrap32 (k2 + 1)],
          wrap32 (k1 + 1), wrap32 (k2 + 1))) in
    Ok Ix).
(* shape/sphere.go:18-38; the field center is never read *)
Definition sphereConstruct (center : vec A) (radius : A) (sectorCount stackCount : Z) : res Mesh :=
  let stackStep := tPi G /. fofZ A stackCount in
  let! (V, N, T) := gridVertices (fun a => radius *. tcos G a) (fun a => radius *. tsin G a)
                      radius stackStep sectorCount stackCount in
  let! Ix := gridIndices sectorCount stackCount in
  Ok (mkMesh V N T Ix).
(* shape/torus.go:18-38; the field center is never read *)
Definition torusConstruct (center : vec A) (radius tubeRadius : A) (sectorCount stackCount : Z) : res Mesh :=
  let stackStep := tPi2 G /. fofZ A stackCount in
  let! (V, N, T) := gridVertices (fun a => radius +. tubeRadius *. tcos G a) (fun a => tubeRadius *. tsin G a)
                      radius stackStep sectorCount stackCount in
  let! Ix := gridIndices sectorCount stackCount in
  Ok (mkMesh V N T Ix).

(* shape/shape.go:9-48 *)
Definition ConstructSphere (center : vec A) (radius : A) : res Mesh := sphereConstruct center radius 300 300.
Definition ConstructCircle (center : vec A) (radius : A) : res Mesh := circleConstruct center radius 100.
Definition ConstructTorus (center : vec A) (radius tubeRadius : A) : res Mesh :=
  torusConstruct center radius tubeRadius 100 100.
Definition ConstructEllipse (center : vec A) (semiAxis1 semiAxis2 : A) : res Mesh :=
  ellipseConstruct center semiAxis1 semiAxis2 100.
End Shape.
Arguments mkMesh {A}. Arguments mVertices {A}. Arguments mNormals {A}. Arguments mTexCoords {A}. Arguments mIndices {A}.
