(** Model of package mesh (/repo/meshing/*.go).  Not modelled: the unused type halfEdge,
    empty functions (addPoint, flip41, flip23, flip32), fmt.Println output. *)
From Coq Require Import String ZArith QArith Bool List.
From Verif Require Import Base Arith M_r3 M_predicates GoMap.
Import ListNotations.
Open Scope res_scope.

(* meshing/mesh.go:16-18 *)
Record face := mkface { pa : Z; pb : Z; pc : Z }.
(* meshing/mesh.go:12-15 *)
Record tetra := mktetra { ia : Z; ib : Z; ic : Z; id : Z; faces : list face }.

(* meshing/mesh.go:19-21 *)
Record edge := mkedge { estart : Z; eend : Z }.
(* meshing/mesh.go:45-52 *)
Definition edge_isEqual (e e1 : edge) : bool :=
  if (estart e =? estart e1)%Z then
    if (eend e =? eend e1)%Z then true else false
  else false.

(* meshing/mesh.go:54-71 *)
Definition super (i : Z) : bool := ((0 <=? i) && (i <=? 3))%Z.
Definition isPartOfMesh (f : face) : bool :=
  if super (pa f) then false
  else if super (pb f) then false
  else if super (pc f) then false
  else true.

(* sort.Ints on a three-element slice: any correct sort gives this result *)
Definition sort3 (a b c : Z) : Z * Z * Z :=
  let '(a, b) := if (b <? a)%Z then (b, a) else (a, b) in
  let '(b, c) := if (c <? b)%Z then (c, b) else (b, c) in
  let '(a, b) := if (b <? a)%Z then (b, a) else (a, b) in
  (a, b, c).
(* meshing/mesh.go:73-79 *)
Definition face_hash (f : face) : string :=
  let '(x, y, z) := sort3 (pa f) (pb f) (pc f) in
  (Itoa x ++ "." ++ Itoa y ++ "." ++ Itoa z)%string.

(* meshing/mesh.go:107-109 *)
Definition tetraHash (t : tetra) : string :=
  (Itoa (ia t) ++ "." ++ Itoa (ib t) ++ "." ++ Itoa (ic t) ++ "." ++ Itoa (id t))%string.

(* meshing/mesh.go:23 *)
Definition tetrahedrisation := gomap tetra.
(* meshing/mesh.go:102-105 *)
Definition addTetra (t : tetrahedrisation) (newTetra : tetra) : tetrahedrisation :=
  mset t (tetraHash newTetra) newTetra.

(* meshing/mesh.go:135-138 *)
Definition addFace (meshIndices : list Z) (f : face) : list Z :=
  meshIndices ++ [pa f - 4; pb f - 4; pc f - 4]%Z.

(* meshing/mesh.go:145-154 *)
Definition connect (f : face) (pointIndex : Z) : tetra :=
  mktetra (pa f) (pb f) (pc f) pointIndex
    [mkface (pa f) (pb f) (pc f);
     mkface (pb f) (pc f) pointIndex;
     mkface (pc f) pointIndex (pa f);
     mkface pointIndex (pa f) (pb f)].

(* meshing/mesh.go:39-43 *)
Record faceCheck := mkfaceCheck { check : bool; tetraID : Z; faceID : Z }.

(* meshing/mesh.go:179-187  the faces of the bad tetrahedra, seen once or more *)
Fixpoint faceSet_faces (fs : gomap faceCheck) (badTetraIndex faceIndex : Z) (l : list face) : gomap faceCheck :=
  match l with
  | [] => fs
  | f :: l' =>
      let fs' := match mget fs (face_hash f) with
                 | None => mset fs (face_hash f) (mkfaceCheck false badTetraIndex faceIndex)
                 | Some _ => mset fs (face_hash f) (mkfaceCheck true (-1) (-1))
                 end in
      faceSet_faces fs' badTetraIndex (faceIndex + 1) l'
  end.
Fixpoint faceSet_tetras (fs : gomap faceCheck) (badTetraIndex : Z) (l : list tetra) : gomap faceCheck :=
  match l with
  | [] => fs
  | t :: l' => faceSet_tetras (faceSet_faces fs badTetraIndex 0 (faces t)) (badTetraIndex + 1) l'
  end.
(* meshing/mesh.go:188-193 *)
Fixpoint polyhedron (badTetras : list tetra) (fs : gomap faceCheck) : res (list face) :=
  match fs with
  | [] => Ok []
  | (_, fc) :: fs' =>
      if negb (check fc) then
        let! badTetra := zget badTetras (tetraID fc) in
        let! f := zget (faces badTetra) (faceID fc) in
        let! r := polyhedron badTetras fs' in
        Ok (f :: r)
      else polyhedron badTetras fs'
  end.

(* meshing/util.go:33-37  [i] counts down from len-1; the list grows while it is read *)
Fixpoint duplicateInReverse_loop (fuel : nat) (i : Z) (indices : list Z) : res (list Z) :=
  if (i <? 0)%Z then Ok indices
  else match fuel with
       | O => Diverge
       | S fuel' =>
           let! v := zget indices i in
           duplicateInReverse_loop fuel' (i - 1) (indices ++ [v])
       end.
Definition duplicateInReverse (indices : list Z) : res (list Z) :=
  duplicateInReverse_loop (length indices) (Z.of_nat (length indices) - 1) indices.

Section Mesh.
Context {A : Arith}.
Notation "a +. b" := (fadd A a b) (at level 50, left associativity).
Notation "a -. b" := (fsub A a b) (at level 50, left associativity).
Notation "a *. b" := (fmul A a b) (at level 40, left associativity).
Notation "a /. b" := (fdiv A a b) (at level 40, left associativity).
Notation "a <. b" := (flt A a b) (at level 70).
Notation "a <=. b" := (fle A a b) (at level 70).
Notation zero := (fofZ A 0).

(* math.MaxFloat64 = 2^1024 - 2^971, as used in meshing/helper.go:28, 47, 48 *)
Definition MaxFloat64Q : Q := inject_Z (2 ^ 1024 - 2 ^ 971).
Definition MaxFloat64 : A := fofQ A MaxFloat64Q.
Definition negMaxFloat64 : A := fofQ A (- MaxFloat64Q).

(* meshing/util.go:5-10 *)
Definition findCentroid (p0 p1 p2 p3 : vec A) : vec A :=
  let x := (vx p0 +. vx p1 +. vx p2 +. vx p3) /. fofZ A 4 in
  let y := (vy p0 +. vy p1 +. vy p2 +. vy p3) /. fofZ A 4 in
  let z := (vz p0 +. vz p1 +. vz p2 +. vz p3) /. fofZ A 4 in
  mkvec x y z.

(* meshing/util.go:12-24 *)
Definition sameSide (v1 v2 v3 v4 p : vec A) : bool :=
  let normal := Cross (Sub v2 v1) (Sub v3 v1) in
  let dotV4 := Dot normal (Sub v4 v1) in
  let dotP := Dot normal (Sub p v1) in
  if (dotV4 <=. zero) && (dotP <=. zero) then true
  else if (zero <=. dotV4) && (zero <=. dotP) then true
  else false.

(* meshing/util.go:26-31 *)
Definition vectorInTetrahedron (v1 v2 v3 v4 p : vec A) : bool :=
  sameSide v1 v2 v3 v4 p && sameSide v2 v3 v4 v1 p &&
  sameSide v3 v4 v1 v2 p && sameSide v4 v1 v2 v3 p.

(* meshing/helper.go:9-11 *)
Record helper := mkhelper { hmin : vec A; hmax : vec A }.

(* meshing/helper.go:15-20 *)
Record distancePair := mkdistancePair { dpvector : vec A; dpdistance : A }.
Definition distancePairList := list distancePair.
(* meshing/helper.go:22-24 *)
Definition dpLen (p : distancePairList) : Z := Z.of_nat (length p).
Definition dpLess (p : distancePairList) (i j : Z) : res bool :=
  let! a := zget p i in
  let! b := zget p j in
  Ok (dpdistance a <. dpdistance b).
(* p[i], p[j] = p[j], p[i]: both right-hand sides are read first; the new content of the slice *)
Definition dpSwap (p : distancePairList) (i j : Z) : res distancePairList :=
  let! pj := zget p j in
  let! pi := zget p i in
  let! p := zset p i pj in
  zset p j pi.

(* meshing/helper.go:26-44 *)
Fixpoint getNearestPoint_loop (centroid : vec A) (minDistance : A) (nearestPoint : vec A)
    (vertices : list (vec A)) : vec A :=
  match vertices with
  | [] => nearestPoint
  | vertex :: vertices' =>
      let distance := Distance vertex centroid in
      if distance <=. minDistance then getNearestPoint_loop centroid distance vertex vertices'
      else getNearestPoint_loop centroid minDistance nearestPoint vertices'
  end.
Definition getNearestPoint (vertices : list (vec A)) (centroid : vec A) : vec A :=
  getNearestPoint_loop centroid MaxFloat64 Zero vertices.

(* meshing/mesh.go:81-90 *)
Definition getNearestPointToCentroid (t : tetra) (points : list (vec A)) : res (vec A) :=
  let! qa := zget points (ia t) in
  let! qb := zget points (ib t) in
  let! qc := zget points (ic t) in
  let! qd := zget points (id t) in
  Ok (getNearestPoint points (findCentroid qa qb qc qd)).

(* meshing/helper.go:50-70  one point *)
Definition updMax (m p : A) : A := if m <. p then p else m.
Definition updMin (m p : A) : A := if p <. m then p else m.
Definition extremaStep (h : helper) (p : vec A) : helper :=
  mkhelper
    (mkvec (updMin (vx (hmin h)) (vx p)) (updMin (vy (hmin h)) (vy p)) (updMin (vz (hmin h)) (vz p)))
    (mkvec (updMax (vx (hmax h)) (vx p)) (updMax (vy (hmax h)) (vy p)) (updMax (vz (hmax h)) (vz p))).
(* meshing/helper.go:46-72 *)
Definition findExtremas (points : list (vec A)) : helper :=
  fold_left extremaStep points
    (mkhelper (mkvec MaxFloat64 MaxFloat64 MaxFloat64) (mkvec negMaxFloat64 negMaxFloat64 negMaxFloat64)).

(* meshing/helper.go:74-92  the slice boundingBox; the function drops it *)
Definition computeBoundingBox (h : helper) : list (vec A) :=
  let xmin := vx (hmin h) in let ymin := vy (hmin h) in let zmin := vz (hmin h) in
  let xmax := vx (hmax h) in let ymax := vy (hmax h) in let zmax := vz (hmax h) in
  let p1 := mkvec xmin ymin zmin in
  let p2 := mkvec xmax ymin zmin in
  let p3 := mkvec xmin ymax zmin in
  let p4 := mkvec xmin ymin zmax in
  let p5 := mkvec xmax ymax zmin in
  let p6 := mkvec xmin ymax zmax in
  let p7 := mkvec xmax ymin zmax in
  let p8 := mkvec xmax ymax zmax in
  [] ++ [p1; p2; p3; p4; p5; p6; p7; p8].

(* meshing/helper.go:94-109 *)
Definition computerInitialTetraPoints (h : helper) : vec A * vec A * vec A * vec A :=
  let xmin := vx (hmin h) in let ymin := vy (hmin h) in let zmin := vz (hmin h) in
  let xmax := vx (hmax h) in let ymax := vy (hmax h) in let zmax := vz (hmax h) in
  let xtetra := xmin +. fofZ A 3 *. (xmax -. xmin) in
  let ytetra := ymin +. fofZ A 3 *. (ymax -. ymin) in
  let ztetra := zmin +. fofZ A 3 *. (zmax -. zmin) in
  (mkvec xmin ymin zmin, mkvec xtetra ymin zmin, mkvec xmin ytetra zmin, mkvec xmin ymin ztetra).

(* meshing/mesh.go:111-133  the initial tetrahedron and the extended point list *)
Definition englobe (points : list (vec A)) : tetra * list (vec A) :=
  let h := findExtremas points in
  let '(p1, p2, p3, p4) := computerInitialTetraPoints h in
  (mktetra 0 1 2 3 [mkface 0 1 2; mkface 1 2 3; mkface 2 3 0; mkface 3 0 1],
   [p1; p2; p3; p4] ++ points).

(* meshing/mesh.go:171-175 *)
Fixpoint findBad (points : list (vec A)) (point : vec A) (l : tetrahedrisation) : res (list tetra) :=
  match l with
  | [] => Ok []
  | (_, t) :: l' =>
      let! qa := zget points (ia t) in
      let! qb := zget points (ib t) in
      let! qc := zget points (ic t) in
      let! qd := zget points (id t) in
      let! r := findBad points point l' in
      if zero <=. InSphereFast qa qb qc qd point then Ok (t :: r) else Ok r
  end.

(* meshing/mesh.go:168-204  insertion of one point; [ordT] and [ordF] are the orders in
   which the two maps are visited *)
Definition insertPoint (ordT : tetrahedrisation -> tetrahedrisation)
    (ordF : gomap faceCheck -> gomap faceCheck)
    (points : list (vec A)) (pointIndex : Z) (point : vec A) (t : tetrahedrisation) : res tetrahedrisation :=
  let! badTetras := findBad points point (ordT t) in
  let faceSet := faceSet_tetras [] 0 badTetras in
  let! poly := polyhedron badTetras (ordF faceSet) in
  let t := fold_left (fun t b => mdel t (tetraHash b)) badTetras t in
  Ok (fold_left (fun t f => addTetra t (connect f (pointIndex + 4))) poly t).

(* meshing/mesh.go:164-205; the visiting orders may differ at each point *)
Fixpoint insertAll (ordT : nat -> tetrahedrisation -> tetrahedrisation)
    (ordF : nat -> gomap faceCheck -> gomap faceCheck)
    (points : list (vec A)) (k : nat) (l : list (vec A)) (t : tetrahedrisation) : res tetrahedrisation :=
  match l with
  | [] => Ok t
  | point :: l' =>
      let! t' := insertPoint (ordT k) (ordF k) points (Z.of_nat k) point t in
      insertAll ordT ordF points (S k) l' t'
  end.

(* meshing/mesh.go:207-215 *)
Definition meshFaces (l : tetrahedrisation) : list Z :=
  fold_left (fun acc kt =>
    fold_left (fun acc f => if isPartOfMesh f then addFace acc f else acc) (faces (snd kt)) acc) l [].

(* meshing/mesh.go:156-220 *)
Definition bowyerWatson (ordT : nat -> tetrahedrisation -> tetrahedrisation)
    (ordF : nat -> gomap faceCheck -> gomap faceCheck) (ordE : tetrahedrisation -> tetrahedrisation)
    (points : list (vec A)) : res (list Z) :=
  let '(initialTetra, points') := englobe points in
  let t := addTetra [] initialTetra in
  let! t' := insertAll ordT ordF points' 0 points t in
  Ok (meshFaces (ordE t')).

(* meshing/mesh.go:33-37, without the unused triangulationMap *)
Record Meshing := mkMeshing { vertices : list (vec A); indices : list Z }.

(* meshing/flip.go:14-51; the uint32 indices are constants *)
Definition flip14 (t : Meshing) (p : vec A) : res Meshing :=
  let! t1 := duplicateInReverse [0;1;2; 1;2;4; 2;4;0; 4;0;1]%Z in
  let! t2 := duplicateInReverse [0;1;3; 1;3;4; 3;4;0; 4;0;1]%Z in
  let! t3 := duplicateInReverse [1;2;3; 2;3;4; 3;4;1; 4;1;2]%Z in
  let! t4 := duplicateInReverse [0;2;3; 2;3;4; 3;4;0; 4;0;2]%Z in
  Ok (mkMeshing (vertices t ++ [p]) (t1 ++ t2 ++ t3 ++ t4)).
End Mesh.
Arguments helper A : clear implicits.
Arguments distancePair A : clear implicits.
Arguments distancePairList A : clear implicits.
Arguments Meshing A : clear implicits.
