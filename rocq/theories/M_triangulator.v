(** Model of /repo/triangulate2/triangulator.go, node.go and Triangulate (triangulation.go).

    A pointer to a node is the index of the node in the slice [nodes]; nil is [None].
    The state record holds the fields of the triangulator that change, and [nodes]. *)
From Coq Require Import ZArith QArith List Bool.
From Verif Require Import Base Arith GoLoop M_r3 M_tri2.
Import ListNotations.
Local Open Scope res_scope.

(* triangulate2/node.go:3-8 *)
Record node := mkNode { nI : Z; nT : Z; nPrev : option Z; nNext : option Z }.
(* the zero value of a node *)
Definition node0 : node := mkNode 0 0 None None.
Definition setI (v : Z) (n : node) := mkNode v (nT n) (nPrev n) (nNext n).
Definition setT (v : Z) (n : node) := mkNode (nI n) v (nPrev n) (nNext n).
Definition setPrev (v : option Z) (n : node) := mkNode (nI n) (nT n) v (nNext n).
Definition setNext (v : option Z) (n : node) := mkNode (nI n) (nT n) (nPrev n) v.

(* triangulate2/triangulator.go:10-20 (the fields that change) *)
Record tri := mkTri {
  triangles : list Z;
  halfedges : list Z;
  trianglesLen : Z;
  hull : option Z;
  hash : list (option Z);
  nodes : list node }.
Definition withTriangles l s := mkTri l (halfedges s) (trianglesLen s) (hull s) (hash s) (nodes s).
Definition withHalfedges l s := mkTri (triangles s) l (trianglesLen s) (hull s) (hash s) (nodes s).
Definition withLen l s := mkTri (triangles s) (halfedges s) l (hull s) (hash s) (nodes s).
Definition withHull l s := mkTri (triangles s) (halfedges s) (trianglesLen s) l (hash s) (nodes s).
Definition withHash l s := mkTri (triangles s) (halfedges s) (trianglesLen s) (hull s) l (nodes s).
Definition withNodes l s := mkTri (triangles s) (halfedges s) (trianglesLen s) (hull s) (hash s) l.

(* reading a pointer; reading and writing the node behind it *)
Definition deref (p : option Z) : res Z := match p with Some k => Ok k | None => Panic end.
Definition getN (s : tri) (k : Z) : res node := zget (nodes s) k.
Definition updN (s : tri) (k : Z) (f : node -> node) : res tri :=
  let! n := zget (nodes s) k in
  let! ns := zset (nodes s) k (f n) in
  Ok (withNodes ns s).
(* p.next and p.prev of the node behind p *)
Definition next_of (s : tri) (k : Z) : res Z := let! n := getN s k in deref (nNext n).
Definition prev_of (s : tri) (k : Z) : res Z := let! n := getN s k in deref (nPrev n).

(* triangulate2/node.go:10-23 *)
Definition newNode (s : tri) (i : Z) (prev : option Z) : res tri :=
  let! s := updN s i (setI i) in
  match prev with
  | None =>
      let! s := updN s i (setPrev (Some i)) in
      updN s i (setNext (Some i))
  | Some pr =>
      let! np := getN s pr in
      let! s := updN s i (setNext (nNext np)) in
      let! s := updN s i (setPrev (Some pr)) in
      let! nx := next_of s pr in
      let! s := updN s nx (setPrev (Some i)) in
      updN s pr (setNext (Some i))
  end.

(* triangulate2/node.go:25-30; also returns n.prev *)
Definition remove (s : tri) (n : Z) : res (tri * Z) :=
  let! nn := getN s n in
  let! pr := deref (nPrev nn) in
  let! s := updN s pr (setNext (nNext nn)) in
  let! nn := getN s n in
  let! nx := deref (nNext nn) in
  let! s := updN s nx (setPrev (nPrev nn)) in
  let! s := updN s n (setI (-1)) in
  let! pr := prev_of s n in
  Ok (s, pr).

(* triangulate2/triangulator.go:271-276 *)
Definition link (s : tri) (a b : Z) : res tri :=
  let! h := zset (halfedges s) a b in
  if (0 <=? b)%Z then
    let! h := zset h b a in Ok (withHalfedges h s)
  else Ok (withHalfedges h s).

(* triangulate2/triangulator.go:259-269 *)
Definition addTriangle (s : tri) (i0 i1 i2 a b c : Z) : res (tri * Z) :=
  let i := trianglesLen s in
  let! t := zset (triangles s) i i0 in
  let! t := zset t (i + 1) i1 in
  let! t := zset t (i + 2) i2 in
  let s := withTriangles t s in
  let! s := link s i a in
  let! s := link s (i + 1) b in
  let! s := link s (i + 2) c in
  Ok (withLen (trianglesLen s + 3) s, i).

(* triangulate2/triangulator.go:320-332  the search for the hull node with e.t == bl *)
Fixpoint fixHull (fuel : nat) (s : tri) (h e bl a : Z) : res tri :=
  match fuel with
  | O => Diverge
  | S fuel' =>
      let! n := getN s e in
      if (nT n =? bl)%Z then updN s e (setT a)
      else
        let! e' := deref (nNext n) in
        if (e' =? h)%Z then Ok s else fixHull fuel' s h e' bl a
  end.

Section Triangulator.
Context {A : Arith}.
Notation zero := (fofZ A 0).

(* triangulate2/triangulator.go:278-345; fuel bounds the depth of the recursion *)
Fixpoint legalize (vs : list (vec A)) (fuel : nat) (s : tri) (a : Z) : res (tri * Z) :=
  match fuel with
  | O => Diverge
  | S fuel' =>
      let! b := zget (halfedges s) a in
      let a0 := (a - Z.rem a 3)%Z in
      let b0 := (b - Z.rem b 3)%Z in
      let al := (a0 + Z.rem (a + 1) 3)%Z in
      let ar := (a0 + Z.rem (a + 2) 3)%Z in
      let bl := (b0 + Z.rem (b + 2) 3)%Z in
      if (b <? 0)%Z then Ok (s, ar)
      else
        let! p0 := zget (triangles s) ar in
        let! pr := zget (triangles s) a in
        let! pl := zget (triangles s) al in
        let! p1 := zget (triangles s) bl in
        let! v0 := zget vs p0 in
        let! vr := zget vs pr in
        let! vl := zget vs pl in
        let! v1 := zget vs p1 in
        if inCircle v0 vr vl v1 then
          let! t := zset (triangles s) a p1 in
          let! t := zset t b p0 in
          let s := withTriangles t s in
          let! hbl := zget (halfedges s) bl in
          let! s := (if (hbl =? -1)%Z then
                       let! h := deref (hull s) in
                       fixHull (S (length (nodes s))) s h h bl a
                     else Ok s) in
          let! hbl := zget (halfedges s) bl in
          let! s := link s a hbl in
          let! har := zget (halfedges s) ar in
          let! s := link s b har in
          let! s := link s ar bl in
          let br := (b0 + Z.rem (b + 1) 3)%Z in
          let! (s, _) := legalize vs fuel' s a in
          legalize vs fuel' s br
        else Ok (s, ar)
  end.

(* triangulate2/triangulator.go:255-257 *)
Definition hashEdge (vs : list (vec A)) (center : vec A) (s : tri) (e : Z) : res tri :=
  let! n := getN s e in
  let! v := zget vs (nI n) in
  let! h := zset (hash s) (hashKey center (Z.of_nat (length (hash s))) v) (Some e) in
  Ok (withHash h s).

(* triangulate2/triangulator.go:182-193; [count] iterations remain *)
Fixpoint findStart (count : nat) (s : tri) (key : Z) (start : option Z) : res (option Z) :=
  match count with
  | O => Ok start
  | S count' =>
      let! start := zget (hash s) key in
      let! found := (match start with
                     | Some k => let! n := getN s k in Ok (0 <=? nI n)%Z
                     | None => Ok false
                     end) in
      if found then Ok start
      else
        let key := (key + 1)%Z in
        let key := if (Z.of_nat (length (hash s)) <=? key)%Z then 0%Z else key in
        findStart count' s key start
  end.

(* area(p, Vectors[a.i], Vectors[b.i]) for nodes a and b *)
Definition areaN (vs : list (vec A)) (s : tri) (p : vec A) (a b : Z) : res A :=
  let! na := getN s a in
  let! va := zget vs (nI na) in
  let! nb := getN s b in
  let! vb := zget vs (nI nb) in
  Ok (area p va vb).

(* triangulate2/triangulator.go:195-206  None = nil *)
Fixpoint findVisible (vs : list (vec A)) (fuel : nat) (s : tri) (p : vec A) (start e : Z) : res (option Z) :=
  match fuel with
  | O => Diverge
  | S fuel' =>
      let! e' := next_of s e in
      let! ar := areaN vs s p e e' in
      if fle A zero ar then
        if (e' =? start)%Z then Ok None else findVisible vs fuel' s p start e'
      else Ok (Some e)
  end.

(* the recursion of legalize never needs more than this (Props_triangulator.v) *)
Definition legalizeFuel (s : tri) : nat := S (length (triangles s)).

(* triangulate2/triangulator.go:218-224 *)
Fixpoint walkForward (vs : list (vec A)) (fuel : nat) (s : tri) (p : vec A) (i q : Z) : res tri :=
  match fuel with
  | O => Diverge
  | S fuel' =>
      let! nq := next_of s q in
      let! ar := areaN vs s p q nq in
      if flt A ar zero then
        let! nodeq := getN s q in
        let! noden := getN s nq in
        let! pr := deref (nPrev nodeq) in
        let! nodep := getN s pr in
        let! (s, t) := addTriangle s (nI nodeq) i (nI noden) (nT nodep) (-1) (nT nodeq) in
        let! (s, r) := legalize vs (legalizeFuel s) s (t + 2) in
        let! s := updN s pr (setT r) in
        let! (s, pr) := remove s q in
        let s := withHull (Some pr) s in
        let! q := next_of s q in
        walkForward vs fuel' s p i q
      else Ok s
  end.

(* triangulate2/triangulator.go:228-235 *)
Fixpoint walkBackward (vs : list (vec A)) (fuel : nat) (s : tri) (p : vec A) (i q : Z) : res tri :=
  match fuel with
  | O => Diverge
  | S fuel' =>
      let! pq := prev_of s q in
      let! ar := areaN vs s p pq q in
      if flt A ar zero then
        let! nodeq := getN s q in
        let! nodep := getN s pq in
        let! (s, t) := addTriangle s (nI nodep) i (nI nodeq) (-1) (nT nodeq) (nT nodep) in
        let! (s, _) := legalize vs (legalizeFuel s) s (t + 2) in
        let! pr := prev_of s q in
        let! s := updN s pr (setT t) in
        let! (s, pr) := remove s q in
        let s := withHull (Some pr) s in
        let! q := prev_of s q in
        walkBackward vs fuel' s p i q
      else Ok s
  end.

(* triangulate2/triangulator.go:181-241  one point that is neither a near-duplicate nor a seed *)
Definition insertPoint (vs : list (vec A)) (center : vec A) (s : tri) (i : Z) (p : vec A) : res tri :=
  let key := hashKey center (Z.of_nat (length (hash s))) p in
  let! start := findStart (length (hash s)) s key None in
  let! start := deref start in
  let! start := prev_of s start in
  let! e := findVisible vs (S (length (nodes s))) s p start start in
  match e with
  | None => Ok s
  | Some e =>
      let walkBack := (e =? start)%Z in
      let! nodee := getN s e in
      let! ne := deref (nNext nodee) in
      let! noden := getN s ne in
      let! (s, t) := addTriangle s (nI nodee) i (nI noden) (-1) (-1) (nT nodee) in
      let! s := updN s e (setT t) in
      let! s := newNode s i (Some e) in
      let! (s, r) := legalize vs (legalizeFuel s) s (t + 2) in
      let! s := updN s i (setT r) in
      let! q := next_of s i in
      let! s := walkForward vs (S (length (nodes s))) s p i q in
      let! s := (if walkBack then
                   let! q := prev_of s i in
                   walkBackward vs (S (length (nodes s))) s p i q
                 else Ok s) in
      let! s := hashEdge vs center s i in
      let! pr := prev_of s i in
      hashEdge vs center s pr
  end.

(* triangulate2/triangulator.go:164-241 *)
Fixpoint insertAll (vs : list (vec A)) (center : vec A) (i0 i1 i2 : Z) (ids : list Z) (pp : vec A) (s : tri)
  : res tri :=
  match ids with
  | [] => Ok s
  | i :: ids' =>
      let! p := zget vs i in
      if flt A (SquaredDistance p pp) eps then insertAll vs center i0 i1 i2 ids' pp s
      else if (i =? i0)%Z || (i =? i1)%Z || (i =? i2)%Z then insertAll vs center i0 i1 i2 ids' p s
      else
        let! s := insertPoint vs center s i p in
        insertAll vs center i0 i1 i2 ids' p s
  end.

(* triangulate2/triangulator.go:61-79  the bounds x0, y0, x1, y1 *)
Definition bounds (vs : list (vec A)) : res (A * A * A * A) :=
  let! v0 := zget vs 0 in
  let! v1 := zget vs 1 in
  Ok (fold_left (fun '(x0, y0, x1, y1) p =>
        (if flt A (vx p) x0 then vx p else x0,
         if flt A (vy p) y0 then vy p else y0,
         if flt A x1 (vx p) then vx p else x1,
         if flt A y1 (vy p) then vy p else y1)) vs (vx v0, vy v0, vx v1, vy v1)).

(* the three search loops share this shape: for i, p := range Vectors { if skip(i) {continue};
   d := f(p); if ok(d) && d < min { best = i; min = d } } *)
Fixpoint argmin (skip : Z -> bool) (f : vec A -> A) (ok : A -> bool) (i : Z) (l : list (vec A)) (best : Z) (m : A)
  : Z * A :=
  match l with
  | [] => (best, m)
  | p :: l' =>
      if skip i then argmin skip f ok (i + 1) l' best m
      else
        let d := f p in
        if ok d && flt A d m then argmin skip f ok (i + 1) l' i d
        else argmin skip f ok (i + 1) l' best m
  end.

(* triangulate2/triangulator.go:83-92 *)
Definition seed0 (vs : list (vec A)) (m : vec A) : Z :=
  fst (argmin (fun _ => false) (fun p => SquaredDistance p m) (fun _ => true) 0 vs 0 infinity).
(* triangulate2/triangulator.go:94-105 *)
Definition seed1 (vs : list (vec A)) (i0 : Z) (v0 : vec A) : Z :=
  fst (argmin (fun i => (i =? i0)%Z) (fun p => SquaredDistance p v0) (fun d => flt A zero d) 0 vs 0 infinity).
(* triangulate2/triangulator.go:107-118 *)
Definition seed2 (vs : list (vec A)) (i0 i1 : Z) (v0 v1 : vec A) : Z * A :=
  argmin (fun i => (i =? i0)%Z || (i =? i1)%Z) (fun p => circumradius v0 v1 p) (fun _ => true) 0 vs 0 infinity.

(* triangulate2/triangulator.go:36-48  on the ids themselves; ids are in range, so the
   defaults of nth are never used *)
Definition lessId (vs : list (vec A)) (sq : list A) (a b : Z) : bool :=
  let d1 := nth (Z.to_nat a) sq zero in
  let d2 := nth (Z.to_nat b) sq zero in
  let p1 := nth (Z.to_nat a) vs (mkvec zero zero zero) in
  let p2 := nth (Z.to_nat b) vs (mkvec zero zero zero) in
  if negb (feq A d1 d2) then flt A d1 d2
  else if negb (feq A (vx p1) (vx p2)) then flt A (vx p1) (vx p2)
  else flt A (vy p1) (vy p2).

Definition emptyTri : tri := mkTri [] [] 0 None [] [].
Definition allIds (n : nat) : list Z := map Z.of_nat (seq 0 n).

(* triangulate2/triangulator.go:137-162  the hash table, the first three hull nodes and the
   first triangle *)
Definition initTri (vs : list (vec A)) (center : vec A) (i0 i1 i2 : Z) : res tri :=
  let n := Z.of_nat (length vs) in
  let hashSize := ftoZ A (fceil A (fsqrt A (fofZ A n))) in
  let! h := make hashSize None in
  let s := mkTri [] [] 0 None h (repeat node0 (length vs)) in
  let! s := newNode s i0 None in
  let! s := updN s i0 (setT 0) in
  let! s := hashEdge vs center s i0 in
  let! s := newNode s i1 (Some i0) in
  let! s := updN s i1 (setT 1) in
  let! s := hashEdge vs center s i1 in
  let! s := newNode s i2 (Some i1) in
  let! s := updN s i2 (setT 2) in
  let! s := hashEdge vs center s i2 in
  let s := withHull (Some i2) s in
  let! t := make ((2 * n - 5) * 3) 0%Z in
  let s := withTriangles t s in
  let! t := make ((2 * n - 5) * 3) 0%Z in
  let s := withHalfedges t s in
  let! (s, _) := addTriangle s i0 i1 i2 (-1) (-1) (-1) in
  Ok s.

(* triangulate2/triangulator.go:50-247; [sort] is sort.Sort with the given comparison.
   The bool is true when an error is returned. *)
Definition triangulate (sort : (Z -> Z -> bool) -> list Z -> list Z) (vs : list (vec A)) : res (tri * bool) :=
  match vs with
  | [] => Ok (emptyTri, false)
  | _ =>
      let! (x0, y0, x1, y1) := bounds vs in
      let m := mkvec (fdiv A (fadd A x0 x1) (fofZ A 2)) (fdiv A (fadd A y0 y1) (fofZ A 2)) zero in
      let i0 := seed0 vs m in
      let! v0 := zget vs i0 in
      let i1 := seed1 vs i0 v0 in
      let! v1 := zget vs i1 in
      let '(i2, minRadius) := seed2 vs i0 i1 v0 v1 in
      if feq A minRadius infinity then Ok (emptyTri, true)
      else
        let! v2 := zget vs i2 in
        let '(i1, i2) := if flt A (area v0 v1 v2) zero then (i2, i1) else (i1, i2) in
        let! v1 := zget vs i1 in
        let! v2 := zget vs i2 in
        let center := circumcenter v0 v1 v2 in
        let sq := map (fun p => SquaredDistance p center) vs in
        let ids := sort (lessId vs sq) (allIds (length vs)) in
        let! s := initTri vs center i0 i1 i2 in
        let! s := insertAll vs center i0 i1 i2 ids (mkvec infinity infinity zero) s in
        let L := Z.to_nat (trianglesLen s) in
        Ok (withHalfedges (firstn L (halfedges s)) (withTriangles (firstn L (triangles s)) s), false)
  end.

(* triangulate2/triangulator.go:347-358 *)
Fixpoint hullLoop (vs : list (vec A)) (fuel : nat) (s : tri) (h e : Z) (acc : list (vec A)) : res (list (vec A)) :=
  match fuel with
  | O => Diverge
  | S fuel' =>
      let! n := getN s e in
      let! v := zget vs (nI n) in
      let acc := acc ++ [v] in
      match nPrev n with
      | None => Ok acc
      | Some e' => if (e' =? h)%Z then Ok acc else hullLoop vs fuel' s h e' acc
      end
  end.
Definition convexHull (vs : list (vec A)) (s : tri) : res (list (vec A)) :=
  match hull s with
  | None => Ok []
  | Some h => hullLoop vs (S (length (nodes s))) s h h []
  end.

(* triangulate2/triangulation.go:17-21; the bool is true when an error is returned *)
Definition Triangulate (sort : (Z -> Z -> bool) -> list Z -> list Z) (vs : list (vec A))
  : res (Triangulation A * bool) :=
  let! (s, err) := triangulate sort vs in
  let! h := convexHull vs s in
  Ok (mkTriangulation vs h (triangles s) (halfedges s), err).

End Triangulator.
