(** The loops of Triangulate and ConvexHull with a counter of the geometric tests they make: the definitions of
    M_triangulator.v and M_tri2.v, returning in addition how often inCircle (triangulator.go:304) or cross2D
    (hull.go:40, 45) is evaluated.  P_cost.v proves that forgetting the counter gives back the original functions. *)
From Coq Require Import ZArith List Bool.
From Verif Require Import Base Arith M_r3 M_tri2 M_triangulator.
Import ListNotations.
Open Scope res_scope.

Section Cost.
Context {A : Arith}.
Notation zero := (fofZ A 0).

(* triangulate2/triangulator.go:278-345 *)
Fixpoint legalizeN (vs : list (vec A)) (fuel : nat) (s : tri) (a : Z) : res (tri * Z * nat) :=
  match fuel with
  | O => Diverge
  | S fuel' =>
      let! b := zget (halfedges s) a in
      let a0 := (a - Z.rem a 3)%Z in
      let b0 := (b - Z.rem b 3)%Z in
      let al := (a0 + Z.rem (a + 1) 3)%Z in
      let ar := (a0 + Z.rem (a + 2) 3)%Z in
      let bl := (b0 + Z.rem (b + 2) 3)%Z in
      if (b <? 0)%Z then Ok (s, ar, 0)
      else
        let! p0 := zget (triangles s) ar in
        let! pr := zget (triangles s) a in
        let! pl := zget (triangles s) al in
        let! p1 := zget (triangles s) bl in
        let! v0 := zget vs p0 in
        let! vr := zget vs pr in
        let! vl := zget vs pl in
        let! v1 := zget vs p1 in
        if inCircle v0 vr vl v1 then
          let! t := zset (triangles s) a p1 in
          let! t := zset t b p0 in
          let s := withTriangles t s in
          let! hbl := zget (halfedges s) bl in
          let! s := (if (hbl =? -1)%Z then
                       let! h := deref (hull s) in
                       fixHull (S (length (nodes s))) s h h bl a
                     else Ok s) in
          let! hbl := zget (halfedges s) bl in
          let! s := link s a hbl in
          let! har := zget (halfedges s) ar in
          let! s := link s b har in
          let! s := link s ar bl in
          let br := (b0 + Z.rem (b + 1) 3)%Z in
          let! (s, _, c) := legalizeN vs fuel' s a in
          let! (s, r, c') := legalizeN vs fuel' s br in
          Ok (s, r, S (c + c'))
        else Ok (s, ar, 1)
  end.
(* triangulate2/triangulator.go:218-224 *)
Fixpoint walkForwardN (vs : list (vec A)) (fuel : nat) (s : tri) (p : vec A) (i q : Z) : res (tri * nat) :=
  match fuel with
  | O => Diverge
  | S fuel' =>
      let! nq := next_of s q in
      let! ar := areaN vs s p q nq in
      if flt A ar zero then
        let! nodeq := getN s q in
        let! noden := getN s nq in
        let! pr := deref (nPrev nodeq) in
        let! nodep := getN s pr in
        let! (s, t) := addTriangle s (nI nodeq) i (nI noden) (nT nodep) (-1) (nT nodeq) in
        let! (s, r, c) := legalizeN vs (legalizeFuel s) s (t + 2) in
        let! s := updN s pr (setT r) in
        let! (s, pr) := remove s q in
        let s := withHull (Some pr) s in
        let! q := next_of s q in
        let! (s, c') := walkForwardN vs fuel' s p i q in
        Ok (s, c + c')
      else Ok (s, 0)
  end.
(* triangulate2/triangulator.go:228-235 *)
Fixpoint walkBackwardN (vs : list (vec A)) (fuel : nat) (s : tri) (p : vec A) (i q : Z) : res (tri * nat) :=
  match fuel with
  | O => Diverge
  | S fuel' =>
      let! pq := prev_of s q in
      let! ar := areaN vs s p pq q in
      if flt A ar zero then
        let! nodeq := getN s q in
        let! nodep := getN s pq in
        let! (s, t) := addTriangle s (nI nodep) i (nI nodeq) (-1) (nT nodeq) (nT nodep) in
        let! (s, _, c) := legalizeN vs (legalizeFuel s) s (t + 2) in
        let! pr := prev_of s q in
        let! s := updN s pr (setT t) in
        let! (s, pr) := remove s q in
        let s := withHull (Some pr) s in
        let! q := prev_of s q in
        let! (s, c') := walkBackwardN vs fuel' s p i q in
        Ok (s, c + c')
      else Ok (s, 0)
  end.
(* triangulate2/triangulator.go:181-241 *)
Definition insertPointN (vs : list (vec A)) (center : vec A) (s : tri) (i : Z) (p : vec A) : res (tri * nat) :=
  let key := hashKey center (Z.of_nat (length (hash s))) p in
  let! start := findStart (length (hash s)) s key None in
  let! start := deref start in
  let! start := prev_of s start in
  let! e := findVisible vs (S (length (nodes s))) s p start start in
  match e with
  | None => Ok (s, 0)
  | Some e =>
      let walkBack := (e =? start)%Z in
      let! nodee := getN s e in
      let! ne := deref (nNext nodee) in
      let! noden := getN s ne in
      let! (s, t) := addTriangle s (nI nodee) i (nI noden) (-1) (-1) (nT nodee) in
      let! s := updN s e (setT t) in
      let! s := newNode s i (Some e) in
      let! (s, r, c) := legalizeN vs (legalizeFuel s) s (t + 2) in
      let! s := updN s i (setT r) in
      let! q := next_of s i in
      let! (s, c') := walkForwardN vs (S (length (nodes s))) s p i q in
      let! (s, c'') := (if walkBack then
                   let! q := prev_of s i in
                   walkBackwardN vs (S (length (nodes s))) s p i q
                 else Ok (s, 0)) in
      let! s := hashEdge vs center s i in
      let! pr := prev_of s i in
      let! s := hashEdge vs center s pr in
      Ok (s, c + c' + c'')
  end.
(* triangulate2/triangulator.go:164-241 *)
Fixpoint insertAllN (vs : list (vec A)) (center : vec A) (i0 i1 i2 : Z) (ids : list Z) (pp : vec A) (s : tri)
  : res (tri * nat) :=
  match ids with
  | [] => Ok (s, 0)
  | i :: ids' =>
      let! p := zget vs i in
      if flt A (SquaredDistance p pp) eps then insertAllN vs center i0 i1 i2 ids' pp s
      else if (i =? i0)%Z || (i =? i1)%Z || (i =? i2)%Z then insertAllN vs center i0 i1 i2 ids' p s
      else
        let! (s, c) := insertPointN vs center s i p in
        let! (s, c') := insertAllN vs center i0 i1 i2 ids' p s in
        Ok (s, c + c')
  end.
(* triangulate2/triangulator.go:50-247 *)
Definition triangulateN (sort : (Z -> Z -> bool) -> list Z -> list Z) (vs : list (vec A)) : res (tri * bool * nat) :=
  match vs with
  | [] => Ok (emptyTri, false, 0)
  | _ =>
      let! (x0, y0, x1, y1) := bounds vs in
      let m := mkvec (fdiv A (fadd A x0 x1) (fofZ A 2)) (fdiv A (fadd A y0 y1) (fofZ A 2)) zero in
      let i0 := seed0 vs m in
      let! v0 := zget vs i0 in
      let i1 := seed1 vs i0 v0 in
      let! v1 := zget vs i1 in
      let '(i2, minRadius) := seed2 vs i0 i1 v0 v1 in
      if feq A minRadius infinity then Ok (emptyTri, true, 0)
      else
        let! v2 := zget vs i2 in
        let '(i1, i2) := if flt A (area v0 v1 v2) zero then (i2, i1) else (i1, i2) in
        let! v1 := zget vs i1 in
        let! v2 := zget vs i2 in
        let center := circumcenter v0 v1 v2 in
        let sq := map (fun p => SquaredDistance p center) vs in
        let ids := sort (lessId vs sq) (allIds (length vs)) in
        let! s := initTri vs center i0 i1 i2 in
        let! (s, c) := insertAllN vs center i0 i1 i2 ids (mkvec infinity infinity zero) s in
        let L := Z.to_nat (trianglesLen s) in
        Ok (withHalfedges (firstn L (halfedges s)) (withTriangles (firstn L (triangles s)) s), false, c)
  end.

(* triangulate2/hull.go:39-50: the stack and the number of cross products compared *)
Fixpoint popWhileN (test : vec A -> vec A -> vec A -> bool) (p : vec A) (s : list (vec A)) : list (vec A) * nat :=
  match s with
  | b :: s' =>
      match s' with
      | a :: _ => if test a b p then let '(r, c) := popWhileN test p s' in (r, S c) else (s, 1)
      | [] => (s, 0)
      end
  | [] => ([], 0)
  end.
Definition hullStepN (UL : list (vec A) * list (vec A) * nat) (p : vec A) : list (vec A) * list (vec A) * nat :=
  let '(U, L, c) := UL in
  let '(U', cu) := popWhileN testU p U in
  let '(L', cl) := popWhileN testL p L in
  (p :: U', p :: L', c + cu + cl).
(* triangulate2/hull.go:13-65 *)
Definition ConvexHullN (srt : list (vec A) -> list (vec A)) (vs : list (vec A)) : res (list (vec A) * nat) :=
  let! ds := filterNear (srt vs) in
  let '(U, L, c) := fold_left hullStepN ds ([], [], 0) in
  Ok (rev (tl L) ++ removelast U, c).
End Cost.
