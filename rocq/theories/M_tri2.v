(** Model of package triangulate2, except the triangulator itself (M_triangulator.v):
    /repo/triangulate2/util.go, hull.go, and area/Validate of triangulation.go. *)
From Coq Require Import ZArith QArith List Bool.
From Verif Require Import Base Arith M_r3.
Import ListNotations.
Local Open Scope res_scope.

(** [for i, p := range l { s = body(i, p, s) }] *)
Fixpoint range_loop {S T : Type} (i : Z) (l : list T) (s : S) (body : Z -> T -> S -> res S) : res S :=
  match l with
  | [] => Ok s
  | p :: l' => let! s' := body i p s in range_loop (i + 1) l' s' body
  end.

Section Tri2.
Context {A : Arith}.
Notation "a +. b" := (fadd A a b) (at level 50, left associativity).
Notation "a -. b" := (fsub A a b) (at level 50, left associativity).
Notation "a *. b" := (fmul A a b) (at level 40, left associativity).
Notation "a /. b" := (fdiv A a b) (at level 40, left associativity).
Notation "a <. b" := (flt A a b) (at level 70).
Notation "a ==. b" := (feq A a b) (at level 70).
Notation zero := (fofZ A 0).
Notation one := (fofZ A 1).

(* triangulate2/util.go:8  math.Nextafter(1,2)-1 = 2^-52 (exact in binary64) *)
Definition eps : A := fofQ A (1 # 4503599627370496).
(* triangulate2/util.go:10 *)
Definition infinity : A := finf A.

(* triangulate2/util.go:12-20 *)
Definition pseudoAngle (dx dy : A) : A :=
  let p := dx /. (fabs A dx +. fabs A dy) in
  let p := if zero <. dy then (fofZ A 3 -. p) /. fofZ A 4 else (one +. p) /. fofZ A 4 in
  fmaxf A zero (fminf A (one -. eps) p).

(* triangulate2/triangulator.go:249-253  [n] is len(t.hash) *)
Definition hashKey (center : vec A) (n : Z) (v : vec A) : Z :=
  let d := Sub v center in
  ftoZ A (pseudoAngle (vx d) (vy d) *. fofZ A n).

(* triangulate2/util.go:22-24 *)
Definition area (a b c : vec A) : A :=
  (vy b -. vy a) *. (vx c -. vx b) -. (vx b -. vx a) *. (vy c -. vy b).

(* triangulate2/util.go:27-45 *)
Definition inCircle (a b c p : vec A) : bool :=
  let dx := vx a -. vx p in
  let dy := vy a -. vy p in
  let ex := vx b -. vx p in
  let ey := vy b -. vy p in
  let fx := vx c -. vx p in
  let fy := vy c -. vy p in
  let ap := dx *. dx +. dy *. dy in
  let bp := ex *. ex +. ey *. ey in
  let cp := fx *. fx +. fy *. fy in
  (dx *. (ey *. cp -. bp *. fy) -. dy *. (ex *. cp -. bp *. fx) +. ap *. (ex *. fy -. ey *. fx)) <. zero.

(* triangulate2/util.go:47-67 *)
Definition circumradius (a b c : vec A) : A :=
  let dx := vx b -. vx a in
  let dy := vy b -. vy a in
  let ex := vx c -. vx a in
  let ey := vy c -. vy a in
  let bl := dx *. dx +. dy *. dy in
  let cl := ex *. ex +. ey *. ey in
  let d := dx *. ey -. dy *. ex in
  let x := (ey *. bl -. dy *. cl) *. fofQ A (1 # 2) /. d in
  let y := (dx *. cl -. ex *. bl) *. fofQ A (1 # 2) /. d in
  let r := x *. x +. y *. y in
  if (bl ==. zero) || (cl ==. zero) || (d ==. zero) || (r ==. zero) then infinity else r.

(* triangulate2/util.go:69-83 *)
Definition circumcenter (a b c : vec A) : vec A :=
  let dx := vx b -. vx a in
  let dy := vy b -. vy a in
  let ex := vx c -. vx a in
  let ey := vy c -. vy a in
  let bl := dx *. dx +. dy *. dy in
  let cl := ex *. ex +. ey *. ey in
  let d := dx *. ey -. dy *. ex in
  let x := vx a +. (ey *. bl -. dy *. cl) *. fofQ A (1 # 2) /. d in
  let y := vy a +. (dx *. cl -. ex *. bl) *. fofQ A (1 # 2) /. d in
  mkvec x y zero.

(* triangulate2/util.go:85-92 *)
Definition polygonArea (vs : list (vec A)) : res A :=
  let! result := range_loop 0 vs zero (fun i p result =>
    let! q := zget vs ((i + 1) mod Z.of_nat (length vs)) in
    Ok (result +. (vx p -. vx q) *. (vy p +. vy q))) in
  Ok (result /. fofZ A 2).

(* triangulate2/util.go:94-105 *)
Definition polygonPerimeter (vs : list (vec A)) : res A :=
  if (Z.of_nat (length vs) =? 0)%Z then Ok zero
  else
    let! q0 := zget vs (Z.of_nat (length vs) - 1) in
    let! s := range_loop 0 vs (zero, q0) (fun _ p '(result, q) =>
      Ok (result +. Distance p q, p)) in
    Ok (fst s).

(* triangulate2/hull.go:8-10 *)
Definition cross2D (p a b : vec A) : A :=
  (vx a -. vx p) *. (vy b -. vy p) -. (vy a -. vy p) *. (vx b -. vx p).

(* triangulate2/hull.go:20-27  the comparison given to sort.Slice *)
Definition lessXY (a b : vec A) : bool :=
  if negb (vx a ==. vx b) then vx a <. vx b else vy a <. vy b.

(* triangulate2/hull.go:29-37  in-place filter: [arr] is the backing array shared by
   Vectors and distinctVectors, [n] is len(distinctVectors); both the element p and
   Vectors[i-1] are read from the array as updated so far *)
Fixpoint filterNear_loop (fuel : nat) (i : Z) (arr : list (vec A)) (n : Z) : res (list (vec A) * Z) :=
  match fuel with
  | O => Ok (arr, n)
  | S fuel' =>
      let! p := zget arr i in
      let! skip :=
        (if (0 <? i)%Z then
           let! prev := zget arr (i - 1) in Ok (SquaredDistance p prev <. eps)
         else Ok false) in
      if skip then filterNear_loop fuel' (i + 1) arr n
      else
        let! arr' := zset arr n p in
        filterNear_loop fuel' (i + 1) arr' (n + 1)
  end.
Definition filterNear (vs : list (vec A)) : res (list (vec A)) :=
  let! s := filterNear_loop (length vs) 0 vs 0 in
  Ok (firstn (Z.to_nat (snd s)) (fst s)).

(* triangulate2/hull.go:42-47  for len(U) > 1 && test(U[len(U)-2], U[len(U)-1], p) { U = U[:len(U)-1] };
   the stack is kept reversed: its head is the last element of the slice *)
Fixpoint popWhile (test : vec A -> vec A -> vec A -> bool) (p : vec A) (s : list (vec A)) : list (vec A) :=
  match s with
  | b :: s' =>
      match s' with
      | a :: _ => if test a b p then popWhile test p s' else s
      | [] => s
      end
  | [] => []
  end.
Definition testU (a b p : vec A) : bool := zero <. cross2D a b p.
Definition testL (a b p : vec A) : bool := cross2D a b p <. zero.

(* triangulate2/hull.go:39-50 *)
Definition hullStep (UL : list (vec A) * list (vec A)) (p : vec A) : list (vec A) * list (vec A) :=
  let '(U, L) := UL in
  (p :: popWhile testU p U, p :: popWhile testL p L).

(* triangulate2/hull.go:13-65; [srt] is what sort.Slice does with the comparison lessXY.
   U reversed in place (lines 52-55) is exactly the reversed stack. *)
Definition ConvexHull (srt : list (vec A) -> list (vec A)) (vs : list (vec A)) : res (list (vec A)) :=
  let! ds := filterNear (srt vs) in
  let '(U, L) := fold_left hullStep ds ([], []) in
  Ok (rev (tl L) ++ removelast U).

(* triangulate2/triangulation.go:9-14 *)
Record Triangulation := mkTriangulation {
  tVectors : list (vec A);
  tConvexHull : list (vec A);
  tTriangles : list Z;
  tHalfedges : list Z }.

(* triangulate2/triangulation.go:23-34; the loop runs while i < len(ts), i += 3 *)
Fixpoint tri_area_loop (vs : list (vec A)) (ts : list Z) (result : A) : res A :=
  match ts with
  | [] => Ok result
  | a :: b :: c :: ts' =>
      let! p0 := zget vs a in
      let! p1 := zget vs b in
      let! p2 := zget vs c in
      tri_area_loop vs ts' (result +. area p0 p1 p2)
  | _ => Panic   (* ts[i+1] or ts[i+2] out of range *)
  end.
Definition tri_area (t : Triangulation) : res A :=
  let! r := tri_area_loop (tVectors t) (tTriangles t) zero in
  Ok (r /. fofZ A 2).

(* triangulate2/triangulation.go:39-68; Ok true = nil, Ok false = an error is returned *)
Definition validate_halfedges (hs : list Z) : res bool :=
  range_loop 0 hs true (fun i1 i2 ok =>
    if negb ok then Ok false   (* already returned an error *)
    else
      let! h1 := zget hs i1 in
      if negb (i1 =? -1)%Z && negb (h1 =? i2)%Z then Ok false
      else if negb (i2 =? -1)%Z then
        let! h2 := zget hs i2 in
        if negb (h2 =? i1)%Z then Ok false else Ok true
      else Ok true).

Definition Validate (srt : list (vec A) -> list (vec A)) (t : Triangulation) : res bool :=
  let! ok := validate_halfedges (tHalfedges t) in
  if negb ok then Ok false
  else
    let hull1 := tConvexHull t in
    let! hull2 := ConvexHull srt (tVectors t) in
    let! area1 := polygonArea hull1 in
    let! area2 := polygonArea hull2 in
    let! area3 := tri_area t in
    let tol := fofQ A (1 # 1000000000) in
    if (tol <. fabs A (area1 -. area2)) || (tol <. fabs A (area1 -. area3)) then Ok false
    else
      let! per1 := polygonPerimeter hull1 in
      let! per2 := polygonPerimeter hull2 in
      if tol <. fabs A (per1 -. per2) then Ok false else Ok true.
End Tri2.
Arguments Triangulation A : clear implicits.
