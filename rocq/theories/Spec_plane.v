(** Specification side: plane geometry on the (X, Y) coordinates of real vectors. *)
From Coq Require Import Reals List Permutation Sorted.
From Verif Require Import Spec_r3.
Import ListNotations.
Open Scope R_scope.

(** twice the signed area of the triangle a b c, positive when counter-clockwise *)
Definition ccw (a b c : rv) : R :=
  (rx b - rx a) * (ry c - ry a) - (ry b - ry a) * (rx c - rx a).
(** the XY projections of three points are on one line *)
Definition collinear2 (a b c : rv) : Prop :=
  exists nx ny k, (nx <> 0 \/ ny <> 0) /\
    nx * rx a + ny * ry a = k /\ nx * rx b + ny * ry b = k /\ nx * rx c + ny * ry c = k.
(** squared distance of the XY projections *)
Definition dist2xy (a b : rv) : R := (rx a - rx b) * (rx a - rx b) + (ry a - ry b) * (ry a - ry b).

Definition circle3 (o : rv) (r2 : R) (a b c : rv) : Prop :=
  dist2xy a o = r2 /\ dist2xy b o = r2 /\ dist2xy c o = r2.

(** lexicographic order on (X, Y) *)
Definition lexlt (a b : rv) : Prop := rx a < rx b \/ (rx a = rx b /\ ry a < ry b).
Definition samexy (a b : rv) : Prop := rx a = rx b /\ ry a = ry b.

(** the edges of a closed polygon *)
Definition polygon_edges {T} (l : list T) : list (T * T) :=
  match l with
  | [] => []
  | x :: l' => combine l (l' ++ [x])
  end.
Fixpoint Rsum (l : list R) : R := match l with [] => 0 | x :: l' => x + Rsum l' end.
(** shoelace formula: signed area, positive for counter-clockwise polygons *)
Definition shoelace (l : list rv) : R :=
  Rsum (map (fun e => rx (fst e) * ry (snd e) - rx (snd e) * ry (fst e)) (polygon_edges l)) / 2.
Definition perimeter3 (l : list rv) : R :=
  Rsum (map (fun e => rdist (fst e) (snd e)) (polygon_edges l)).

(** what sort.Slice guarantees for one input: a rearrangement without inversions
    (nothing is assumed about the order of elements that compare equal) *)
Definition sorts {T} (less : T -> T -> bool) (l s : list T) : Prop :=
  Permutation l s /\ StronglySorted (fun a b => less b a = false) s.

(** every point of [vs] is on the left of, or on, every edge of the closed polygon [h] *)
Definition encloses (h vs : list rv) : Prop :=
  forall e, In e (polygon_edges h) -> forall q, In q vs -> 0 <= ccw (fst e) (snd e) q.

(** the tolerance of triangulate2: 2^-52 *)
Definition epsR : R := / 4503599627370496.
(** different points of [vs] differ in X or Y and are not near-duplicates *)
Definition separated (vs : list rv) : Prop :=
  forall a b, In a vs -> In b vs -> a <> b -> ~ samexy a b /\ epsR <= rdist2 a b.

(** [linked vs a b]: b can be reached from a by steps shorter than sqrt(2^-52) between points of [vs] *)
Definition near_link (vs : list rv) (a b : rv) : Prop := In a vs /\ In b vs /\ rdist2 b a < epsR.
Inductive linked (vs : list rv) : rv -> rv -> Prop :=
| linked_refl a : linked vs a a
| linked_step a b c : linked vs a b -> near_link vs b c -> linked vs a c.
