(** Specification side: knot insertion (Boehm) and sign changes. *)
From Coq Require Import Reals ZArith List.
From Verif Require Import Spec_r3 Spec_nurbs Spec_spline.
Import ListNotations.
Open Scope R_scope.

(** x put behind element s *)
Definition insert_after {T} (s : Z) (x : T) (l : list T) : list T :=
  firstn (Z.to_nat (s + 1)) l ++ x :: skipn (Z.to_nat (s + 1)) l.
Definition ctrl (P : list rv) (k : Z) : rv := nth (Z.to_nat k) P rzero.
(** Boehm's new control points for knot x in span s: p of them are weighted means of two old neighbours *)
Definition boehm_point (U : list Z) (P : list rv) (p s x k : Z) : rv :=
  if (k <=? s - p)%Z then ctrl P k
  else if (k <=? s)%Z then
    let a := (IZR x - knot U k) / (knot U (k + p) - knot U k) in
    radd (rscale a (ctrl P k)) (rscale (1 - a) (ctrl P (k - 1)))
  else ctrl P (k - 1).
Definition boehm (U : list Z) (P : list rv) (n p s x : Z) : list rv :=
  map (fun k => boehm_point U P p s x (Z.of_nat k)) (seq 0 (Z.to_nat (n + 2))).

(** a list of non-zero numbers that changes sign at every step *)
Fixpoint alternating (l : list R) : Prop :=
  match l with
  | [] => True
  | [y] => y <> 0
  | y :: ((z :: _) as r) => y * z < 0 /\ alternating r
  end.
(** signed position of a point relative to the plane w . v = h *)
Definition side (w : rv) (h : R) (v : rv) : R := rdot w v - h.

Definition convex (f : R -> R) : Prop := forall s a b, 0 <= s <= 1 -> f (s * a + (1 - s) * b) <= s * f a + (1 - s) * f b.
(** Greville abscissa: the mean of the p knots after knot k *)
Definition abscissa (U : list Z) (p k : Z) : R := knot_sum (knot U) (Z.to_nat p) k / IZR p.
