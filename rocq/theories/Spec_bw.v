(** Specification side: incremental (Bowyer-Watson) tetrahedralisation on sets of index quadruples. *)
From Coq Require Import ZArith List Permutation.
Import ListNotations.
Open Scope Z_scope.

Definition quad := (Z * Z * Z * Z)%type.
Definition tri := (Z * Z * Z)%type.
(** the four faces *)
Definition quad_faces (q : quad) : list tri :=
  let '(a, b, c, d) := q in [(a, b, c); (b, c, d); (c, d, a); (d, a, b)].
(** the same three vertices, in any order *)
Definition same_tri (f g : tri) : Prop :=
  let '(a, b, c) := f in let '(x, y, z) := g in Permutation [a; b; c] [x; y; z].
(** [f] is a face of exactly one tetrahedron of the cavity [C] *)
Definition on_boundary (C : quad -> Prop) (f : tri) : Prop :=
  exists q, C q /\ In f (quad_faces q) /\
    forall q' f', C q' -> In f' (quad_faces q') -> same_tri f' f -> q' = q /\ f' = f.
(** one insertion: the tetrahedra of the cavity go, every boundary face is joined to the new vertex [n] *)
Definition bw_insert (bad : quad -> Prop) (n : Z) (T T' : quad -> Prop) : Prop :=
  forall a b c d, T' (a, b, c, d) <->
    T (a, b, c, d) /\ ~ bad (a, b, c, d) \/
    d = n /\ on_boundary (fun q => T q /\ bad q) (a, b, c).
(** the points with numbers k, k+1, ... are inserted one after the other *)
Fixpoint bw_run (bad : nat -> quad -> Prop) (k m : nat) (T T' : quad -> Prop) : Prop :=
  match m with
  | O => forall q, T' q <-> T q
  | S m => exists T1, bw_insert (bad k) (Z.of_nat k + 4) T T1 /\ bw_run bad (S k) m T1 T'
  end.
(** the faces without a vertex of the initial tetrahedron 0 1 2 3, renumbered *)
Definition outer (f : tri) : bool := let '(a, b, c) := f in ((4 <=? a) && (4 <=? b) && (4 <=? c))%bool.
Definition renumber (f : tri) : tri := let '(a, b, c) := f in (a - 4, b - 4, c - 4).
