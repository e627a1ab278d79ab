(** Specification side: triangulations stored as two integer lists (the format of
    delaunator: triangle k is the entries 3k, 3k+1, 3k+2), and sorting. *)
From Coq Require Import ZArith List Permutation Sorted.
From Verif Require Import Spec_plane.
Import ListNotations.
Open Scope Z_scope.

(** the next corner of the same triangle *)
Definition corner_next (e : Z) : Z := if e mod 3 =? 2 then e - 2 else e + 1.
Definition entry (l : list Z) (e : Z) : Z := nth (Z.to_nat e) l (-1).

(** whole triangles with three different corners; every half-edge is on the boundary (-1) or has
    a twin in another triangle that joins the same two corners in the opposite direction *)
Record paired (T H : list Z) : Prop := {
  pr_len : length H = length T;
  pr_whole : exists k, length T = (3 * k)%nat;
  pr_corners : forall e, 0 <= e < Z.of_nat (length T) -> entry T e <> entry T (corner_next e);
  pr_twin : forall e, 0 <= e < Z.of_nat (length T) -> entry H e = -1 \/
    (0 <= entry H e < Z.of_nat (length T) /\ entry H (entry H e) = e /\ entry H e / 3 <> e / 3 /\
     entry T (entry H e) = entry T (corner_next e) /\ entry T (corner_next (entry H e)) = entry T e) }.

(** a sorting function: sorts whatever a strict weak order compares *)
Definition good_sort (srt : (Z -> Z -> bool) -> list Z -> list Z) : Prop :=
  forall less l,
    (forall a b, In a l -> In b l -> less a b = true -> less b a = false) ->
    (forall a b c, In a l -> In b l -> In c l -> less b a = false -> less c b = false -> less c a = false) ->
    sorts less l (srt less l).
