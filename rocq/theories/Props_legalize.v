(** Property theorems C25-C27 (package triangulate2, the triangulator: flips in any arithmetic,
    non-planar and one-point input in binary64). *)
From Coq Require Import ZArith QArith List Bool Lia Reals Permutation Sorted.
From Flocq Require Import Core BinarySingleNaN.
From Verif Require Import Base Arith GoLoop M_r3 M_tri2 M_triangulator Spec_r3 Spec_plane Spec_halfedge P_tstate P_flipterm.
Import ListNotations.
Open Scope Z_scope.

(** ** C25 *)
Theorem C25_flip_terminates (A : Arith) (zn : A -> Prop) (vs : list (vec A)) s R a :
  null_like A zn ->
  0 <= trianglesLen s <= Ln (triangles s) -> length (halfedges s) = length (triangles s) ->
  paired (live s (triangles s)) (live s (halfedges s)) ->
  (forall v, In v (live s (triangles s)) -> 0 <= v < Ln vs) ->
  hull_ring s R -> 0 <= a < trianglesLen s ->
  exists s' r, legalize vs (legalizeFuel s) s a = Ok (s', r) /\
    trianglesLen s' = trianglesLen s /\ paired (live s' (triangles s')) (live s' (halfedges s')) /\ hull_ring s' R /\
    (forall v, In v (live s' (triangles s')) -> 0 <= v < Ln vs).
Proof. exact (flip_terminates A zn vs s R a). Qed.
Print Assumptions C25_flip_terminates.
(** the hypothesis on the arithmetic holds of binary64 and of exact arithmetic *)
Theorem C25_binary64 : null_like B64 b64_null.
Proof. exact null_like_B64. Qed.
Print Assumptions C25_binary64.
Theorem C25_exact : null_like XR (fun x => x = Fin 0 \/ x = NaN).
Proof. exact null_like_XR. Qed.
Print Assumptions C25_exact.

Definition zp (t : Z * Z * Z) : vec B64 :=
  let '(x, y, z) := t in @mkvec B64 (b64_of_Z x) (b64_of_Z y) (b64_of_Z z).
(** two triangles with a common edge that has to be flipped *)
Definition quadS : tri :=
  mkTri [0; 1; 2; 2; 1; 3] [-1; 3; -1; 1; -1; -1] 6 (Some 0) []
    [mkNode 0 0 (Some 2) (Some 1); mkNode 1 4 (Some 0) (Some 3); mkNode 2 2 (Some 3) (Some 0); mkNode 3 5 (Some 1) (Some 2)].
Definition quadP : list (Z * Z * Z) := [(0, 0, 0); (1, 5, 0); (1, -5, 0); (2, 0, 0)].
Example C25_nonvacuous :
  paired (live quadS (triangles quadS)) (live quadS (halfedges quadS)) /\ hull_ring quadS [0; 1; 3; 2] /\
  match legalize (A:=B64) (map zp quadP) (legalizeFuel quadS) quadS 1 with
  | Ok (s, r) => (triangles s, halfedges s) | _ => ([], []) end = ([0; 3; 2; 0; 1; 3], [5; -1; -1; -1; -1; 0]).
Proof.
  split; [|split; [|vm_compute; reflexivity]].
  - constructor; [reflexivity|exists 2%nat; reflexivity| |];
      (intros e He; change (Z.of_nat (length (live quadS (triangles quadS)))) with 6 in *;
       assert (e = 0 \/ e = 1 \/ e = 2 \/ e = 3 \/ e = 4 \/ e = 5) as C by lia;
       repeat destruct C as [C|C]; subst e; vm_compute; try discriminate; auto;
       right; repeat split; discriminate).
  - constructor.
    + repeat constructor; simpl; intuition discriminate.
    + intros v w H. simpl in H. repeat destruct H as [H|H]; try contradiction; injection H as <- <-; eexists; repeat split; reflexivity.
    + intros v w H. simpl in H. repeat destruct H as [H|H]; try contradiction; injection H as <- <-; eexists; repeat split; reflexivity.
    + exists 0. simpl. auto.
Qed.

(** ** C26 *)
(** points with integer coordinates whose XY projections differ and are not all on one line *)
Definition xy (t : Z * Z * Z) : Z * Z := fst t.
Definition cross (a b c : Z * Z * Z) : Z :=
  (fst (xy b) - fst (xy a)) * (snd (xy c) - snd (xy a)) - (snd (xy b) - snd (xy a)) * (fst (xy c) - fst (xy a)).
Definition good_projection (l : list (Z * Z * Z)) : Prop :=
  NoDup (map xy l) /\ exists a b c, In a l /\ In b l /\ In c l /\ cross a b c <> 0.
Ltac good_proj := split; [repeat constructor; simpl; intuition discriminate|];
  match goal with |- exists a b c, In a (?x :: ?y :: ?z :: _) /\ _ => exists x, y, z end; simpl; repeat split; auto; discriminate.

Theorem C26_panic_refuted : exists l, good_projection l /\
  good_sort isort /\ is_panic (Triangulate (A:=B64) isort (map zp l)) = true.
Proof.
  exists [(2,3,0); (3,3,5); (3,2,5); (5,2,5); (4,3,2)]. split; [good_proj|].
  split; [exact isort_good|]. vm_compute. reflexivity.
Qed.
Print Assumptions C26_panic_refuted.
(** the two lists that Triangulate returns, when it returns without an error *)
Definition lists_of (r : res (Triangulation B64 * bool)) : option (list Z * list Z) :=
  match r with Ok (t, false) => Some (tTriangles t, tHalfedges t) | _ => None end.
(** twins that do not point at each other *)
Theorem C26_inconsistent_refuted : exists l T H, good_projection l /\
  good_sort isort /\ lists_of (Triangulate (A:=B64) isort (map zp l)) = Some (T, H) /\ ~ paired T H.
Proof.
  exists [(18,25,45); (17,16,230); (1,3,107); (5,14,164); (14,4,255); (10,24,155); (18,26,163)].
  do 2 eexists. split; [good_proj|]. split; [exact isort_good|]. split; [vm_compute; reflexivity|].
  intros P. destruct (pr_twin _ _ P 3) as [Q|(_ & Q & _)]; [split; [lia|reflexivity]|discriminate Q|discriminate Q].
Qed.
Print Assumptions C26_inconsistent_refuted.
(** a point that no triangle uses although no other point is near it *)
Theorem C26_unused_refuted : exists l T H v, good_projection l /\ (nth_error l (Z.to_nat v) <> None) /\ 0 <= v /\
  good_sort isort /\ lists_of (Triangulate (A:=B64) isort (map zp l)) = Some (T, H) /\ ~ In v T.
Proof.
  exists [(5,1,1); (5,3,3); (1,4,1); (5,2,5)].
  do 2 eexists. exists 3. split; [good_proj|]. split; [discriminate|]. split; [lia|]. split; [exact isort_good|]. split; [vm_compute; reflexivity|].
  simpl. intuition discriminate.
Qed.
Print Assumptions C26_unused_refuted.
(** the same function on planar input *)
Example C26_planar_works : lists_of (Triangulate (A:=B64) isort (map zp [(0,0,0); (4,0,0); (0,4,0); (4,4,0); (2,2,0); (1,3,0)]))
  = Some ([4; 0; 5; 0; 2; 5; 4; 1; 0; 5; 3; 4; 4; 3; 1; 2; 3; 5],
          [8; 5; 11; -1; 17; 1; 14; -1; 0; 16; 12; 2; 10; -1; 6; -1; 9; 4]).
Proof. vm_compute. reflexivity. Qed.

(** ** C27 *)
Theorem C27_one_point_refuted (A : Arith) sort (v : vec A) : Triangulate sort [v] = Panic.
Proof. reflexivity. Qed.
Print Assumptions C27_one_point_refuted.
Theorem C27_empty (A : Arith) sort : Triangulate (A:=A) sort [] = Ok (mkTriangulation [] [] [] [], false).
Proof. reflexivity. Qed.
Print Assumptions C27_empty.
