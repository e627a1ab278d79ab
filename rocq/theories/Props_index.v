(** C113-C114: in every arithmetic and for every sort function, what Triangulate returns can be indexed, and
    Validate does not panic on it. *)
From Coq Require Import ZArith Lia List Bool Reals.
From Flocq Require Import IEEE754.BinarySingleNaN.
From Verif Require Import Base Arith GoLoop M_r3 M_tri2 M_triangulator Spec_index P_index.
Import ListNotations.
Open Scope Z_scope.

(** ** C113 *)
(** No assumption on the points (equal, collinear, Inf, NaN, any Z coordinate), on the arithmetic, or on what the sort
    function does with the ids (it may drop, repeat or invent ids: an invented one makes Triangulate panic). *)
Theorem C113_indices : forall (A : Arith) sort (vs : list (vec A)) T err,
  Triangulate sort vs = Ok (T, err) ->
  tVectors T = vs /\ index_valid T /\ (forall p, In p (tConvexHull T) -> In p vs).
Proof.
  intros A sort vs T err H. unfold Triangulate in H. bok H r E. destruct r as [s e]. bok H h Eh. injection H as <- _. cbn [tVectors tConvexHull].
  split; [reflexivity|]. split.
  - unfold index_valid. cbn [tTriangles tHalfedges tVectors]. apply triangulate_inv in E.
    destruct E as [[-> _]|(_ & (q & Q1 & Q2 & Q) & [I1 I2 I3 I4])].
    + simpl. split; [exists 0%nat; reflexivity|]. split; [reflexivity|]. split; intros k [].
    + split; [exists (Z.to_nat q); lia|]. split; [exact I4|]. rewrite I4. rewrite Forall_forall in I1, I2. auto.
  - unfold convexHull in Eh. destruct (hull s) as [k|]; [|injection Eh as <-; intros p []]. eapply hullLoop_In; eauto. intros x [].
Qed.
(** without an error there is at least one triangle (unless there are no points), and never more than 2n-5 *)
Theorem C113_count : forall (A : Arith) sort (vs : list (vec A)) T,
  Triangulate sort vs = Ok (T, false) -> vs <> [] ->
  (3 <= length (tTriangles T))%nat /\ Z.of_nat (length (tTriangles T)) <= 3 * (2 * Z.of_nat (length vs) - 5) /\ (3 <= length vs)%nat.
Proof.
  intros A sort vs T H N. unfold Triangulate in H. bok H r E. destruct r as [s e]. bok H h Eh. injection H as <- ->. cbn [tTriangles].
  apply triangulate_inv in E. destruct E as [[-> X]|(_ & (q & Q1 & Q2 & Q) & _)]; [exfalso; auto|]. lia.
Qed.

(** ** C114 *)
Theorem C114_total : forall (A : Arith) srt (T : Triangulation A), index_valid T -> exists b, Validate srt T = Ok b.
Proof.
  intros A srt T ((q & Q) & L & H1 & H2). unfold Validate. destruct (halfedges_total _ H2) as [b E]. rewrite E. cbn [rbind]. destruct b; cbn [negb]; [|eauto].
  destruct (ConvexHull_total srt (tVectors T)) as [h Eh]. rewrite Eh. cbn [rbind].
  destruct (polygonArea_total (tConvexHull T)) as [a1 E1]. destruct (polygonArea_total h) as [a2 E2]. rewrite E1, E2. cbn [rbind].
  unfold tri_area. destruct (area_total (tVectors T) q (tTriangles T) (fofZ A 0) Q H1) as [a3 E3]. rewrite E3. cbn [rbind].
  destruct (_ || _); [eauto|]. destruct (polygonPerimeter_total (tConvexHull T)) as [p1 P1]. destruct (polygonPerimeter_total h) as [p2 P2]. rewrite P1, P2. cbn [rbind].
  destruct (flt A _ _); eauto.
Qed.
Theorem C114_Triangulate_Validate : forall (A : Arith) sort srt (vs : list (vec A)) T err,
  Triangulate sort vs = Ok (T, err) -> exists b, Validate srt T = Ok b.
Proof. intros A sort srt vs T err H. apply C114_total. apply (C113_indices A sort vs T err H). Qed.
(** the sum of the triangle areas needs exactly this: triples of positions of points *)
Theorem C114_area : forall (A : Arith) (T : Triangulation A),
  (exists a, tri_area T = Ok a) <->
  (exists q, length (tTriangles T) = (3 * q)%nat) /\ (forall k, In k (tTriangles T) -> 0 <= k < Z.of_nat (length (tVectors T))).
Proof.
  intros A T. unfold tri_area. split.
  - intros [a H]. bok H r E. eapply area_needs; eauto.
  - intros [[q Q] H]. destruct (area_total (tVectors T) q (tTriangles T) (fofZ A 0) Q H) as [a E]. rewrite E. simpl. eauto.
Qed.
(** half-edge entries below -1 make Validate panic, so the assumption of C114_total is needed *)
Theorem C114_panics : forall (A : Arith) srt (vs h : list (vec A)) ts, Validate srt (mkTriangulation vs h ts [-2]) = Panic.
Proof. intros. reflexivity. Qed.

(** ** Non-vacuity *)
Definition ix_pt (x y : Z) : vec B64 := mkvec (fofZ B64 x) (fofZ B64 y) (fofZ B64 0).
Definition ix_nan : B64 := ((B754_nan : b64) : B64).
Definition ix_pts : list (vec B64) :=
  [ix_pt 5 5; ix_pt 0 0; ix_pt 1 0; ix_pt 0 1; ix_pt 0 0; mkvec (fofZ B64 2) (fofZ B64 2) ix_nan; ix_pt (-2) (-7)].
Definition ix_id (f : Z -> Z -> bool) (l : list Z) : list Z := l.
(** seven points, one twice, one with a NaN Z coordinate, and a sort function that does not sort: Triangulate returns
    five triangles that do not form a triangulation of the points, and Validate says so without panicking *)
Example C113_nonvacuous :
  match Triangulate ix_id ix_pts with
  | Ok (T, e) => Some (tTriangles T, tHalfedges T, length (tConvexHull T), e, Validate (fun l => l) T)
  | _ => None
  end = Some ([2; 1; 3; 3; 0; 2; 2; 6; 1; 1; 6; 3; 0; 6; 2], [8; 11; 5; -1; 14; 2; 13; 9; 0; 7; -1; 1; -1; 6; 4], 3%nat, false, Ok false).
Proof. vm_compute. reflexivity. Qed.
(** the antecedent of C114_total fails for a list that is not made of triples, and Validate then panics *)
Example C114_nonvacuous : Validate (A := B64) (fun l => l) (mkTriangulation [ix_pt 0 0] [] [0] []) = Panic.
Proof. vm_compute. reflexivity. Qed.

Print Assumptions C113_indices.
Print Assumptions C113_count.
Print Assumptions C114_total.
Print Assumptions C114_Triangulate_Validate.
Print Assumptions C114_area.
Print Assumptions C114_panics.
