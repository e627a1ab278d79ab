(** Theorems about package mesh (properties C33-C43, C76-C79). *)
From Coq Require Import String Reals Lra Lia ZArith Bool List Permutation.
From Flocq Require Import BinarySingleNaN.
From Verif Require Import Base Arith M_r3 M_predicates GoMap M_meshing Spec_r3 Spec_sphere Spec_mesh XRvec
  P_r3 P_predicates P_meshing P_meshorder P_meshgeom.
Import ListNotations.

(** C33 *)
Theorem C33_face_hash f g : face_hash f = face_hash g <->
  Permutation [pa f; pb f; pc f] [pa g; pb g; pc g].
Proof. exact (face_hash_iff f g). Qed.
Print Assumptions C33_face_hash.
Example C33_nonvacuous :
  face_hash (mkface 12 3 45) = face_hash (mkface 45 12 3) /\ face_hash (mkface 1 23 4) <> face_hash (mkface 12 3 4).
Proof. split; [reflexivity|discriminate]. Qed.

(** C34 *)
Theorem C34_tetra_hash t u : tetraHash t = tetraHash u ->
  ia t = ia u /\ ib t = ib u /\ ic t = ic u /\ id t = id u.
Proof. exact (tetraHash_inj t u). Qed.
Print Assumptions C34_tetra_hash.
(* [keyed]: every entry is stored under its own hash, as addTetra does *)
Theorem C34_addTetra t new k old :
  keyed t -> In (k, old) t -> (ia old, ib old, ic old, id old) <> (ia new, ib new, ic new, id new) ->
  In (k, old) (addTetra t new) /\ In (tetraHash new, new) (addTetra t new).
Proof. intros. split; [apply addTetra_keeps; auto|apply mset_In_new]. Qed.
Print Assumptions C34_addTetra.
Example C34_nonvacuous :
  let t := mktetra 1 2 3 4 [] in let u := mktetra 12 3 4 5 [] in
  keyed (addTetra [] t) /\ addTetra (addTetra [] t) u = [("1.2.3.4"%string, t); ("12.3.4.5"%string, u)].
Proof. split; [intros k v [[= <- <-]|[]]; reflexivity|reflexivity]. Qed.

(** C35, C77 *)
Theorem C35_indices_valid {A : Arith} ordT ordF ordE (points : list (vec A)) :
  (forall n, order_ok (ordT n)) -> (forall n, order_ok (ordF n)) -> order_ok ordE ->
  exists tris, bowyerWatson ordT ordF ordE points = Ok (flatten tris) /\
    forall a b c, In (a, b, c) tris ->
      (0 <= a < Z.of_nat (List.length points))%Z /\ (0 <= b < Z.of_nat (length points))%Z /\
      (0 <= c < Z.of_nat (length points))%Z /\ a <> b /\ b <> c /\ a <> c.
Proof.
  intros HT HF HE. destruct (bowyerWatson_ok ordT ordF ordE points HT HF HE) as (tris & E & H).
  exists tris. split; [exact E|]. intros a b c Hin. rewrite Forall_forall in H. exact (H _ Hin).
Qed.
Print Assumptions C35_indices_valid.

(** five points for which the mesh is not empty *)
Definition zp (x y z : Z) : vec B64 := mkvec (b64_of_Z x : B64) (b64_of_Z y : B64) (b64_of_Z z : B64).
Definition id_order (m : tetrahedrisation) : tetrahedrisation := m.
Definition id_orderF (m : gomap faceCheck) : gomap faceCheck := m.
Definition bw (l : list (vec B64)) : res (list Z) := bowyerWatson (fun _ => id_order) (fun _ => id_orderF) id_order l.
Example C35_nonvacuous :
  match bw [zp 0 0 0; zp 4 0 0; zp 0 4 0; zp 0 0 4; zp 1 1 1] with
  | Ok (_ :: _) => true | _ => false end = true.
Proof. vm_compute. reflexivity. Qed.

(** C78: the cavity boundary *)
Theorem C78_cavity_boundary (bad : list tetra) ordF : order_ok ordF ->
  exists poly, polyhedron bad (ordF (faceSet_tetras [] 0 bad)) = Ok poly /\
    NoDup poly /\
    forall f, In f poly <->
      In f (flat_map faces bad) /\
      length (filter (fun g => String.eqb (face_hash g) (face_hash f)) (flat_map faces bad)) = 1%nat.
Proof.
  intros HF. destruct (polyhedron_ok bad (ordF (faceSet_tetras [] 0 bad))) as (poly & Ep & _).
  { intros k fc Hin. apply (faceSet_tetras_ok bad [] bad []) with k; auto.
    - intros ? ? [].
    - eapply Permutation_in; [apply Permutation_sym, HF|exact Hin]. }
  destruct (polyhedron_spec bad ordF poly HF Ep) as [P N]. exists poly. split; [exact Ep|].
  split; [eapply NoDup_map_inv; exact N|]. intros f. split.
  - intros Hin. eapply Permutation_in in Hin; [|exact P]. apply filter_In in Hin.
    destruct Hin as [H1 H2]. split; [exact H1|]. apply Nat.eqb_eq, H2.
  - intros [H1 H2]. eapply Permutation_in; [apply Permutation_sym, P|]. apply filter_In. split; [exact H1|].
    apply Nat.eqb_eq, H2.
Qed.
Print Assumptions C78_cavity_boundary.
Example C78_nonvacuous :
  polyhedron [connect (mkface 0 1 2) 3; connect (mkface 2 1 0) 4] (faceSet_tetras [] 0 [connect (mkface 0 1 2) 3; connect (mkface 2 1 0) 4])
  = Ok [mkface 1 2 3; mkface 2 3 0; mkface 3 0 1; mkface 1 0 4; mkface 0 4 2; mkface 4 2 1].
Proof. reflexivity. Qed.

(** C79: the result does not depend on map iteration order *)
Theorem C79_order_independent {A : Arith} ordT ordF ordE ordT' ordF' ordE' (points : list (vec A)) :
  (forall n, order_ok (ordT n)) -> (forall n, order_ok (ordF n)) -> order_ok ordE ->
  (forall n, order_ok (ordT' n)) -> (forall n, order_ok (ordF' n)) -> order_ok ordE' ->
  exists tris1 tris2, bowyerWatson ordT ordF ordE points = Ok (flatten tris1) /\
    bowyerWatson ordT' ordF' ordE' points = Ok (flatten tris2) /\ Permutation tris1 tris2.
Proof.
  intros HT HF HE HT' HF' HE'. destruct (bowyerWatson_ok ordT ordF ordE points HT HF HE) as (tris & E & _).
  destruct (bowyerWatson_order ordT ordF ordE ordT' ordF' ordE' points _ HT HF HE HT' HF' HE' E) as (t1 & t2 & E1 & E2 & P).
  exists t1, t2. split; [congruence|auto].
Qed.
Print Assumptions C79_order_independent.
Example C79_nonvacuous :
  order_ok id_order /\ order_ok (@rev (string * tetra)) /\
  match bw [zp 0 0 0; zp 4 0 0; zp 0 4 0; zp 0 0 4; zp 1 1 1],
        bowyerWatson (fun _ => @rev _) (fun _ => @rev _) (@rev _) [zp 0 0 0; zp 4 0 0; zp 0 4 0; zp 0 0 4; zp 1 1 1] with
  | Ok l1, Ok l2 => (if list_eq_dec Z.eq_dec l1 l2 then false else true) && (length l1 =? length l2)%nat | _, _ => false end = true.
Proof.
  split; [intros m; apply Permutation_refl|]. split; [intros m; apply Permutation_rev|]. vm_compute. reflexivity.
Qed.

(** C76: four points in general position may give an empty mesh (small integers: no rounding) *)
Lemma flatten_nil tris : flatten tris = [] -> tris = [].
Proof. destruct tris as [|[[a b] c] l]; [reflexivity|discriminate]. Qed.
Theorem C76_mesh_nonempty_refuted :
  exists pts : list rv, length pts = 4%nat /\
    signed_volume (nth 0 pts rzero) (nth 1 pts rzero) (nth 2 pts rzero) (nth 3 pts rzero) <> 0%R /\
    exists points : list (vec B64),
      map (fun p => (bR (vx p), bR (vy p), bR (vz p))) points = map (fun p => (rx p, ry p, rz p)) pts /\
      forall ordT ordF ordE,
        (forall n, order_ok (ordT n)) -> (forall n, order_ok (ordF n)) -> order_ok ordE ->
        bowyerWatson ordT ordF ordE points = Ok [].
Proof.
  exists [RV 6 6 4; RV 1 6 2; RV 2 6 6; RV 5 0 6]. split; [reflexivity|]. split.
  { unfold signed_volume, rdet3, rsub; simpl. lra. }
  exists [zp 6 6 4; zp 1 6 2; zp 2 6 6; zp 5 0 6]. split.
  { cbn [map zp vx vy vz rx ry rz]. rewrite !bR_ofZ by reflexivity. reflexivity. }
  intros ordT ordF ordE HT HF HE.
  destruct (C79_order_independent (fun _ => id_order) (fun _ => id_orderF) id_order ordT ordF ordE
     [zp 6 6 4; zp 1 6 2; zp 2 6 6; zp 5 0 6]) as (t1 & t2 & E1 & E2 & P); auto;
     try (intros; intros m; apply Permutation_refl).
  rewrite E2. f_equal.
  assert (N : match bw [zp 6 6 4; zp 1 6 2; zp 2 6 6; zp 5 0 6] with Ok [] => true | _ => false end = true)
    by (vm_compute; reflexivity).
  unfold bw in N. rewrite E1 in N. destruct (flatten t1) eqn:F1; [|discriminate].
  apply flatten_nil in F1. subst t1. apply Permutation_nil in P. subst t2. reflexivity.
Qed.
Print Assumptions C76_mesh_nonempty_refuted.

(** C36: two of the four tetrahedra built around an inner point have the wrong orientation,
    so that their in-sphere test selects the points outside *)
Theorem C36_orientation_refuted a b c d p :
  (signed_volume a b c d < 0)%R -> strictly_in_tetra a b c d p ->
  (* connect of the faces (a,b,c), (b,c,d), (c,d,a), (d,a,b) with p *)
  (signed_volume a b c p < 0)%R /\ (signed_volume b c d p > 0)%R /\
  (signed_volume c d a p < 0)%R /\ (signed_volume d a b p > 0)%R /\
  forall o r2 e, circumsphere o r2 b c d p ->
    (fle XR (Fin 0) (InSphereFast (fv b) (fv c) (fv d) (fv p) (fv e)) = true <-> (rdist2 e o >= r2)%R).
Proof.
  intros HV Hin. destruct (connect_orientation a b c d p HV Hin) as (H1 & H2 & H3 & H4).
  repeat (split; [assumption|]). intros o r2 e Hc.
  destruct (insphere_sign b c d p e o r2 Hc) as (s & E & _ & Hs & _). rewrite E.
  destruct (Hs H2) as (I1 & I2 & I3). unfold inside_sphere, on_sphere, outside_sphere in *.
  cbn [fle XR xleb]. rewrite Rleb_true. split; intros H.
  - destruct (Rlt_or_le 0 s) as [L|L]; [apply I3 in L; lra|]. assert (s = 0%R) by lra. apply I2 in H0. lra.
  - destruct (Rlt_or_le s 0) as [L|L]; [apply I1 in L; lra|lra].
Qed.
Print Assumptions C36_orientation_refuted.
(* what bowyerWatson builds: the faces of the initial tetrahedron, connected to the first point *)
Theorem C36_faces_of_connect f i : faces (connect f i) =
  [mkface (pa f) (pb f) (pc f); mkface (pb f) (pc f) i; mkface (pc f) i (pa f); mkface i (pa f) (pb f)] /\
  (ia (connect f i), ib (connect f i), ic (connect f i), id (connect f i)) = (pa f, pb f, pc f, i).
Proof. split; reflexivity. Qed.
Print Assumptions C36_faces_of_connect.
Example C36_nonvacuous :
  (signed_volume (RV 0 0 0) (RV 9 0 0) (RV 0 9 0) (RV 0 0 9) < 0)%R /\
  strictly_in_tetra (RV 0 0 0) (RV 9 0 0) (RV 0 9 0) (RV 0 0 9) (RV 1 2 3).
Proof.
  split; [unfold signed_volume, rdet3, rsub; simpl; lra|].
  exists (1/3)%R, (1/9)%R, (2/9)%R, (1/3)%R. repeat split; try lra.
  apply rv_ext; unfold combine4, radd, rscale; simpl; lra.
Qed.

(** C37 *)
Theorem C37_bounding_box (points : list rv) : points <> [] -> (forall p, In p points -> in_range p) ->
  exists lo hi, findExtremas (map fv points) = mkhelper (fv lo) (fv hi) /\
    is_least rx points (rx lo) /\ is_greatest rx points (rx hi) /\
    is_least ry points (ry lo) /\ is_greatest ry points (ry hi) /\
    is_least rz points (rz lo) /\ is_greatest rz points (rz hi).
Proof. exact (extremas_XR points). Qed.
Print Assumptions C37_bounding_box.
Theorem C37_bounding_box_b64 (points : list (vec B64)) : points <> [] ->
  (forall p, In p points -> bfin (vx p) /\ bfin (vy p) /\ bfin (vz p)) ->
  let h := findExtremas points in
  (is_least (fun p => bR (vx p)) points (bR (vx (hmin h))) /\ is_greatest (fun p => bR (vx p)) points (bR (vx (hmax h)))) /\
  (is_least (fun p => bR (vy p)) points (bR (vy (hmin h))) /\ is_greatest (fun p => bR (vy p)) points (bR (vy (hmax h)))) /\
  (is_least (fun p => bR (vz p)) points (bR (vz (hmin h))) /\ is_greatest (fun p => bR (vz p)) points (bR (vz (hmax h)))).
Proof. exact (extremas_B64 points). Qed.
Print Assumptions C37_bounding_box_b64.
Lemma in_range_small p : (Rabs (rx p) <= 100)%R -> (Rabs (ry p) <= 100)%R -> (Rabs (rz p) <= 100)%R -> in_range p.
Proof.
  assert (100 <= maxfloat)%R.
  { unfold maxfloat. change 1024%nat with (971 + 53)%nat. rewrite pow_add.
    assert (1 <= 2 ^ 971)%R by (apply pow_R1_Rle; lra).
    assert (101 <= 2 ^ 53)%R by (change 53%nat with (7 + 46)%nat; rewrite pow_add; assert (1 <= 2 ^ 46)%R by (apply pow_R1_Rle; lra); simpl (2 ^ 7)%R; lra).
    revert H H0. generalize (2 ^ 971)%R (2 ^ 53)%R. intros x y Hx Hy.
    assert (0 <= (x - 1) * (y - 101))%R by (apply Rmult_le_pos; lra). lra. }
  unfold in_range. intros. lra.
Qed.
Example C37_nonvacuous :
  let pts := [RV 1 2 3; RV (-4) 5 0; RV 2 (-7) 1] in
  pts <> [] /\ forall p, In p pts -> in_range p.
Proof.
  split; [discriminate|]. intros p [<-|[<-|[<-|[]]]]; apply in_range_small; simpl; apply Rabs_le; lra.
Qed.

(** C38 *)
Theorem C38_initial_tetrahedron (points : list rv) : points <> [] -> (forall p, In p points -> in_range p) ->
  exists t p1 p2 p3 p4, englobe (map fv points) = (t, map fv (p1 :: p2 :: p3 :: p4 :: points)) /\
    (ia t, ib t, ic t, id t) = (0, 1, 2, 3)%Z /\
    forall p, In p points -> in_tetra p1 p2 p3 p4 p /\
      vectorInTetrahedron (fv p1) (fv p2) (fv p3) (fv p4) (fv p) = true.
Proof.
  intros Hne Hr. destruct (englobe_spec points Hne Hr) as (t & p1 & p2 & p3 & p4 & E & Ei & H).
  exists t, p1, p2, p3, p4. split; [exact E|]. split; [exact Ei|].
  intros p Hp. split; [auto|]. apply in_tetra_test. auto.
Qed.
Print Assumptions C38_initial_tetrahedron.

(** C39 *)
Theorem C39_nearest (q : rv) (l : list rv) : l <> [] -> (forall v, In v l -> (rdist v q <= maxfloat)%R) ->
  exists l1 v l2, l = l1 ++ v :: l2 /\ getNearestPoint (map fv l) (fv q) = fv v /\
    (forall u, In u l1 -> (rdist v q <= rdist u q)%R) /\ (forall u, In u l2 -> (rdist v q < rdist u q)%R).
Proof. exact (nearest_spec q l). Qed.
Print Assumptions C39_nearest.
Theorem C39_nearest_none (q : rv) (l : list rv) : (forall v, In v l -> (maxfloat < rdist v q)%R) ->
  getNearestPoint (map fv l) (fv q) = Zero.
Proof. exact (nearest_far q l). Qed.
Print Assumptions C39_nearest_none.
(** getNearestPointToCentroid: the point nearest to the centroid of the tetrahedron's own corners *)
Theorem C39_nearest_to_centroid (t : tetra) (l : list rv) v1 v2 v3 v4 :
  nth_error l (Z.to_nat (ia t)) = Some v1 -> nth_error l (Z.to_nat (ib t)) = Some v2 ->
  nth_error l (Z.to_nat (ic t)) = Some v3 -> nth_error l (Z.to_nat (id t)) = Some v4 ->
  (0 <= ia t /\ 0 <= ib t /\ 0 <= ic t /\ 0 <= id t)%Z ->
  let q := combine4 (1/4) (1/4) (1/4) (1/4) v1 v2 v3 v4 in
  (forall v, In v l -> (rdist v q <= maxfloat)%R) ->
  exists v, In v l /\ getNearestPointToCentroid t (map fv l) = Ok (fv v) /\ (forall u, In u l -> (rdist v q <= rdist u q)%R).
Proof.
  intros E1 E2 E3 E4 (B1 & B2 & B3 & B4) q F.
  assert (G : forall k w, nth_error l (Z.to_nat k) = Some w -> (0 <= k)%Z -> zget (map fv l) k = Ok (fv w)).
  { intros k w E B. unfold zget. destruct (k <? 0)%Z eqn:Q; [apply Z.ltb_lt in Q; lia|]. rewrite nth_error_map, E. reflexivity. }
  unfold getNearestPointToCentroid. rewrite (G _ _ E1 B1), (G _ _ E2 B2), (G _ _ E3 B3), (G _ _ E4 B4). cbn [rbind].
  rewrite centroid_fv. fold q.
  destruct (C39_nearest q l ltac:(intros ->; destruct (Z.to_nat (ia t)); discriminate E1) F) as (l1 & v & l2 & -> & E & H1 & H2).
  exists v. split; [apply in_or_app; right; left; reflexivity|]. rewrite E. split; [reflexivity|].
  intros u Hu. apply in_app_or in Hu. destruct Hu as [Hu|[<-|Hu]]; [apply H1; auto|lra|left; apply H2; auto].
Qed.
Print Assumptions C39_nearest_to_centroid.
Example C39_nonvacuous :
  (* two nearest points: the last is returned *)
  let p := getNearestPoint [zp 0 0 9; zp 1 0 0; zp 0 1 0; zp 5 5 5] (zp 0 0 0) in
  (sf (vx p), sf (vy p), sf (vz p)) = (sf (b64_of_Z 0), sf (b64_of_Z 1), sf (b64_of_Z 0)).
Proof. vm_compute. reflexivity. Qed.

(** C40 *)
Theorem C40_point_in_tetrahedron v1 v2 v3 v4 p : (signed_volume v1 v2 v3 v4 <> 0)%R ->
  (vectorInTetrahedron (fv v1) (fv v2) (fv v3) (fv v4) (fv p) = true <-> in_tetra v1 v2 v3 v4 p).
Proof. exact (tetra_test_iff v1 v2 v3 v4 p). Qed.
Print Assumptions C40_point_in_tetrahedron.
Theorem C40_complete v1 v2 v3 v4 p : in_tetra v1 v2 v3 v4 p ->
  vectorInTetrahedron (fv v1) (fv v2) (fv v3) (fv v4) (fv p) = true.
Proof. exact (in_tetra_test v1 v2 v3 v4 p). Qed.
Print Assumptions C40_complete.
(* degenerate tetrahedra accept every point of space *)
Theorem C40_flat_refuted v1 v2 v3 v4 p : signed_volume v1 v2 v3 v4 = 0%R ->
  vectorInTetrahedron (fv v1) (fv v2) (fv v3) (fv v4) (fv p) = true.
Proof. exact (tetra_test_flat_all v1 v2 v3 v4 p). Qed.
Print Assumptions C40_flat_refuted.
Theorem C40_flat_witness :
  let v1 := RV 0 0 0 in let v2 := RV 1 0 0 in let v3 := RV 0 1 0 in let v4 := RV 1 1 0 in let p := RV 5 7 0 in
  vectorInTetrahedron (fv v1) (fv v2) (fv v3) (fv v4) (fv p) = true /\ ~ in_tetra v1 v2 v3 v4 p.
Proof. exact tetra_test_flat. Qed.
Print Assumptions C40_flat_witness.
Example C40_nonvacuous : (signed_volume (RV 0 0 0) (RV 9 0 0) (RV 0 9 0) (RV 0 0 9) <> 0)%R.
Proof. unfold signed_volume, rdet3, rsub; simpl; lra. Qed.

(** C41 *)
Theorem C41_centroid v1 v2 v3 v4 :
  findCentroid (fv v1) (fv v2) (fv v3) (fv v4) = fv (combine4 (1/4) (1/4) (1/4) (1/4) v1 v2 v3 v4) /\
  vectorInTetrahedron (fv v1) (fv v2) (fv v3) (fv v4) (findCentroid (fv v1) (fv v2) (fv v3) (fv v4)) = true.
Proof. exact (centroid_inside v1 v2 v3 v4). Qed.
Print Assumptions C41_centroid.

(** C42 *)
Theorem C42_flip14 {A : Arith} (m : Meshing A) p : exists m', flip14 m p = Ok m' /\
  let n := Z.of_nat (length (vertices m)) in
  vertices m' = vertices m ++ [p] /\
  (* the indices refer to p (vertex n), and to existing vertices only *)
  ((In n (indices m') /\ forall i, In i (indices m') -> (0 <= i < Z.of_nat (length (vertices m')))%Z) <-> n = 4%Z).
Proof.
  destruct (flip14_spec m p) as (idxs & E & _). eexists. split; [exact E|]. exact (flip14_iff m p _ E).
Qed.
Print Assumptions C42_flip14.
Theorem C42_second_flip_refuted {A : Arith} (v0 v1 v2 v3 p q : vec A) idx : exists m1 m2,
  flip14 (mkMeshing [v0; v1; v2; v3] idx) p = Ok m1 /\ In 4%Z (indices m1) /\
  flip14 m1 q = Ok m2 /\ nth_error (vertices m2) 5 = Some q /\ ~ In 5%Z (indices m2).
Proof.
  eexists _, _. split; [reflexivity|]. split; [simpl; tauto|]. split; [reflexivity|]. split; [reflexivity|].
  simpl. intros H. decompose [or] H; try discriminate; auto.
Qed.
Print Assumptions C42_second_flip_refuted.

(** C43 *)
Theorem C43_duplicateInReverse l : duplicateInReverse l = Ok (l ++ rev l).
Proof. exact (duplicateInReverse_spec l). Qed.
Print Assumptions C43_duplicateInReverse.
Theorem C43_two_sided tris :
  duplicateInReverse (flatten tris) =
  Ok (flatten (tris ++ rev (map (fun '(a, b, c) => (c, b, a)) tris))).
Proof. rewrite duplicateInReverse_spec, flatten_rev, <- flatten_app. reflexivity. Qed.
Print Assumptions C43_two_sided.
Example C43_nonvacuous : duplicateInReverse [7; 8; 9; 1; 2; 3]%Z = Ok [7; 8; 9; 1; 2; 3; 3; 2; 1; 9; 8; 7]%Z.
Proof. reflexivity. Qed.
