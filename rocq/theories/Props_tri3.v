(** Theorems about package triangulate3 (properties C40, C41, C44-C47). *)
From Coq Require Import Reals Lra Lia ZArith Bool List.
From Flocq Require Import BinarySingleNaN.
From Verif Require Import Base Arith M_r3 M_tri3 Spec_r3 Spec_sphere Spec_mesh Spec_tri3 XRvec P_meshgeom P_tri3.
Import ListNotations.
Open Scope R_scope.

(** C40, C41: the copies in triangulate3 *)
Theorem C40_point_in_tetrahedron_tri3 v1 v2 v3 v4 p : signed_volume v1 v2 v3 v4 <> 0 ->
  (VectorInTetrahedron (fv v1) (fv v2) (fv v3) (fv v4) (fv p) = true <-> in_tetra v1 v2 v3 v4 p).
Proof. exact (tetra_test_iff v1 v2 v3 v4 p). Qed.
Print Assumptions C40_point_in_tetrahedron_tri3.
Theorem C40_flat_tri3_refuted v1 v2 v3 v4 p : signed_volume v1 v2 v3 v4 = 0 ->
  VectorInTetrahedron (fv v1) (fv v2) (fv v3) (fv v4) (fv p) = true.
Proof. exact (tetra_test_flat_all v1 v2 v3 v4 p). Qed.
Print Assumptions C40_flat_tri3_refuted.
Theorem C41_centroid_tri3 v1 v2 v3 v4 :
  findCentroid (fv v1) (fv v2) (fv v3) (fv v4) = fv (combine4 (1/4) (1/4) (1/4) (1/4) v1 v2 v3 v4) /\
  VectorInTetrahedron (fv v1) (fv v2) (fv v3) (fv v4) (findCentroid (fv v1) (fv v2) (fv v3) (fv v4)) = true.
Proof. exact (centroid_inside v1 v2 v3 v4). Qed.
Print Assumptions C41_centroid_tri3.

(** C44 *)
Theorem C44_bounding_box (points : list rv) :
  exists lo hi, computeBoundingBoxForVectors (map fv points) = (fv lo, fv hi) /\
    (forall p, In p points -> rx lo <= rx p <= rx hi /\ ry lo <= ry p <= ry hi /\ rz lo <= rz p <= rz hi) /\
    (points <> [] -> (forall p, In p points -> in_range32 p) ->
      is_least rx points (rx lo) /\ is_greatest rx points (rx hi) /\
      is_least ry points (ry lo) /\ is_greatest ry points (ry hi) /\
      is_least rz points (rz lo) /\ is_greatest rz points (rz hi)).
Proof. exact (box_XR points). Qed.
Print Assumptions C44_bounding_box.
Theorem C44_bounding_box_b64 (c : vec B64 -> B64) (points : list (vec B64)) :
  (c = vx \/ c = vy \/ c = vz) -> (forall p, In p points -> bfin (c p)) ->
  let '(lo, hi) := computeBoundingBoxForVectors points in
  (forall p, In p points -> bR (c lo) <= bR (c p) <= bR (c hi)) /\
  (points <> [] -> (forall p, In p points -> Rabs (bR (c p)) <= maxfloat32) ->
    is_least (fun p => bR (c p)) points (bR (c lo)) /\ is_greatest (fun p => bR (c p)) points (bR (c hi))).
Proof. exact (box_B64 c points). Qed.
Print Assumptions C44_bounding_box_b64.
Definition zp (x y z : Z) : vec B64 := mkvec (b64_of_Z x : B64) (b64_of_Z y : B64) (b64_of_Z z : B64).
(* beyond the float32 range the lower bound is not attained *)
Example C44_out_of_range :
  let '(lo, hi) := computeBoundingBoxForVectors [zp (2 ^ 130) 1 2; zp (2 ^ 131) 3 4] in
  (vsf lo, vsf hi) = ((sf (MaxFloat32 : B64), sf (b64_of_Z 1), sf (b64_of_Z 2)),
                      (sf (b64_of_Z (2 ^ 131)), sf (b64_of_Z 3), sf (b64_of_Z 4))).
Proof. vm_compute. reflexivity. Qed.

(** C45: the tetrahedron never encloses its points *)
Theorem C45_englobing_refuted (points : list rv) : points <> [] -> (forall p, In p points -> in_range32 p) ->
  constructEnglobingTetra (map fv points) = Panic \/
  exists t p1 p2 p3 ix p, constructEnglobingTetra (map fv points) = Ok (map fv [t; p1; p2; p3], ix) /\
    In p points /\ ~ in_tetra t p1 p2 p3 p.
Proof. exact (englobing_never points). Qed.
Print Assumptions C45_englobing_refuted.
Theorem C45_englobing_test_refuted (points : list rv) : points <> [] -> (forall p, In p points -> in_range32 p) ->
  (forall p, In p points -> 0 <= ry p) ->
  exists t p1 p2 p3 ix p, constructEnglobingTetra (map fv points) = Ok (map fv [t; p1; p2; p3], ix) /\
    In p points /\ VectorInTetrahedron (fv t) (fv p1) (fv p2) (fv p3) (fv p) = false.
Proof. exact (englobing_rejects points). Qed.
Print Assumptions C45_englobing_test_refuted.
(* the point set of the repository's own test: the unit cube *)
Example C45_cube :
  let cube := [zp 0 0 0; zp 0 1 0; zp 1 0 0; zp 1 1 0; zp 0 0 1; zp 0 1 1; zp 1 0 1; zp 1 1 1] in
  match constructEnglobingTetra cube with
  | Ok ([t; p1; p2; p3], _) => map (VectorInTetrahedron t p1 p2 p3) cube
  | _ => []
  end = [false; false; false; false; false; false; false; false].
Proof. vm_compute. reflexivity. Qed.
(* largest y = -1: panic *)
Example C45_panic :
  match constructEnglobingTetra [zp 0 (-1) 0; zp 1 (-2) 1] with Panic => true | _ => false end = true.
Proof. vm_compute. reflexivity. Qed.

(** C46 *)
Theorem C46_initial_tetra_partial (l : list rv) : (forall p, In p l -> in_range32 p) ->
  (exists a b c d, In a l /\ In b l /\ In c l /\ In d l /\ ~ coplanar a b c d) ->
  exists v0 v1 v2 v3, createInitialTetra (map fv l) = map fv [v0; v1; v2; v3] /\
    In v0 l /\ In v1 l /\ In v2 l /\
    is_least rx l (rx v0) /\ is_greatest rx l (rx v1) /\
    (* v2 is furthest from the line v0 v1 *)
    (exists d, line_dist2 v0 v1 v2 d /\ 0 < d /\ forall q dq, In q l -> line_dist2 v0 v1 q dq -> dq <= d) /\
    (* v3 is furthest from the plane among the points on one side; none there: the zero vector *)
    ((exists q, In q l /\ rdet3 (rsub v1 v0) (rsub v2 v0) (rsub q v0) < 0) ->
       In v3 l /\ rdet3 (rsub v1 v0) (rsub v2 v0) (rsub v3 v0) < 0 /\
       exists d, plane_dist2 v0 v1 v2 v3 d /\ 0 < d /\
         forall q dq, In q l -> rdet3 (rsub v1 v0) (rsub v2 v0) (rsub q v0) < 0 ->
           plane_dist2 v0 v1 v2 q dq -> dq <= d) /\
    ((forall q, In q l -> 0 <= rdet3 (rsub v1 v0) (rsub v2 v0) (rsub q v0)) -> v3 = rzero).
Proof.
  intros Hr (a & b & c & d & Ha & Hb & Hc & Hd & HV).
  destruct (initial_tetra_spec l Hr) as (v0 & v1 & v2 & v3 & E & I0 & I1 & I2 & L & G & A & F & N & Z).
  { exists a, b, c, d. repeat (split; [assumption|]). intros V. apply HV. apply vol_zero. exact V. }
  exists v0, v1, v2, v3. repeat (split; [assumption|]).
  assert (N01 : v0 <> v1).
  { intros ->. revert A. unfold area2, rdot, rcross, rsub; simpl.
    match goal with |- 0 < ?x -> _ => replace x with 0 by ring end. lra. }
  split; [|split; [|exact Z]].
  - destruct (area2_line v0 v1 v2 N01) as (d2 & D2 & E2). exists d2. split; [exact D2|].
    assert (P : 0 < rdist2 v1 v0).
    { apply rdot_pos. intros Q. apply N01. assert (Qx := f_equal rx Q). assert (Qy := f_equal ry Q).
      assert (Qz := f_equal rz Q). unfold rsub, rzero in *. cbn [rx ry rz] in *. apply rv_ext; lra. }
    split.
    + apply Rmult_lt_reg_r with (rdist2 v1 v0); [exact P|]. lra.
    + intros q dq Hq Dq. destruct (area2_line v0 v1 q N01) as (d3 & D3 & E3).
      rewrite (set_dist2_unique _ _ _ _ Dq D3). apply Rmult_le_reg_r with (rdist2 v1 v0); [exact P|].
      specialize (F q Hq). lra.
  - intros Hneg. destruct (N Hneg) as (I3 & V3 & F3). split; [exact I3|]. split; [exact V3|].
    destruct (vol_plane v0 v1 v2 v3 A) as (d2 & D2 & E2). exists d2. split; [exact D2|]. split.
    + apply Rmult_lt_reg_r with (area2 v0 v1 v2); [exact A|]. rewrite <- E2, Rmult_0_l.
      replace (vol v0 v1 v2 v3 * vol v0 v1 v2 v3) with (- vol v0 v1 v2 v3 * - vol v0 v1 v2 v3) by ring.
      apply Rmult_lt_0_compat; lra.
    + intros q dq Hq Vq Dq. destruct (vol_plane v0 v1 v2 q A) as (d3 & D3 & E3).
      rewrite (set_dist2_unique _ _ _ _ Dq D3). apply Rmult_le_reg_r with (area2 v0 v1 v2); [exact A|].
      specialize (F3 q Hq). fold (vol v0 v1 v2 q) in Vq. rewrite <- E2, <- E3.
      replace (vol v0 v1 v2 q * vol v0 v1 v2 q) with (- vol v0 v1 v2 q * - vol v0 v1 v2 q) by ring.
      replace (vol v0 v1 v2 v3 * vol v0 v1 v2 v3) with (- vol v0 v1 v2 v3 * - vol v0 v1 v2 v3) by ring.
      apply Rmult_le_compat; lra.
Qed.
Print Assumptions C46_initial_tetra_partial.
(* four affinely independent points; the fourth vertex returned is the origin, not an input point *)
Theorem C46_initial_tetra_refuted :
  ~ coplanar (RV 1 1 1) (RV 5 1 1) (RV 2 4 1) (RV 2 2 3) /\
  map vsf (createInitialTetra [zp 1 1 1; zp 5 1 1; zp 2 4 1; zp 2 2 3])
  = map vsf [zp 1 1 1; zp 5 1 1; zp 2 4 1; zp 0 0 0].
Proof.
  split; [|vm_compute; reflexivity].
  intros H. apply vol_zero in H. revert H. unfold vol, rdet3, rsub; simpl. lra.
Qed.
Print Assumptions C46_initial_tetra_refuted.
Example C46_nonvacuous :
  map vsf (createInitialTetra [zp 1 1 1; zp 5 1 1; zp 2 4 1; zp 2 2 (-3); zp 2 2 0])
  = map vsf [zp 1 1 1; zp 5 1 1; zp 2 2 (-3); zp 0 0 0] /\
  map vsf (createInitialTetra [zp 1 1 1; zp 5 1 1; zp 2 9 1; zp 2 2 0; zp 2 2 (-3)])
  = map vsf [zp 1 1 1; zp 5 1 1; zp 2 9 1; zp 2 2 (-3)].
Proof. split; vm_compute; reflexivity. Qed.

(** C47 *)
Theorem C47_area a b c : exists s, Get2Ddist (fv a) (fv b) (fv c) = Fin s /\
  s = rdot (rcross (rsub b a) (rsub c a)) (rcross (rsub b a) (rsub c a)) /\
  (s = 0 <-> collinear3 a b c).
Proof.
  eexists. split; [apply Get2Ddist_fv|]. split; [reflexivity|]. exact (area2_zero a b c).
Qed.
Print Assumptions C47_area.
Theorem C47_volume a b c d : exists s, Get3Ddist (fv a) (fv b) (fv c) (fv d) = Fin s /\
  s = rdet3 (rsub b a) (rsub c a) (rsub d a) /\ (s = 0 <-> coplanar a b c d).
Proof.
  eexists. split; [apply Get3Ddist_fv|]. split; [reflexivity|]. exact (vol_zero a b c d).
Qed.
Print Assumptions C47_volume.
Theorem C47_distances a b c p :
  (a <> b -> exists d2, line_dist2 a b p d2 /\ Get2Ddist (fv a) (fv b) (fv p) = Fin (d2 * rdist2 b a)) /\
  (~ collinear3 a b c -> exists d2 v, plane_dist2 a b c p d2 /\
     Get3Ddist (fv a) (fv b) (fv c) (fv p) = Fin v /\
     v * v = d2 * rdot (rcross (rsub b a) (rsub c a)) (rcross (rsub b a) (rsub c a))).
Proof.
  split.
  - intros H. destruct (area2_line a b p H) as (d2 & D & E). exists d2. split; [exact D|].
    rewrite Get2Ddist_fv. f_equal. exact E.
  - intros H. assert (P : 0 < area2 a b c).
    { pose proof (area2_nonneg a b c). destruct (Req_dec (area2 a b c) 0) as [Z|Z]; [|lra].
      exfalso. apply H. apply area2_zero. exact Z. }
    destruct (vol_plane a b c p P) as (d2 & D & E). exists d2, (vol a b c p).
    split; [exact D|]. split; [apply Get3Ddist_fv|exact E].
Qed.
Print Assumptions C47_distances.
Example C47_nonvacuous : collinear3 (RV 0 0 0) (RV 1 2 3) (RV 2 4 6) /\ ~ collinear3 (RV 0 0 0) (RV 1 0 0) (RV 0 1 0).
Proof.
  split.
  - exists (RV 1 2 3). split; [intros H; injection H; lra|].
    split; [exists 1|exists 2]; apply rv_ext; unfold rsub, rscale; simpl; lra.
  - intros H. apply area2_zero in H. revert H. unfold area2, rdot, rcross, rsub; simpl. lra.
Qed.
