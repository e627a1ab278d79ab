(** Property theorems C115-C120: interpolation, centroids, nearest points and tetrahedron tests in float64. *)
From Coq Require Import ZArith Lia List Bool Reals Lra QArith.
From Flocq Require Import Core BinarySingleNaN.
From Verif Require Import Base Arith M_r3 M_meshing M_tri3 Spec_r3 Spec_sphere Spec_mesh Spec_tri3 Spec_grid3 Spec_near XRvec
  P_insphere_err P_insphere_b64 P_b64err P_b64norm P_b64interp P_meshgeom P_tri3 P_nurbs P_b64grid3 P_near64 P_tetra64 Props_meshing Props_grid3 Props_tri3.
Import ListNotations.
Open Scope R_scope.

(** C115 *)
Theorem C115_interpolate (a b : vec B64) (t : b64) M : fin3 a -> fin3 b -> is_finite t = true -> 0 <= B2R t <= 1 ->
  bounded3 M (rvec a) -> bounded3 M (rvec b) -> M <= bpow radix2 1022 ->
  let r := Interpolate a b (t : B64) in
  fin3 r /\ close3 (4 * / 2 ^ 53 * M + 3 * bpow radix2 (-1074)) (rvec r) (segment_point (rvec a) (rvec b) (B2R t)).
Proof.
  intros (A1 & A2 & A3) (B1 & B2 & B3) Ft Ht (M1 & M2 & M3) (N1 & N2 & N3) HM. cbn [rx ry rz rvec] in *.
  destruct (interp_acc _ _ t M A1 B1 Ft M1 N1 HM Ht) as [F1 E1]. destruct (interp_acc _ _ t M A2 B2 Ft M2 N2 HM Ht) as [F2 E2].
  destruct (interp_acc _ _ t M A3 B3 Ft M3 N3 HM Ht) as [F3 E3]. unfold u53 in E1, E2, E3.
  split; [split; [exact F1|split; [exact F2|exact F3]]|]. split; [exact E1|split; [exact E2|exact E3]].
Qed.
Print Assumptions C115_interpolate.
(** the end points are returned exactly, whatever their size *)
Theorem C115_ends (a b : vec B64) (t : b64) : fin3 a -> fin3 b -> is_finite t = true ->
  (B2R t = 0 -> fin3 (Interpolate a b (t : B64)) /\ rvec (Interpolate a b (t : B64)) = rvec a) /\
  (B2R t = 1 -> fin3 (Interpolate a b (t : B64)) /\ rvec (Interpolate a b (t : B64)) = rvec b).
Proof.
  intros (A1 & A2 & A3) (B1 & B2 & B3) Ft. split; intros T.
  - destruct (one_minus t Ft ltac:(lra)) as (Fs & _ & Es). rewrite T, Rminus_0_r, Rmult_1_r in Es.
    assert (S : B2R (fsub B64 (fofZ B64 1) (t : B64) : b64) = 1).
    { destruct (Bminus_exact_ends t Ft) as [H _]. exact (H T). }
    assert (E : forall x y : b64, is_finite x = true -> is_finite y = true -> is_finite (fadd B64 (fmul B64 x (fsub B64 (fofZ B64 1) (t : B64))) (fmul B64 y (t : B64)) : b64) = true /\
      B2R (fadd B64 (fmul B64 x (fsub B64 (fofZ B64 1) (t : B64))) (fmul B64 y (t : B64)) : b64) = B2R x) by (intros x y Fx Fy; apply interp_end; auto).
    destruct (E _ _ A1 B1), (E _ _ A2 B2), (E _ _ A3 B3). split; [repeat split; assumption|]. unfold rvec. f_equal; assumption.
  - destruct (one_minus t Ft ltac:(lra)) as (Fs & _ & Es).
    assert (S : B2R (fsub B64 (fofZ B64 1) (t : B64) : b64) = 0).
    { destruct (Bminus_exact_ends t Ft) as [_ H]. exact (H T). }
    assert (E : forall x y : b64, is_finite x = true -> is_finite y = true -> is_finite (fadd B64 (fmul B64 x (fsub B64 (fofZ B64 1) (t : B64))) (fmul B64 y (t : B64)) : b64) = true /\
      B2R (fadd B64 (fmul B64 x (fsub B64 (fofZ B64 1) (t : B64))) (fmul B64 y (t : B64)) : b64) = B2R y) by (intros x y Fx Fy; apply interp_end; auto).
    destruct (E _ _ A1 B1), (E _ _ A2 B2), (E _ _ A3 B3). split; [repeat split; assumption|]. unfold rvec. f_equal; assumption.
Qed.
Print Assumptions C115_ends.
(** GetInterpolationVector with the arguments swapped, bit for bit, for all inputs *)
Theorem C115_same (v b : vec B64) (d : B64) : GetInterpolationVector v b d = Interpolate b v d.
Proof. exact (giv_interpolate v b d). Qed.
Print Assumptions C115_same.
(* a third of the way, and both ends, on a real segment *)
Example C115_nonvacuous : let a := zp 1 (-2) 30 in let b := zp 7 4 3 in
  fin3 a /\ fin3 b /\ bounded3 30 (rvec a) /\ bounded3 30 (rvec b) /\
  vsf (Interpolate a b (b64_of_Z 0)) = vsf a /\ vsf (Interpolate a b (b64_of_Z 1)) = vsf b /\
  vsf (Interpolate a b (b64_lit 1 (-1))) = (sf (b64_of_Z 4), sf (b64_of_Z 1), sf (b64_lit 33 (-1))).
Proof.
  intros a b. assert (Fa : fin3 a) by (repeat split; reflexivity). assert (Fb : fin3 b) by (repeat split; reflexivity).
  split; [exact Fa|]. split; [exact Fb|].
  assert (V : forall n, (Z.abs n < 2 ^ 53)%Z -> B2R (b64_of_Z n : b64) = IZR n) by (intros n; apply bR_ofZ).
  split; [unfold bounded3, a, rvec, zp; cbn [vx vy vz rx ry rz]; rewrite !V by reflexivity; repeat split; apply Rabs_le; lra|].
  split; [unfold bounded3, b, rvec, zp; cbn [vx vy vz rx ry rz]; rewrite !V by reflexivity; repeat split; apply Rabs_le; lra|].
  repeat split; vm_compute; reflexivity.
Qed.

(** C116: the interpolated point is not always between the end points, nor monotone in the parameter *)
Lemma lt_R (x y : b64) : is_finite x = true -> is_finite y = true -> flt B64 x y = true -> B2R x < B2R y.
Proof. intros Fx Fy. cbn [flt B64]. rewrite Bltb_correct by assumption. destruct (Rlt_bool_spec (B2R x) (B2R y)); [auto|discriminate]. Qed.
Lemma le_R (x y : b64) : is_finite x = true -> is_finite y = true -> fle B64 x y = true -> B2R x <= B2R y.
Proof. intros Fx Fy. cbn [fle B64]. rewrite Bleb_correct by assumption. destruct (Rle_bool_spec (B2R x) (B2R y)); [auto|discriminate]. Qed.
Lemma unit_R (t : b64) : is_finite t = true -> fle B64 (fofZ B64 0) t = true -> fle B64 t (fofZ B64 1) = true -> 0 <= B2R t <= 1.
Proof.
  intros F L U. apply le_R in L; [|reflexivity|exact F]. apply le_R in U; [|exact F|reflexivity].
  rewrite (proj2 one_R) in U. change (B2R (fofZ B64 0 : b64)) with 0 in L. split; assumption.
Qed.
Theorem C116_between_refuted : exists (a : vec B64) (t : b64), fin3 a /\ is_finite t = true /\ 0 <= B2R t <= 1 /\
  rx (rvec a) < rx (rvec (Interpolate a a (t : B64))).
Proof.
  exists (zp 3 0 0), (b64_lit 3602879701896397 (-54)). split; [repeat split; reflexivity|]. split; [reflexivity|].
  split; [apply unit_R; vm_compute; reflexivity|]. apply lt_R; vm_compute; reflexivity.
Qed.
Print Assumptions C116_between_refuted.
Theorem C116_monotone_refuted : exists (a b : vec B64) (s t : b64), fin3 a /\ fin3 b /\ is_finite s = true /\ is_finite t = true /\
  0 <= B2R s /\ B2R s < B2R t /\ B2R t <= 1 /\ rx (rvec a) < rx (rvec b) /\
  rx (rvec (Interpolate a b (t : B64))) < rx (rvec (Interpolate a b (s : B64))).
Proof.
  exists (zp 3 0 0), (zp 5 0 0), (b64_lit 0x1aa1c010e1e4e6 (-53)), (b64_lit 0x1aa1c010e1e4e7 (-53)).
  split; [repeat split; reflexivity|]. split; [repeat split; reflexivity|]. split; [reflexivity|]. split; [reflexivity|].
  split; [apply unit_R; vm_compute; reflexivity|]. split; [apply lt_R; vm_compute; reflexivity|]. split; [apply unit_R; vm_compute; reflexivity|].
  split; apply lt_R; vm_compute; reflexivity.
Qed.
Print Assumptions C116_monotone_refuted.
(** what holds: it leaves the box of the end points by at most the rounding error *)
Theorem C116_between_partial (a b lo hi : vec B64) (t : b64) M : fin3 a -> fin3 b -> is_finite t = true -> 0 <= B2R t <= 1 ->
  bounded3 M (rvec a) -> bounded3 M (rvec b) -> M <= bpow radix2 1022 -> in_box (rvec lo) (rvec hi) (rvec a) -> in_box (rvec lo) (rvec hi) (rvec b) ->
  let d := 4 * / 2 ^ 53 * M + 3 * bpow radix2 (-1074) in let r := rvec (Interpolate a b (t : B64)) in
  rx (rvec lo) - d <= rx r <= rx (rvec hi) + d /\ ry (rvec lo) - d <= ry r <= ry (rvec hi) + d /\ rz (rvec lo) - d <= rz r <= rz (rvec hi) + d.
Proof.
  intros Fa Fb Ft Ht Ma Mb HM (A1 & A2 & A3) (B1 & B2 & B3) d r.
  destruct (C115_interpolate a b t M Fa Fb Ft Ht Ma Mb HM) as [_ (E1 & E2 & E3)]. fold r d in E1, E2, E3. unfold segment_point in *. cbn [rx ry rz] in E1, E2, E3.
  clearbody r d. apply Rabs_le_inv in E1, E2, E3.
  assert (C : forall l h x y s, l <= x <= h -> l <= y <= h -> 0 <= s <= 1 -> l <= x * (1 - s) + y * s <= h).
  { intros l h x y s Hx Hy Hs. assert (0 <= (x - l) * (1 - s)) by (apply Rmult_le_pos; lra). assert (0 <= (y - l) * s) by (apply Rmult_le_pos; lra).
    assert (0 <= (h - x) * (1 - s)) by (apply Rmult_le_pos; lra). assert (0 <= (h - y) * s) by (apply Rmult_le_pos; lra). lra. }
  pose proof (C _ _ _ _ _ A1 B1 Ht). pose proof (C _ _ _ _ _ A2 B2 Ht). pose proof (C _ _ _ _ _ A3 B3 Ht). lra.
Qed.
Print Assumptions C116_between_partial.

(** C117: findCentroid (the copies in packages mesh and triangulate3) *)
Theorem C117_centroid (a b c d : vec B64) M : Forall (fun v => fin3 v /\ bounded3 M (rvec v)) [a; b; c; d] -> M <= bpow radix2 1021 ->
  let r := M_meshing.findCentroid a b c d in
  fin3 r /\ close3 (4 * / 2 ^ 53 * M + bpow radix2 (-1074)) (rvec r) (mean_point (rvec a) (rvec b) (rvec c) (rvec d)) /\
  M_tri3.findCentroid a b c d = r.
Proof.
  intros H HM r. repeat match goal with H : Forall _ (_ :: _) |- _ => inversion_clear H as [|? ? [? ?] ?] end.
  unfold fin3, bounded3, rvec in *. cbn [rx ry rz] in *.
  repeat match goal with H : _ /\ _ /\ _ |- _ => destruct H as (? & ? & ?) end.
  destruct (mean4_acc (vx a) (vx b) (vx c) (vx d) M) as [F1 E1]; try assumption.
  destruct (mean4_acc (vy a) (vy b) (vy c) (vy d) M) as [F2 E2]; try assumption.
  destruct (mean4_acc (vz a) (vz b) (vz c) (vz d) M) as [F3 E3]; try assumption. unfold u53 in E1, E2, E3.
  split; [split; [exact F1|split; [exact F2|exact F3]]|]. split; [split; [exact E1|split; [exact E2|exact E3]]|]. reflexivity.
Qed.
Print Assumptions C117_centroid.
(** it lies in every axis-parallel box that contains the four points, without any tolerance *)
Theorem C117_box (a b c d lo hi : vec B64) : Forall (fun v => fin3 v /\ bounded3 (bpow radix2 1021) (rvec v) /\ in_box (rvec lo) (rvec hi) (rvec v)) [a; b; c; d] ->
  fin3 lo -> fin3 hi -> in_box (rvec lo) (rvec hi) (rvec (M_meshing.findCentroid a b c d)).
Proof.
  intros H Fl Fh. repeat match goal with H : Forall _ (_ :: _) |- _ => inversion_clear H as [|? ? (? & ? & ?) ?] end.
  unfold fin3, bounded3, in_box, rvec in *. cbn [rx ry rz] in *.
  repeat match goal with H : _ /\ _ /\ _ |- _ => destruct H as (? & ? & ?) end.
  destruct (mean4_box (vx a) (vx b) (vx c) (vx d) (vx lo) (vx hi)) as [F1 E1]; try assumption; [intros ? [->|[->|[->| ->]]]; assumption|].
  destruct (mean4_box (vy a) (vy b) (vy c) (vy d) (vy lo) (vy hi)) as [F2 E2]; try assumption; [intros ? [->|[->|[->| ->]]]; assumption|].
  destruct (mean4_box (vz a) (vz b) (vz c) (vz d) (vz lo) (vz hi)) as [F3 E3]; try assumption; [intros ? [->|[->|[->| ->]]]; assumption|].
  split; [exact E1|split; [exact E2|exact E3]].
Qed.
Print Assumptions C117_box.
(* the sum overflows beyond the bound: four equal points at 2^1023 have an infinite centroid *)
Example C117_overflow : let a : vec B64 := mkvec (A:=B64) (b64_lit 1 1023) (b64_of_Z 0) (b64_of_Z 0) in
  fin3 a /\ sf (vx (M_meshing.findCentroid a a a a)) = SpecFloat.S754_infinity false.
Proof. split; [repeat split; vm_compute; reflexivity|vm_compute; reflexivity]. Qed.
Example C117_nonvacuous : vsf (M_meshing.findCentroid (zp 0 0 0) (zp 8 0 1) (zp 0 4 0) (zp 0 0 2)) = (sf (b64_of_Z 2), sf (b64_of_Z 1), sf (b64_lit 3 (-2))).
Proof. vm_compute. reflexivity. Qed.

(** C118: getNearestPoint.  For all inputs, NaN and infinities included: the last point with the smallest finite
    computed distance; the zero vector if no distance is finite *)
Theorem C118_nearest (q : vec B64) (l : list (vec B64)) : let r := getNearestPoint l q in
  (r = Zero /\ forall w, In w l -> is_finite (Distance w q : b64) = false) \/
  (exists l1 v l2, l = l1 ++ v :: l2 /\ r = v /\ is_finite (Distance v q : b64) = true /\
    (forall w, In w l1 -> is_finite (Distance w q : b64) = true -> B2R (Distance v q : b64) <= B2R (Distance w q : b64)) /\
    (forall w, In w l2 -> is_finite (Distance w q : b64) = true -> B2R (Distance v q : b64) < B2R (Distance w q : b64))).
Proof. exact (nearest64 q l). Qed.
Print Assumptions C118_nearest.
(** the point returned is nearest up to a relative error of 9 * 2^-53 *)
Theorem C118_accuracy (q : vec B64) (l : list (vec B64)) : l <> [] -> fin3 q ->
  (forall v, In v l -> fin3 v /\ (rdist (rvec v) (rvec q) = 0 \/ bpow radix2 (-480) <= rdist (rvec v) (rvec q) <= bpow radix2 480)) ->
  exists v, In v l /\ getNearestPoint l q = v /\ forall w, In w l -> (1 - / 2 ^ 53) ^ 8 * rdist (rvec v) (rvec q) <= rdist (rvec w) (rvec q).
Proof. exact (nearest_true q l). Qed.
Print Assumptions C118_accuracy.
(** on a grid it is exactly the nearest point, the last one if there are several *)
Theorem C118_grid e ox oy oz (q : vec B64) (l : list (vec B64)) : okgrid e ox oy oz -> l <> [] ->
  (forall v, In v (q :: l) -> fin3 v /\ in_cube e ox oy oz (2 ^ 20) (rvec v)) ->
  exists l1 v l2, l = l1 ++ v :: l2 /\ getNearestPoint l q = v /\
    (forall w, In w l1 -> rdist (rvec v) (rvec q) <= rdist (rvec w) (rvec q)) /\ (forall w, In w l2 -> rdist (rvec v) (rvec q) < rdist (rvec w) (rvec q)).
Proof. intros G. exact (nearest_grid e ox oy oz G q l). Qed.
Print Assumptions C118_grid.
(* a NaN point and a point at infinite distance are passed over; the tie goes to the last *)
Example C118_nonvacuous : let nan : vec B64 := mkvec (A:=B64) ((B754_nan : b64) : B64) (b64_of_Z 0) (b64_of_Z 0) in
  let far : vec B64 := mkvec (A:=B64) (b64_lit 1 600) (b64_of_Z 0) (b64_of_Z 0) in
  vsf (getNearestPoint [nan; zp 2 0 0; far; zp 0 1 0; zp 0 0 1; nan; zp 1 1 1] (zp 0 0 0)) = vsf (zp 0 0 1) /\
  vsf (getNearestPoint [nan; far] (zp 0 0 0)) = vsf (zp 0 0 0).
Proof. split; vm_compute; reflexivity. Qed.

(** C119: the point-in-tetrahedron test on a grid *)
Theorem C119_test e ox oy oz (a b c d p : vec B64) : okgrid e ox oy oz ->
  Forall (fun v => fin3 v /\ in_cube e ox oy oz 100000 (rvec v)) [a; b; c; d; p] -> signed_volume (rvec a) (rvec b) (rvec c) (rvec d) <> 0 ->
  (vectorInTetrahedron a b c d p = true <-> in_tetra (rvec a) (rvec b) (rvec c) (rvec d) (rvec p)) /\
  (VectorInTetrahedron a b c d p = true <-> in_tetra (rvec a) (rvec b) (rvec c) (rvec d) (rvec p)).
Proof.
  intros G H V. change (VectorInTetrahedron a b c d p) with (vectorInTetrahedron a b c d p). rewrite (tetra_grid e ox oy oz G a b c d p H).
  pose proof (C40_point_in_tetrahedron (rvec a) (rvec b) (rvec c) (rvec d) (rvec p) V). tauto.
Qed.
Print Assumptions C119_test.
Theorem C119_flat e ox oy oz (a b c d p : vec B64) : okgrid e ox oy oz ->
  Forall (fun v => fin3 v /\ in_cube e ox oy oz 100000 (rvec v)) [a; b; c; d; p] -> signed_volume (rvec a) (rvec b) (rvec c) (rvec d) = 0 ->
  vectorInTetrahedron a b c d p = true.
Proof. intros G H V. rewrite (tetra_grid e ox oy oz G a b c d p H). apply C40_flat_refuted. exact V. Qed.
Print Assumptions C119_flat.
(** in larger cubes the test is wrong both ways *)
Lemma rvec_zp x y z : (Z.abs x < 2 ^ 53)%Z -> (Z.abs y < 2 ^ 53)%Z -> (Z.abs z < 2 ^ 53)%Z -> rvec (zp x y z) = RV (IZR x) (IZR y) (IZR z).
Proof. intros X Y Z. unfold rvec, zp. cbn [vx vy vz]. f_equal; apply bR_ofZ; assumption. Qed.
Theorem C119_rejects_inside : exists a b c d p : vec B64, Forall (fun v => fin3 v /\ in_cube 0 0 0 0 2000000 (rvec v)) [a; b; c; d; p] /\
  in_tetra (rvec a) (rvec b) (rvec c) (rvec d) (rvec p) /\ vectorInTetrahedron a b c d p = false.
Proof.
  exists (zp 0 0 0), (zp 890048 1039934 235942), (zp 1941104 581058 1147314), (zp 1592386 1287694 1507840), (zp 707788 405248 345814).
  split; [repeat constructor; apply zp_grid; lia|]. split; [|vm_compute; reflexivity]. rewrite !rvec_zp by reflexivity.
  exists (1 / 2), (1 / 4), (1 / 4), 0. do 5 (split; [lra|]). unfold combine4. apply rv_ext; unfold radd, rscale; simpl; lra.
Qed.
Print Assumptions C119_rejects_inside.
Theorem C119_accepts_outside : exists a b c d p : vec B64, Forall (fun v => fin3 v /\ in_cube 0 0 0 0 1000000 (rvec v)) [a; b; c; d; p] /\
  signed_volume (rvec a) (rvec b) (rvec c) (rvec d) <> 0 /\ ~ in_tetra (rvec a) (rvec b) (rvec c) (rvec d) (rvec p) /\ vectorInTetrahedron a b c d p = true.
Proof.
  exists (zp 0 0 0), (zp 272215 856965 723565), (zp 506723 989194 379168), (zp 942981 703880 10505), (zp 261168 755355 587480).
  split; [repeat constructor; apply zp_grid; lia|]. rewrite !rvec_zp by reflexivity.
  split; [unfold signed_volume, rdet3, rsub; cbn [rx ry rz]; lra|]. split; [|vm_compute; reflexivity].
  intros (w1 & w2 & w3 & w4 & H1 & H2 & H3 & H4 & S & E). unfold combine4, radd, rscale in E. injection E as E1 E2 E3. cbn [rx ry rz] in *. lra.
Qed.
Print Assumptions C119_accepts_outside.
Example C119_nonvacuous : okgrid 0 0 0 0 /\ Forall (fun v => fin3 v /\ in_cube 0 0 0 0 100000 (rvec v)) [zp 0 0 0; zp 90000 0 0; zp 0 90000 0; zp 0 0 90000; zp 30000 30000 30000] /\
  vectorInTetrahedron (zp 0 0 0) (zp 90000 0 0) (zp 0 90000 0) (zp 0 0 90000) (zp 30000 30000 30000) = true /\
  vectorInTetrahedron (zp 0 0 0) (zp 90000 0 0) (zp 0 90000 0) (zp 0 0 90000) (zp 30000 30000 30001) = false.
Proof. split; [repeat split; cbn; lia|]. split; [repeat constructor; apply zp_grid; lia|]. split; vm_compute; reflexivity. Qed.

(** C120: Get2Ddist, Get3Ddist and createInitialTetra on a grid *)
Theorem C120_get2 e ox oy oz (a b c : vec B64) : okgrid e ox oy oz -> Forall (fun v => fin3 v /\ in_cube e ox oy oz 5000 (rvec v)) [a; b; c] ->
  let r : b64 := Get2Ddist a b c in is_finite r = true /\
    B2R r = rdot (rcross (rsub (rvec b) (rvec a)) (rsub (rvec c) (rvec a))) (rcross (rsub (rvec b) (rvec a)) (rsub (rvec c) (rvec a))) /\
    (B2R r = 0 <-> collinear3 (rvec a) (rvec b) (rvec c)).
Proof.
  intros G H r. destruct (get2_grid e ox oy oz G a b c H) as [F E]. fold r in F, E. split; [exact F|]. rewrite E. split; [reflexivity|]. apply area2_zero.
Qed.
Print Assumptions C120_get2.
Theorem C120_get3 e ox oy oz (a b c d : vec B64) : okgrid e ox oy oz -> Forall (fun v => fin3 v /\ in_cube e ox oy oz 100000 (rvec v)) [a; b; c; d] ->
  let r : b64 := Get3Ddist a b c d in is_finite r = true /\
    B2R r = rdet3 (rsub (rvec b) (rvec a)) (rsub (rvec c) (rvec a)) (rsub (rvec d) (rvec a)) /\
    (B2R r = 0 <-> coplanar (rvec a) (rvec b) (rvec c) (rvec d)).
Proof.
  intros G H r. destruct (get3_grid e ox oy oz G a b c d H) as [F E]. fold r in F, E. split; [exact F|]. rewrite E. split; [reflexivity|]. apply vol_zero.
Qed.
Print Assumptions C120_get3.
(** createInitialTetra chooses the vertices it chooses over the reals *)
Theorem C120_createInitialTetra e ox oy oz (points : list (vec B64)) : okgrid e ox oy oz -> (e <= 70)%Z ->
  (-5000 <= ox <= 0)%Z -> (-5000 <= oy <= 0)%Z -> (-5000 <= oz <= 0)%Z -> points <> [] ->
  Forall (fun v => fin3 v /\ in_cube e ox oy oz 5000 (rvec v)) points ->
  createInitialTetra (map (fun p => fv (rvec p)) points) = map (fun p => fv (rvec p)) (createInitialTetra points) /\ Forall fin3 (createInitialTetra points).
Proof. intros G L X Y Z N H. exact (createInitial_grid e ox oy oz G L X Y Z points N H). Qed.
Print Assumptions C120_createInitialTetra.
Example C120_nonvacuous : let l := [zp 1 1 1; zp 5 1 1; zp 2 9 1; zp 2 2 0; zp 2 2 (-3)] in
  okgrid 0 (-2500) (-2500) (-2500) /\ Forall (fun v => fin3 v /\ in_cube 0 (-2500) (-2500) (-2500) 5000 (rvec v)) l /\
  map vsf (createInitialTetra l) = map vsf [zp 1 1 1; zp 5 1 1; zp 2 9 1; zp 2 2 (-3)] /\
  sf (Get2Ddist (zp 1 1 1) (zp 5 1 1) (zp 2 9 1)) = sf (b64_of_Z 1024) /\ sf (Get3Ddist (zp 1 1 1) (zp 5 1 1) (zp 2 9 1) (zp 2 2 (-3))) = sf (b64_of_Z (-128)).
Proof. split; [repeat split; cbn; lia|]. split; [repeat constructor; apply zp_grid; lia|]. repeat split; vm_compute; reflexivity. Qed.
(* beyond the cube collinearity is lost: Get2Ddist of three points that are not on a line underflows to zero *)
Example C120_underflow : let t := b64_lit 1 (-300) in let o := b64_of_Z 0 in
  sf (Get2Ddist (mkvec (A:=B64) o o o) (mkvec (A:=B64) t o o) (mkvec (A:=B64) o t o)) = SpecFloat.S754_zero false.
Proof. vm_compute. reflexivity. Qed.
