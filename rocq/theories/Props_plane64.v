(** Property theorems C121-C122: IntersectPlane in float64. *)
From Coq Require Import ZArith Lia List Bool Reals Lra QArith.
From Flocq Require Import Core BinarySingleNaN.
From Verif Require Import Base Arith M_r3 Spec_r3 Spec_grid3 Spec_near Spec_plane64 P_insphere_err P_insphere_b64 P_b64err P_b64norm P_b64interp P_meshgeom P_b64grid3 P_plane64
  Props_meshing Props_grid3 Props_tri3 Props_float2.
Import ListNotations.
Open Scope R_scope.

(** C121: in float64 the panic of IntersectPlane is not the test "the line is parallel to the plane" *)
(* d = (1,1,1) is exactly orthogonal to n = (-3,1,2); the call returns a finite point, far away *)
Theorem C121_parallel_refuted : ~ (forall p d n q : vec B64, fin3 p -> fin3 d -> fin3 n -> fin3 q -> rvec d <> RV 0 0 0 ->
  rdot (rvec n) (rvec d) = 0 -> IntersectPlane (mkLine p d) (mkPlane3D n q) = Panic).
Proof.
  intros H. specialize (H (zp 0 0 0) (zp 1 1 1) (zp (-3) 1 2) (zp 1 0 0)).
  assert (K : match IntersectPlane (mkLine (zp 0 0 0) (zp 1 1 1)) (mkPlane3D (zp (-3) 1 2) (zp 1 0 0)) with Panic => true | _ => false end = false) by (vm_compute; reflexivity).
  rewrite H in K; [discriminate| | | | | |]; try (repeat split; reflexivity).
  - rewrite rvec_zp by lia. intros E. inversion E as [E1]. lra.
  - rewrite !rvec_zp by lia. unfold rdot. cbn [rx ry rz]. lra.
Qed.
Print Assumptions C121_parallel_refuted.
(* and a line that meets the plane orthogonally is refused when its direction is long *)
Theorem C121_meeting_refuted : ~ (forall p d n q : vec B64, fin3 p -> fin3 d -> fin3 n -> fin3 q ->
  IntersectPlane (mkLine p d) (mkPlane3D n q) = Panic -> rdot (rvec n) (rvec d) = 0).
Proof.
  intros H. specialize (H (zp 0 0 0) (mkvec ((b64_lit 1 600 : b64) : B64) (b64_of_Z 0) (b64_of_Z 0)) (zp 1 0 0) (zp 1 0 0)).
  assert (K : match IntersectPlane (mkLine (zp 0 0 0) (mkvec ((b64_lit 1 600 : b64) : B64) (b64_of_Z 0) (b64_of_Z 0))) (mkPlane3D (zp 1 0 0) (zp 1 0 0)) with Panic => true | _ => false end = true) by (vm_compute; reflexivity).
  destruct (IntersectPlane _ _) eqn:E in K; try discriminate. rewrite E in H.
  assert (X : B2R (b64_lit 1 600 : b64) <> 0). { rewrite <- SF2R_B2SF. cbn. unfold Defs.F2R. cbn. lra. }
  assert (R : forall k, (Z.abs k < 2 ^ 53)%Z -> B2R (b64_of_Z k : b64) = IZR k) by (intros k; apply bR_ofZ).
  specialize (H ltac:(repeat split; reflexivity) ltac:(repeat split; reflexivity) ltac:(repeat split; reflexivity) ltac:(repeat split; reflexivity) eq_refl).
  unfold rdot, rvec, zp in H. cbn [rx ry rz vx vy vz] in H. rewrite !R in H by reflexivity. apply X. lra.
Qed.
Print Assumptions C121_meeting_refuted.
(** what holds: for a direction of moderate length, a panic means that the cosine-like quantity n.d/|d| is negligible against the size of n *)
Theorem C121_panic_partial (p d n q : vec B64) : fin3 n -> fin3 d -> bpow radix2 (-480) <= rnorm (rvec d) <= bpow radix2 480 -> size1 (rvec n) <= bpow radix2 1000 ->
  IntersectPlane (mkLine p d) (mkPlane3D n q) = Panic ->
  Rabs (rdot (rvec n) (dirn (rvec d))) <= 12 * / 2 ^ 53 * size1 (rvec n) + 5 * bpow radix2 (-1074) * (1 + size1 (rvec n)).
Proof. exact (plane_panic p d n q). Qed.
Print Assumptions C121_panic_partial.
(** and for moderate sizes a line that is not nearly parallel gets a finite point *)
Theorem C121_returns (p d n q : vec B64) M : fin3 n -> fin3 d -> fin3 p -> fin3 q -> bpow radix2 (-480) <= rnorm (rvec d) <= bpow radix2 480 ->
  bpow radix2 (-300) <= size1 (rvec n) <= bpow radix2 300 -> bounded3 M (rvec p) -> bounded3 M (rvec q) -> M <= bpow radix2 300 ->
  bpow radix2 (-40) * size1 (rvec n) <= Rabs (rdot (rvec n) (dirn (rvec d))) ->
  exists x, IntersectPlane (mkLine p d) (mkPlane3D n q) = Ok x /\ fin3 x.
Proof. exact (plane_ok p d n q M). Qed.
Print Assumptions C121_returns.

(** C122: a finite point that is returned satisfies the equation of the plane, and lies on the line, up to rounding *)
Theorem C122_intersect (p d n q x : vec B64) M : fin3 n -> fin3 d -> bpow radix2 (-480) <= rnorm (rvec d) <= bpow radix2 480 -> size1 (rvec n) <= bpow radix2 1000 ->
  IntersectPlane (mkLine p d) (mkPlane3D n q) = Ok x -> fin3 x -> bounded3 M (rvec x) -> bounded3 M (rvec p) -> bounded3 M (rvec q) ->
  plane_gap (rvec n) (rvec q) (rvec x) <= 48 * / 2 ^ 53 * (size1 (rvec n) * M) + 24 * bpow radix2 (-1074) * (1 + size1 (rvec n) + M) /\
  exists s, close3 (48 * / 2 ^ 53 * M + 24 * bpow radix2 (-1074) * (1 + M)) (rvec x) (line_point (rvec p) (rvec d) s).
Proof. exact (plane_point p d n q x M). Qed.
Print Assumptions C122_intersect.
(* the line through (1,2,3) along (1,2,2) and the plane x + y = 12 through (5,7,1): the point is (4,8,9), and the hypotheses hold *)
Example C122_nonvacuous : let p := zp 1 2 3 in let d := zp 1 2 2 in let n := zp 1 1 0 in let q := zp 5 7 1 in
  fin3 p /\ fin3 d /\ fin3 n /\ fin3 q /\ rnorm (rvec d) = 3 /\ size1 (rvec n) = 2 /\ rdot (rvec n) (dirn (rvec d)) = 1 /\
  match IntersectPlane (mkLine p d) (mkPlane3D n q) with Ok x => vsf x = vsf (zp 4 8 9) | _ => False end /\ bounded3 9 (rvec (zp 4 8 9)) /\ bounded3 9 (rvec p) /\ bounded3 9 (rvec q).
Proof.
  intros p d n q. split; [repeat split; reflexivity|]. split; [repeat split; reflexivity|]. split; [repeat split; reflexivity|]. split; [repeat split; reflexivity|].
  assert (N : rnorm (rvec d) = 3). { unfold d. rewrite rvec_zp by lia. unfold rnorm, rdot. cbn [rx ry rz]. replace (1 * 1 + 2 * 2 + 2 * 2) with (3 * 3) by lra. apply sqrt_square. lra. }
  split; [exact N|]. split; [unfold n; rewrite rvec_zp by lia; unfold size1; cbn [rx ry rz]; rewrite Rabs_R0, !Rabs_pos_eq by lra; lra|].
  split; [unfold dirn; rewrite N; unfold n, d; rewrite !rvec_zp by lia; unfold rdot; cbn [rx ry rz]; lra|].
  split; [vm_compute; reflexivity|]. unfold p, q. rewrite !rvec_zp by lia. unfold bounded3. cbn [rx ry rz]. repeat split; apply Rabs_le; lra.
Qed.
(* the refuted parallel case really returns a finite point *)
Example C121_parallel_point : match IntersectPlane (mkLine (zp 0 0 0) (zp 1 1 1)) (mkPlane3D (zp (-3) 1 2) (zp 1 0 0)) with
  Ok x => (is_finite (vx x : b64) && flt B64 (b64_of_Z (2 ^ 52)) (vx x))%bool = true | _ => False end.
Proof. vm_compute. reflexivity. Qed.
