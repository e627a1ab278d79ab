(** How well the sphere and torus meshes approximate their surfaces (C170). *)
From Coq Require Import Classical Reals Lra Lia Psatz ZArith List Bool.
From Verif Require Import Base Arith M_r3 Spec_r3 XRvec GoLoop P_nurbs M_shape Spec_shape Spec_shape2 Spec_tess P_shape P_shape2 P_tess.
Import ListNotations.
Open Scope R_scope.

(** C170: every point of the sphere mesh is inside the sphere around the origin, and its squared distance from the origin falls short
    of that of the sphere by a third of the squared grid step at most *)
Theorem C170_sphere_inside (c : vec XR) r sc st m : 0 < r -> (1 <= sc)%Z -> (2 <= st)%Z -> (st * (sc + 1) <= 2 ^ 32)%Z ->
  sphereConstruct XT c (Fin r) sc st = Ok m ->
  forall p, in_mesh (posn (mVertices m)) (triangles_of (mIndices m)) p -> r * r * (1 - grid_step2 sc st / 3) <= d2 p origin <= r * r.
Proof.
  intros Hr Hsc Hst Hl E. destruct (sphere_points c r sc st Hr Hsc Hst Hl) as (m' & E' & A & _). assert (m' = m) by congruence. subst m'. exact A.
Qed.
Print Assumptions C170_sphere_inside.
(** every point of the sphere, the open cap at the south pole included, has a mesh point within one grid step *)
Theorem C170_sphere_covered (c : vec XR) r sc st m : 0 < r -> (1 <= sc)%Z -> (2 <= st)%Z -> (st * (sc + 1) <= 2 ^ 32)%Z ->
  sphereConstruct XT c (Fin r) sc st = Ok m ->
  forall q, on_sphere origin r q -> exists p, in_mesh (posn (mVertices m)) (triangles_of (mIndices m)) p /\ on_sphere origin r p /\ d2 q p <= r * r * grid_step2 sc st.
Proof.
  intros Hr Hsc Hst Hl E q Hq. destruct (sphere_points c r sc st Hr Hsc Hst Hl) as (m' & E' & _ & B). assert (m' = m) by congruence. subst m'.
  assert (D : forall p, on_sphere origin r p <-> d2 p origin = r * r).
  { intros p. unfold on_sphere. replace (rdist p origin) with (sqrt (d2 p origin)) by reflexivity.
    split; intros H; [rewrite <- H; symmetry; apply sqrt_sqrt, d2_pos|rewrite H; apply sqrt_square; lra]. }
  destruct (B q (proj1 (D q) Hq)) as (p & Hp & Op & Dp). exists p. split; [exact Hp|]. split; [apply D; exact Op|exact Dp].
Qed.
Print Assumptions C170_sphere_covered.
Lemma tvec_on R0 r u v : 0 < r <= R0 -> on_torus origin R0 r (tvec R0 r u v).
Proof.
  intros H. unfold on_torus, origin, tvec. cbn [rx ry rz]. rewrite !Rminus_0_r. unfold Rsqr. pose proof (COS_bound u). pose proof (cs1 u) as A. pose proof (cs1 v) as B.
  replace ((R0 + r * cos u) * cos v * ((R0 + r * cos u) * cos v) + (R0 + r * cos u) * sin v * ((R0 + r * cos u) * sin v))
    with ((R0 + r * cos u) * (R0 + r * cos u) * (cos v * cos v + sin v * sin v)) by ring.
  rewrite B, Rmult_1_r, sqrt_square by nra. replace (R0 + r * cos u - R0) with (r * cos u) by ring.
  replace (r * cos u * (r * cos u) + r * sin u * (r * sin u)) with (r * r * (cos u * cos u + sin u * sin u)) by ring. rewrite A. ring.
Qed.
(** the torus mesh and the torus around the origin are within one grid step of each other *)
Theorem C170_torus_close (c : vec XR) R0 r sc st m : 0 < r <= R0 -> (1 <= sc)%Z -> (2 <= st)%Z -> (st * (sc + 1) <= 2 ^ 32)%Z ->
  torusConstruct XT c (Fin R0) (Fin r) sc st = Ok m ->
  (forall p, in_mesh (posn (mVertices m)) (triangles_of (mIndices m)) p -> exists q, on_torus origin R0 r q /\ d2 p q <= torus_step2 R0 r sc st) /\
  (forall q, on_torus origin R0 r q -> exists p, in_mesh (posn (mVertices m)) (triangles_of (mIndices m)) p /\ d2 q p <= torus_step2 R0 r sc st).
Proof.
  intros Hr Hsc Hst Hl E. destruct (torus_points c R0 r sc st ltac:(lra) ltac:(lra) Hsc Hst Hl) as (m' & E' & A & B). assert (m' = m) by congruence. subst m'.
  split; [|exact B]. intros p Hp. destruct (A p Hp) as (u & v & D). exists (tvec R0 r u v). split; [apply tvec_on; exact Hr|exact D].
Qed.
Print Assumptions C170_torus_close.
Lemma ConstructSphere_eq (c : vec XR) r n : n = 300%Z -> ConstructSphere XT c r = sphereConstruct XT c r n n.
Proof. intros ->. unfold ConstructSphere. generalize (sphereConstruct XT c r 300 300). intros x. reflexivity. Qed.
(** the sphere built by ConstructSphere: every point of its triangles is between 0.9998 r and r from the origin *)
Theorem C170_default_sphere (c : vec XR) r m : 0 < r -> ConstructSphere XT c (Fin r) = Ok m ->
  forall p, in_mesh (posn (mVertices m)) (triangles_of (mIndices m)) p -> 9998 / 10000 * r <= rdist p origin <= r.
Proof.
  intros Hr E p Hp. assert (Hn : exists n, n = 300%Z) by (eexists; reflexivity). destruct Hn as (n & Hn). rewrite (ConstructSphere_eq c (Fin r) n Hn) in E.
  assert (A : r * r * (1 - grid_step2 n n / 3) <= d2 p origin <= r * r).
  { apply (C170_sphere_inside c r n n m Hr); [lia|lia|subst n; lia|exact E|exact Hp]. }
  rewrite Hn in A. clear E Hp. destruct A as (A & B).
  assert (G : grid_step2 300 300 <= 9 / 10000).
  { unfold grid_step2. pose proof PI_4. pose proof PI_RGT_0. assert (PI * PI <= 16) by nra. field_simplify. lra. }
  assert (D : rdist p origin = sqrt (d2 p origin)) by reflexivity. rewrite D. split.
  - apply Rsqr_incr_0_var; [|apply sqrt_pos]. unfold Rsqr. rewrite sqrt_sqrt by apply d2_pos. assert (0 < r * r) by nra. nra.
  - rewrite <- (sqrt_square r) by lra. apply sqrt_le_1_alt. exact B.
Qed.
Print Assumptions C170_default_sphere.
(** a coarse sphere of four sectors and three stacks, and a point strictly inside *)
Example C170_nonvacuous : exists m, sphereConstruct XT (fv origin) (Fin 1) 4 3 = Ok m /\
  in_mesh (posn (mVertices m)) (triangles_of (mIndices m)) (RV (sqrt 3 / 4) (sqrt 3 / 4) (1 / 2)) /\
  d2 (RV (sqrt 3 / 4) (sqrt 3 / 4) (1 / 2)) origin = 5 / 8.
Proof.
  destruct (sphere_value (fv origin) 1 4 3 ltac:(lia) ltac:(lia) ltac:(lia)) as (m & E & L & HI & HV & _).
  exists m. split; [exact E|]. split.
  - rewrite HI, triangles_flat3. exists 1%Z, 5%Z, 6%Z. split.
    + apply (tris_kind 4 3); [lia|]. exists 0%Z, 0%Z. split; [lia|]. left. split; [reflexivity|lia].
    + rewrite (posn_fv _ 5%Z _ (HV 1%Z 0%Z ltac:(lia) ltac:(lia))), (posn_fv _ 6%Z _ (HV 1%Z 1%Z ltac:(lia) ltac:(lia))).
      exists 0, (1 / 2), (1 / 2). repeat split; try lra. rewrite !sph_svec. unfold svec, sph_angle, vang. cbn [rx ry rz].
      replace (0 * (2 * PI / 4)) with 0 by ring. rewrite cos_0, sin_0. replace (1 * (2 * PI / 4)) with (PI / 2) by field. rewrite cos_PI2, sin_PI2.
      replace (PI / 2 - 1 * (PI / 3)) with (PI / 6) by field. rewrite cos_PI6, sin_PI6. f_equal; field.
  - unfold d2, origin. cbn [rx ry rz]. rewrite !Rminus_0_r. replace (sqrt 3 / 4 * (sqrt 3 / 4)) with (sqrt 3 * sqrt 3 / 16) by field.
    rewrite sqrt_sqrt by lra. field.
Qed.
