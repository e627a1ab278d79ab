(** Theorems about package shape (properties C53-C59). *)
From Coq Require Import Reals Lra Lia ZArith List Bool.
From Flocq Require Import BinarySingleNaN.
From Verif Require Import Base Arith M_r3 Spec_r3 XRvec GoLoop M_shape Spec_shape P_nurbs P_meshing P_meshgeom P_tri3 P_shape.
Import ListNotations.
Open Scope R_scope.

(** the Go library functions play no role in the structure of the meshes: any Trig will do in examples *)
Definition T64 : Trig B64 := mkTrig B64 (b64_of_Z 3) (b64_of_Z 6) (b64_lit 3 (-1)) (fun x => x) (fun x => x).
Definition zp (x y z : Z) : vec B64 := @mkvec B64 (b64_of_Z x) (b64_of_Z y) (b64_of_Z z).

(** C53: spheres.  The centre is never used. *)
Theorem C53_sphere_center_ignored {A : Arith} (G : Trig A) (c c' : vec A) r sc st :
  sphereConstruct G c r sc st = sphereConstruct G c' r sc st.
Proof. reflexivity. Qed.
Print Assumptions C53_sphere_center_ignored.
Theorem C53_sphere_partial (c : vec XR) r sc st : 0 < r -> (1 <= sc)%Z -> (2 <= st)%Z ->
  (st * (sc + 1) <= 2 ^ 32)%Z ->
  exists m, sphereConstruct XT c (Fin r) sc st = Ok m /\
    (forall v, In v (mVertices m) -> exists p, v = fv p /\ on_sphere rzero r p) /\
    (forall k v, zget (mVertices m) k = Ok v -> exists p n, v = fv p /\
       zget (mNormals m) k = Ok (Fin (rx n) : XR, Fin (ry n) : XR, Fin (rz n) : XR) /\
       rnorm n = 1 /\ p = rscale r n).
Proof.
  intros Hr Hsc Hst Hl. destruct (sphere_value c r sc st Hsc Hst Hl) as (m & E & L & _ & HV & HN).
  specialize (HN ltac:(lra)). exists m. split; [exact E|]. split.
  - intros v Hv. destruct (grid_in _ sc st _ _ ltac:(lia) L HV Hv) as (i & j & _ & _ & ->).
    exists (sph_pos r sc st i j). split; [reflexivity|]. unfold on_sphere, rdist, rdist2.
    replace (rsub (sph_pos r sc st i j) rzero) with (sph_pos r sc st i j)
      by (unfold rsub, rzero, sph_pos, gpos; simpl; f_equal; ring).
    rewrite sph_norm. apply sqrt_square. lra.
  - intros k v Hk. pose proof (zget_lt _ _ _ Hk) as Hk'. rewrite L in Hk'.
    destruct (grid_index sc st k ltac:(lia) Hk') as (i & j & Hi & Hj & ->).
    rewrite (HV i j Hi Hj) in Hk. exists (sph_pos r sc st i j), (rscale (/ r) (sph_pos r sc st i j)).
    split; [congruence|]. split; [exact (HN i j Hi Hj)|]. split.
    + unfold rnorm. replace (rdot _ _) with (/ r * / r * rdot (sph_pos r sc st i j) (sph_pos r sc st i j))
        by (unfold rdot, rscale; simpl; ring).
      rewrite sph_norm. replace (/ r * / r * (r * r)) with 1 by (field; lra). apply sqrt_1.
    + unfold rscale; destruct (sph_pos r sc st i j) as [x y z]; simpl. f_equal; field; lra.
Qed.
Print Assumptions C53_sphere_partial.

(** three points of a circle around the z-axis at angles 0, t, -t determine its axis *)
Lemma circle_axis (s : R) sc cx cy : s <> 0 -> (3 <= sc)%Z ->
  let t := fun j => IZR j * (2 * PI / IZR sc) in
  (forall j, (0 <= j <= sc)%Z ->
     (s * cos (t j)) * cx + (s * sin (t j)) * cy = s * cx) -> cx = 0 /\ cy = 0.
Proof.
  intros Hs Hsc t H.
  assert (HSC : 3 <= IZR sc) by (apply (IZR_le 3); lia).
  pose proof PI_RGT_0 as HP.
  pose proof (H 1%Z ltac:(lia)) as H1. pose proof (H (sc - 1)%Z ltac:(lia)) as H2.
  assert (E : t (sc - 1)%Z = - (t 1%Z) + 2 * INR 1 * PI).
  { unfold t. rewrite minus_IZR. simpl. field. lra. }
  rewrite E, cos_period, sin_period, cos_neg, sin_neg in H2.
  assert (Ht : 0 < t 1%Z < PI).
  { unfold t. split.
    - rewrite Rmult_1_l. apply Rdiv_lt_0_compat; lra.
    - rewrite Rmult_1_l. apply (Rmult_lt_reg_r (IZR sc)); [lra|]. unfold Rdiv. rewrite Rmult_assoc, Rinv_l by lra. nra. }
  pose proof (sin_gt_0 _ (proj1 Ht) (proj2 Ht)) as S.
  set (C := cos (t 1%Z)) in *. set (D := sin (t 1%Z)) in *.
  assert (CD : C * C + D * D = 1) by (unfold C, D; apply cs1).
  assert (C1 : C <> 1) by (intros ->; nra).
  assert (A1 : s * D * cy = 0) by lra.
  assert (A2 : s * (C - 1) * cx = 0) by lra.
  split.
  - apply Rmult_integral in A2. destruct A2 as [A2|A2]; [|exact A2].
    apply Rmult_integral in A2. destruct A2; [contradiction|lra].
  - apply Rmult_integral in A1. destruct A1 as [A1|A1]; [|exact A1].
    apply Rmult_integral in A1. destruct A1; [contradiction|lra].
Qed.
Theorem C53_sphere_refuted (c : rv) r sc st : c <> rzero -> 0 < r -> (3 <= sc)%Z -> (2 <= st)%Z ->
  (st * (sc + 1) <= 2 ^ 32)%Z ->
  exists m v, sphereConstruct XT (fv c) (Fin r) sc st = Ok m /\ In (fv v) (mVertices m) /\ ~ on_sphere c r v.
Proof.
  intros Hc Hr Hsc Hst Hl. destruct (sphere_value (fv c) r sc st ltac:(lia) Hst Hl) as (m & E & L & _ & HV & _).
  destruct (Classical_Prop.classic (exists v, In (fv v) (mVertices m) /\ ~ on_sphere c r v)) as [(v & Hv & N)|N].
  { exists m, v. auto. }
  exfalso. apply Hc.
  assert (On : forall i j, (0 <= i < st)%Z -> (0 <= j <= sc)%Z -> 2 * rdot (sph_pos r sc st i j) c = rdot c c).
  { intros i j Hi Hj. assert (O : on_sphere c r (sph_pos r sc st i j)).
    { apply Classical_Prop.NNPP. intros H. apply N. exists (sph_pos r sc st i j). split; [|exact H].
      apply (zget_In _ _ _ (HV i j Hi Hj)). }
    unfold on_sphere, rdist in O. apply (f_equal (fun z => z * z)) in O. rewrite sqrt_sqrt in O by apply rdot_nonneg.
    pose proof (sph_norm r sc st i j) as S. unfold rdist2, rdot, rsub in *. cbn [rx ry rz] in O. lra. }
  destruct c as [cx cy cz].
  assert (HST : 2 <= IZR st) by (apply (IZR_le 2); lia).
  assert (Hs : r * cos (sph_angle st 1) <> 0).
  { assert (0 < cos (sph_angle st 1)); [|nra]. pose proof PI_RGT_0. unfold sph_angle.
    assert (0 < PI / IZR st <= PI / 2).
    { split; [apply Rdiv_lt_0_compat; lra|]. apply Rmult_le_compat_l; [lra|]. apply Rinv_le_contravar; lra. }
    apply cos_gt_0; lra. }
  destruct (circle_axis (r * cos (sph_angle st 1)) sc cx cy Hs Hsc) as (-> & ->).
  { intros j Hj. pose proof (On 1%Z j ltac:(lia) Hj) as H1. pose proof (On 1%Z 0%Z ltac:(lia) ltac:(lia)) as H0.
    unfold sph_pos, gpos, rdot in H1, H0. cbn [rx ry rz] in H1, H0.
    rewrite Rmult_0_l, cos_0, sin_0 in H0. lra. }
  pose proof (On 0%Z 0%Z ltac:(lia) ltac:(lia)) as H0. pose proof (On 1%Z 0%Z ltac:(lia) ltac:(lia)) as H1.
  unfold sph_pos, gpos, rdot in H0, H1. cbn [rx ry rz] in H0, H1.
  assert (sin (sph_angle st 0) = 1).
  { unfold sph_angle. rewrite Rmult_0_l, Rminus_0_r. apply sin_PI2. }
  pose proof (cs1 (sph_angle st 1)) as K.
  assert (sin (sph_angle st 1) <> 1). { intros Q. rewrite Q in K. apply Hs. assert (cos (sph_angle st 1) * cos (sph_angle st 1) = 0) by lra.
    apply Rmult_integral in H2. destruct H2 as [H2|H2]; rewrite H2; ring. }
  assert (cz * (r * (1 - sin (sph_angle st 1))) = 0) by (rewrite H in H0; lra).
  apply Rmult_integral in H3. destruct H3 as [->|H3]; [reflexivity|].
  apply Rmult_integral in H3. destruct H3; lra.
Qed.
Print Assumptions C53_sphere_refuted.
Example C53_nonvacuous : match sphereConstruct T64 (zp 5 5 5) (b64_of_Z 2) 4 3 with
  | Ok m => length (mVertices m) = 15%nat /\ length (mNormals m) = 15%nat | _ => False end.
Proof. vm_compute. auto. Qed.

(** C54 *)
Definition grid_mesh_ok {A : Arith} (m : @Mesh A) (sc st : Z) : Prop :=
  Z.of_nat (length (mVertices m)) = (st * (sc + 1))%Z /\ length (mNormals m) = length (mVertices m) /\
  length (mTexCoords m) = length (mVertices m) /\
  Z.of_nat (length (mIndices m)) = (3 * (sc + 2 * sc * (st - 2)))%Z /\
  (forall x, In x (mIndices m) -> (0 <= x < Z.of_nat (length (mVertices m)))%Z).
Theorem C54_sphere_indices_partial {A : Arith} (G : Trig A) c r sc st : (1 <= sc)%Z -> (2 <= st)%Z ->
  (st * (sc + 1) <= 2 ^ 32)%Z -> exists m, sphereConstruct G c r sc st = Ok m /\ grid_mesh_ok m sc st.
Proof.
  intros Hsc Hst Hl. unfold sphereConstruct. rewrite gridVertices_value by lia. cbn [rbind].
  rewrite gridIndices_value by lia. cbn [rbind]. eexists. split; [reflexivity|]. unfold grid_mesh_ok.
  cbn [mVertices mNormals mTexCoords mIndices].
  split; [apply grid_length; lia|]. split; [apply Nat2Z.inj; rewrite !grid_length by lia; reflexivity|].
  split; [apply Nat2Z.inj; rewrite !grid_length by lia; reflexivity|].
  rewrite flat3_length, Nat2Z.inj_mul, grid_tris_length by lia. split; [lia|].
  intros x Hx. rewrite grid_length by lia. apply grid_index_range; [lia|lia|exact Hx].
Qed.
Print Assumptions C54_sphere_indices_partial.
Theorem C54_torus_indices_partial {A : Arith} (G : Trig A) c R0 r sc st : (1 <= sc)%Z -> (2 <= st)%Z ->
  (st * (sc + 1) <= 2 ^ 32)%Z -> exists m, torusConstruct G c R0 r sc st = Ok m /\ grid_mesh_ok m sc st.
Proof.
  intros Hsc Hst Hl. unfold torusConstruct. rewrite gridVertices_value by lia. cbn [rbind].
  rewrite gridIndices_value by lia. cbn [rbind]. eexists. split; [reflexivity|]. unfold grid_mesh_ok.
  cbn [mVertices mNormals mTexCoords mIndices].
  split; [apply grid_length; lia|]. split; [apply Nat2Z.inj; rewrite !grid_length by lia; reflexivity|].
  split; [apply Nat2Z.inj; rewrite !grid_length by lia; reflexivity|].
  rewrite flat3_length, Nat2Z.inj_mul, grid_tris_length by lia. split; [lia|].
  intros x Hx. rewrite grid_length by lia. apply grid_index_range; [lia|lia|exact Hx].
Qed.
Print Assumptions C54_torus_indices_partial.
(** no sectors: an integer division by zero *)
Theorem C54_zero_sectors_refuted {A : Arith} (G : Trig A) c R0 r st : (1 <= st)%Z ->
  sphereConstruct G c r 0 st = Panic /\ torusConstruct G c R0 r 0 st = Panic.
Proof.
  intros H. unfold sphereConstruct, torusConstruct. rewrite !gridVertices_zero by exact H. auto.
Qed.
Print Assumptions C54_zero_sectors_refuted.
(** the fixed counts used by the exported constructors are fine *)
Theorem C54_ConstructSphere {A : Arith} (G : Trig A) c r :
  exists m, ConstructSphere G c r = Ok m /\ grid_mesh_ok m 300 300.
Proof.
  pose proof (C54_sphere_indices_partial G c r 300 300 ltac:(lia) ltac:(lia) ltac:(lia)) as H. unfold ConstructSphere.
  match goal with |- exists m, sphereConstruct _ _ _ 300 300 = _ /\ _ => exact H end.
Qed.
Print Assumptions C54_ConstructSphere.
Theorem C54_ConstructTorus {A : Arith} (G : Trig A) c R0 r :
  exists m, ConstructTorus G c R0 r = Ok m /\ grid_mesh_ok m 100 100.
Proof.
  pose proof (C54_torus_indices_partial G c R0 r 100 100 ltac:(lia) ltac:(lia) ltac:(lia)) as H. unfold ConstructTorus.
  match goal with |- exists m, torusConstruct _ _ _ _ 100 100 = _ /\ _ => exact H end.
Qed.
Print Assumptions C54_ConstructTorus.
Example C54_nonvacuous : gridIndices 3 3 =
  Ok [1;4;5; 2;5;6; 3;6;7; 4;8;5; 5;8;9; 5;9;6; 6;9;10; 6;10;7; 7;10;11]%Z.
Proof. vm_compute. reflexivity. Qed.
(* one stack: indices beyond the four vertices *)
Example C54_one_stack : match sphereConstruct T64 (zp 0 0 0) (b64_of_Z 1) 3 1 with
  | Ok m => length (mVertices m) = 4%nat /\ mIndices m = [1;4;5; 2;5;6; 3;6;7]%Z | _ => False end.
Proof. vm_compute. auto. Qed.

(** C55 *)
Theorem C55_torus_center_ignored {A : Arith} (G : Trig A) (c c' : vec A) R0 r sc st :
  torusConstruct G c R0 r sc st = torusConstruct G c' R0 r sc st.
Proof. reflexivity. Qed.
Print Assumptions C55_torus_center_ignored.
Lemma tor_z R0 r sc st i j : rz (tor_pos R0 r sc st i j) = r * sin (tor_angle st i).
Proof. reflexivity. Qed.
Theorem C55_torus_partial (c : vec XR) R0 r sc st : (1 <= sc)%Z -> (2 <= st)%Z -> (st * (sc + 1) <= 2 ^ 32)%Z ->
  exists m, torusConstruct XT c (Fin R0) (Fin r) sc st = Ok m /\
    forall v, In v (mVertices m) -> exists p, v = fv p /\
      (Rabs r <= R0 -> on_torus rzero R0 r p) /\
      (let s := rx p * rx p + ry p * ry p in
       (s + rz p * rz p + R0 * R0 - r * r) * (s + rz p * rz p + R0 * R0 - r * r) = 4 * R0 * R0 * s).
Proof.
  intros Hsc Hst Hl. destruct (torus_value c R0 r sc st Hsc Hst Hl) as (m & E & L & _ & HV & _).
  exists m. split; [exact E|]. intros v Hv.
  destruct (grid_in _ sc st _ _ ltac:(lia) L HV Hv) as (i & j & _ & _ & ->).
  exists (tor_pos R0 r sc st i j). split; [reflexivity|].
  assert (XY : rx (tor_pos R0 r sc st i j) * rx (tor_pos R0 r sc st i j) + ry (tor_pos R0 r sc st i j) * ry (tor_pos R0 r sc st i j)
    = (R0 + r * cos (tor_angle st i)) * (R0 + r * cos (tor_angle st i))) by apply gpos_xy2.
  pose proof (cs1 (tor_angle st i)) as CS. set (C := cos (tor_angle st i)) in *. set (S := sin (tor_angle st i)) in *.
  split.
  - intros Hr. unfold on_torus, Rsqr. rewrite tor_z. cbn [rzero rx ry rz]. rewrite !Rminus_0_r, XY. fold S.
    assert (0 <= R0 + r * C).
    { assert (Rabs C <= 1) by (apply Rabs_le, COS_bound). pose proof (Rabs_pos C). pose proof (Rabs_pos r).
      assert (Rabs (r * C) <= Rabs r * 1) by (rewrite Rabs_mult; apply Rmult_le_compat_l; lra).
      pose proof (Rle_abs (- (r * C))). rewrite Rabs_Ropp in H3. lra. }
    rewrite sqrt_square by exact H. transitivity (r * r * (C * C + S * S)); [ring|rewrite CS; ring].
  - cbv zeta. rewrite XY, tor_z. fold S.
    replace (r * r) with (r * r * (C * C + S * S)) by (rewrite CS; ring). ring.
Qed.
Print Assumptions C55_torus_partial.
Theorem C55_torus_refuted (c : rv) R0 r sc h : c <> rzero -> 0 < R0 -> 0 < r -> (3 <= sc)%Z -> (1 <= h)%Z ->
  (2 * h * (sc + 1) <= 2 ^ 32)%Z ->
  exists m v, torusConstruct XT (fv c) (Fin R0) (Fin r) sc (2 * h) = Ok m /\ In (fv v) (mVertices m) /\ ~ on_torus c R0 r v.
Proof.
  intros Hc HR Hr Hsc Hh Hl. destruct (torus_value (fv c) R0 r sc (2 * h) ltac:(lia) ltac:(lia) Hl) as (m & E & L & _ & HV & _).
  destruct (Classical_Prop.classic (exists v, In (fv v) (mVertices m) /\ ~ on_torus c R0 r v)) as [(v & Hv & N)|N].
  { exists m, v. auto. }
  exfalso. apply Hc.
  assert (On : forall i j, (0 <= i < 2 * h)%Z -> (0 <= j <= sc)%Z -> on_torus c R0 r (tor_pos R0 r sc (2 * h) i j)).
  { intros i j Hi Hj. apply Classical_Prop.NNPP. intros H. apply N. exists (tor_pos R0 r sc (2 * h) i j). split; [|exact H].
    apply (zget_In _ _ _ (HV i j Hi Hj)). }
  assert (HH : 1 <= IZR h) by (apply (IZR_le 1); lia).
  assert (A0 : tor_angle (2 * h) 0 = PI / 2) by (unfold tor_angle; ring).
  assert (Ah : tor_angle (2 * h) h = - (PI / 2)) by (unfold tor_angle; rewrite mult_IZR; field; lra).
  destruct c as [cx cy cz].
  assert (cz = 0).
  { pose proof (On 0%Z 0%Z ltac:(lia) ltac:(lia)) as H0. pose proof (On h 0%Z ltac:(lia) ltac:(lia)) as Hh'.
    unfold on_torus in H0, Hh'. rewrite tor_z, A0, sin_PI2 in H0. rewrite tor_z, Ah, sin_neg, sin_PI2 in Hh'.
    cbn [rz] in H0, Hh'.
    match type of H0 with ?a * ?a + _ = _ => pose proof (Rle_0_sqr a) as Q0; unfold Rsqr in Q0 at 1 end.
    match type of Hh' with ?a * ?a + _ = _ => pose proof (Rle_0_sqr a) as Q1; unfold Rsqr in Q1 at 1 end.
    nra. }
  subst cz.
  assert (P0 : forall j, (0 <= j <= sc)%Z -> 
     (R0 * cos (IZR j * (2 * PI / IZR sc)) - cx) * (R0 * cos (IZR j * (2 * PI / IZR sc)) - cx) +
     (R0 * sin (IZR j * (2 * PI / IZR sc)) - cy) * (R0 * sin (IZR j * (2 * PI / IZR sc)) - cy) = R0 * R0).
  { intros j Hj. pose proof (On 0%Z j ltac:(lia) Hj) as H0. unfold on_torus in H0.
    unfold tor_pos, gpos in H0. cbn [rx ry rz] in H0. rewrite A0, sin_PI2, cos_PI2 in H0.
    match type of H0 with context [sqrt ?a] => set (q := a) in * end.
    assert (Hq : 0 <= q) by (unfold q; pose proof (Rle_0_sqr ((R0 + r * 0) * cos (IZR j * (2 * PI / IZR sc)) - cx));
      pose proof (Rle_0_sqr ((R0 + r * 0) * sin (IZR j * (2 * PI / IZR sc)) - cy)); lra).
    assert (D : (sqrt q - R0) * (sqrt q - R0) = 0) by lra.
    assert (sqrt q = R0) by (apply Rmult_integral in D; destruct D; lra).
    assert (q = R0 * R0) by (rewrite <- (sqrt_sqrt q Hq), H; reflexivity).
    rewrite <- H1. unfold q, Rsqr. ring. }
  destruct (circle_axis R0 sc cx cy ltac:(lra) Hsc) as (-> & ->); [|reflexivity].
  intros j Hj. pose proof (P0 j Hj) as H1. pose proof (P0 0%Z ltac:(lia)) as H0.
  rewrite Rmult_0_l, cos_0, sin_0 in H0.
  pose proof (cs1 (IZR j * (2 * PI / IZR sc))) as CS.
  set (C := cos (IZR j * (2 * PI / IZR sc))) in *. set (S := sin (IZR j * (2 * PI / IZR sc))) in *.
  assert (R0 * R0 * (C * C + S * S) = R0 * R0) by (rewrite CS; ring). lra.
Qed.
Print Assumptions C55_torus_refuted.
Example C55_nonvacuous : match torusConstruct T64 (zp 5 5 5) (b64_of_Z 3) (b64_of_Z 1) 4 4 with
  | Ok m => length (mVertices m) = 20%nat | _ => False end.
Proof. vm_compute. reflexivity. Qed.

(** C56 *)
Lemma some_inj {T} (a b : T) : Some a = Some b -> a = b.
Proof. congruence. Qed.
Theorem C56_circle (c : rv) r sc : (1 <= sc < 2 ^ 32 - 1)%Z ->
  exists m, circleConstruct XT (fv c) (Fin r) sc = Ok m /\
    Z.of_nat (length (mVertices m)) = (sc + 1)%Z /\ zget (mVertices m) 0 = Ok (fv c) /\
    forall k v, (1 <= k)%Z -> zget (mVertices m) k = Ok v ->
      exists p, v = fv p /\ rz p = rz c /\ rdist p c = Rabs r /\
        rx p = rx c + r * cos (fan_angle sc (k - 1)) /\ ry p = ry c + r * sin (fan_angle sc (k - 1)).
Proof.
  intros Hsc. unfold circleConstruct. rewrite circleVertices_value. cbn [rbind].
  rewrite fanIndices_value by (simpl length; rewrite map_length, zseq_length; lia). cbn [rbind].
  eexists. split; [reflexivity|]. cbn [mVertices].
  split; [simpl length; rewrite map_length, zseq_length; lia|]. split; [reflexivity|].
  intros k v Hk Hv.
  unfold zget in Hv. destruct (Z.ltb_spec k 0); [lia|].
  replace (Z.to_nat k) with (S (Z.to_nat (k - 1))) in Hv by lia. cbn [nth_error] in Hv.
  destruct (nth_error _ _) as [w|] eqn:Ew in Hv; [|discriminate]. injection Hv as <-.
  rewrite nth_error_map in Ew.
  destruct (nth_error (zseq 0 (Z.to_nat sc)) (Z.to_nat (k - 1))) as [i|] eqn:Ei; [|discriminate].
  assert (Hlt : (Z.to_nat (k - 1) < Z.to_nat sc)%nat).
  { rewrite <- (zseq_length 0 (Z.to_nat sc)). apply nth_error_Some. congruence. }
  rewrite zseq_nth in Ei by exact Hlt. injection Ei as <-. cbn [option_map] in Ew.
  rewrite ?Z.add_0_l, Z2Nat.id in Ew by lia.
  assert (W : w = circleVertex XT (fv c) (Fin r) (fdiv XR (tPi2 XT) (fofZ XR sc)) (k - 1)) by exact (eq_sym (some_inj _ _ Ew)). subst w.
  eexists. split; [exact (circleVertex_fv c r sc (k - 1) ltac:(lia))|]. cbn [rx ry rz].
  split; [reflexivity|]. split; [|split; ring].
  unfold rdist, rdist2, rdot, rsub. cbn [rx ry rz]. rewrite <- sqrt_Rsqr_abs. f_equal. unfold Rsqr.
  pose proof (cs1 (fan_angle sc (k - 1))) as CS.
  transitivity (r * r * (cos (fan_angle sc (k - 1)) * cos (fan_angle sc (k - 1)) + sin (fan_angle sc (k - 1)) * sin (fan_angle sc (k - 1))));
    [ring|rewrite CS; ring].
Qed.
Print Assumptions C56_circle.
Theorem C56_ellipse (c : rv) a b sc : (1 <= sc < 2 ^ 32 - 1)%Z -> a <> 0 -> b <> 0 ->
  exists m, ellipseConstruct XT (fv c) (Fin a) (Fin b) sc = Ok m /\
    Z.of_nat (length (mVertices m)) = (sc + 1)%Z /\ zget (mVertices m) 0 = Ok (fv c) /\
    forall k v, (1 <= k)%Z -> zget (mVertices m) k = Ok v ->
      exists p, v = fv p /\ on_ellipse c a b p /\
        rx p = rx c + a * cos (fan_angle sc (k - 1)) /\ ry p = ry c + b * sin (fan_angle sc (k - 1)).
Proof.
  intros Hsc Ha Hb. unfold ellipseConstruct. rewrite ellipseVertices_value. cbn [rbind].
  rewrite fanIndices_value by (simpl length; rewrite map_length, zseq_length; lia). cbn [rbind].
  eexists. split; [reflexivity|]. cbn [mVertices].
  split; [simpl length; rewrite map_length, zseq_length; lia|]. split; [reflexivity|].
  intros k v Hk Hv.
  unfold zget in Hv. destruct (Z.ltb_spec k 0); [lia|].
  replace (Z.to_nat k) with (S (Z.to_nat (k - 1))) in Hv by lia. cbn [nth_error] in Hv.
  destruct (nth_error _ _) as [w|] eqn:Ew in Hv; [|discriminate]. injection Hv as <-.
  rewrite nth_error_map in Ew.
  destruct (nth_error (zseq 0 (Z.to_nat sc)) (Z.to_nat (k - 1))) as [i|] eqn:Ei; [|discriminate].
  assert (Hlt : (Z.to_nat (k - 1) < Z.to_nat sc)%nat).
  { rewrite <- (zseq_length 0 (Z.to_nat sc)). apply nth_error_Some. congruence. }
  rewrite zseq_nth in Ei by exact Hlt. injection Ei as <-. cbn [option_map] in Ew.
  rewrite ?Z.add_0_l, Z2Nat.id in Ew by lia.
  assert (W : w = ellipseVertex XT (fv c) (Fin a) (Fin b) (fdiv XR (tPi2 XT) (fofZ XR sc)) (k - 1)) by exact (eq_sym (some_inj _ _ Ew)). subst w.
  eexists. split; [exact (ellipseVertex_fv c a b sc (k - 1) ltac:(lia))|].
  split; [|cbn [rx ry rz]; split; ring].
  unfold on_ellipse. cbn [rx ry rz]. split; [reflexivity|]. unfold Rsqr.
  rewrite <- (cs1 (fan_angle sc (k - 1))). field. auto.
Qed.
Print Assumptions C56_ellipse.
Example C56_nonvacuous : match circleConstruct T64 (zp 5 5 5) (b64_of_Z 1) 3 with
  | Ok m => length (mVertices m) = 4%nat /\ map vsf (firstn 1 (mVertices m)) = [vsf (zp 5 5 5)] | _ => False end.
Proof. vm_compute. auto. Qed.

(** C57: the fan always contains the index one past the last vertex, and never a larger one *)
Lemma fan_in len x : (1 <= len)%Z ->
  In x (flat_map fan (zseq 1 (Z.to_nat (len - 1))) ++ [0; len - 1; 1; 1; len - 1; 0]%Z) ->
  (0 <= x <= len)%Z.
Proof.
  intros Hl H. apply in_app_or in H. destruct H as [H|H].
  - apply in_flat_map in H. destruct H as (i & Hi & H). apply zseq_in in Hi. unfold fan in H. simpl in H. lia.
  - simpl in H. lia.
Qed.
Theorem C57_fan_indices_refuted {A : Arith} (G : Trig A) c r a b sc : (1 <= sc < 2 ^ 32 - 1)%Z ->
  exists m m', circleConstruct G c r sc = Ok m /\ ellipseConstruct G c a b sc = Ok m' /\
    mIndices m = mIndices m' /\ length (mVertices m) = length (mVertices m') /\
    In (Z.of_nat (length (mVertices m))) (mIndices m) /\
    (forall x, In x (mIndices m) -> (0 <= x <= Z.of_nat (length (mVertices m)))%Z).
Proof.
  intros Hsc. unfold circleConstruct, ellipseConstruct. rewrite circleVertices_value, ellipseVertices_value. cbn [rbind].
  rewrite !fanIndices_value by (simpl length; rewrite map_length, zseq_length; lia). cbn [rbind].
  eexists. eexists. split; [reflexivity|]. split; [reflexivity|]. cbn [mVertices mIndices].
  simpl length. rewrite !map_length, !zseq_length.
  split; [reflexivity|]. split; [reflexivity|]. split.
  - apply in_or_app. left. apply in_flat_map. exists sc. split; [apply zseq_in; lia|].
    unfold fan. simpl. right. right. left. lia.
  - intros x Hx. apply fan_in in Hx; lia.
Qed.
Print Assumptions C57_fan_indices_refuted.
Example C57_nonvacuous : match ConstructCircle T64 (zp 0 0 0) (b64_of_Z 1) with
  | Ok m => length (mVertices m) = 101%nat /\ existsb (Z.eqb 101) (mIndices m) = true | _ => False end.
Proof. vm_compute. auto. Qed.

(** C58: integer division leaves only the last column with a non-zero coordinate *)
Lemma quot_col j n : (1 <= n)%Z -> (0 <= j <= n)%Z -> Z.quot j n = if (j =? n)%Z then 1%Z else 0%Z.
Proof.
  intros Hn Hj. destruct (Z.eqb_spec j n) as [->|Hne].
  - apply Z.quot_same. lia.
  - apply Z.quot_small. lia.
Qed.
Theorem C58_texcoords_refuted {A : Arith} (G : Trig A) c R0 r sc st : (1 <= sc)%Z -> (2 <= st)%Z ->
  (st * (sc + 1) <= 2 ^ 32)%Z ->
  exists m m', sphereConstruct G c r sc st = Ok m /\ torusConstruct G c R0 r sc st = Ok m' /\
    mTexCoords m = mTexCoords m' /\
    forall i j, (0 <= i < st)%Z -> (0 <= j <= sc)%Z ->
      zget (mTexCoords m) (i * (sc + 1) + j)%Z = Ok (fofZ A (if (j =? sc)%Z then 1 else 0), fofZ A 0).
Proof.
  intros Hsc Hst Hl. unfold sphereConstruct, torusConstruct. rewrite !gridVertices_value by lia. cbn [rbind].
  rewrite !gridIndices_value by lia. cbn [rbind]. eexists. eexists. split; [reflexivity|]. split; [reflexivity|].
  cbn [mTexCoords]. split; [reflexivity|]. intros i j Hi Hj. rewrite grid_nth by lia. unfold gt.
  rewrite quot_col by lia. rewrite Z.quot_small by lia. reflexivity.
Qed.
Print Assumptions C58_texcoords_refuted.
(** in exact arithmetic: whenever 0 < j < sectorCount (or i > 0) the proportional value is not stored *)
Theorem C58_not_proportional_refuted (c : vec XR) r sc st i j : (1 <= sc)%Z -> (2 <= st)%Z ->
  (st * (sc + 1) <= 2 ^ 32)%Z -> (0 <= i < st)%Z -> (0 <= j <= sc)%Z -> (0 < j < sc \/ 0 < i)%Z ->
  exists m, sphereConstruct XT c (Fin r) sc st = Ok m /\
    zget (mTexCoords m) (i * (sc + 1) + j)%Z <> Ok (Fin (IZR j / IZR sc) : XR, Fin (IZR i / IZR st) : XR).
Proof.
  intros Hsc Hst Hl Hi Hj Hne.
  destruct (C58_texcoords_refuted XT c (Fin r) (Fin r) sc st Hsc Hst Hl) as (m & _ & E & _ & _ & H).
  exists m. split; [exact E|]. rewrite (H i j Hi Hj). intros [= E1 E2].
  assert (0 < IZR sc) by (apply (IZR_lt 0); lia). assert (0 < IZR st) by (apply (IZR_lt 0); lia).
  destruct Hne as [Hne|Hne].
  - destruct (Z.eqb_spec j sc); [lia|]. assert (0 < IZR j / IZR sc); [|lra].
    apply Rdiv_lt_0_compat; [apply (IZR_lt 0); lia|lra].
  - assert (0 < IZR i / IZR st); [|lra]. apply Rdiv_lt_0_compat; [apply (IZR_lt 0); lia|lra].
Qed.
Print Assumptions C58_not_proportional_refuted.
Example C58_nonvacuous : match sphereConstruct T64 (zp 0 0 0) (b64_of_Z 1) 2 2 with
  | Ok m => map (fun '(s, t) => (sf s, sf t)) (mTexCoords m) =
      map (fun '(s, t) => (sf s, sf t)) (let z := b64_of_Z 0 in [(z, z); (z, z); (b64_of_Z 1, z); (z, z); (z, z); (b64_of_Z 1, z)])
  | _ => False end.
Proof. vm_compute. reflexivity. Qed.

(** C59: the last row is a boundary *)
Theorem C59_sphere_open_refuted (c : vec XR) r sc st : r <> 0 -> (3 <= sc)%Z -> (2 <= st)%Z ->
  (st * (sc + 1) <= 2 ^ 32)%Z ->
  exists m, sphereConstruct XT c (Fin r) sc st = Ok m /\
    ~ closed_mesh (posn (mVertices m)) (triangles_of (mIndices m)).
Proof.
  intros Hr Hsc Hst Hl. destruct (sphere_value c r sc st ltac:(lia) Hst Hl) as (m & E & L & HI & HV & _).
  exists m. split; [exact E|]. rewrite HI, triangles_flat3.
  apply (grid_open sc st Hsc Hst (sph_pos r sc st)).
  - intros i j Hi Hj. apply posn_fv, HV; assumption.
  - intros i j j' Hi Hj Hj' Q. apply (sph_row r sc st i (st - 1) j j' Hr Hi ltac:(lia) Q).
  - intros j j' Hj Hj'. apply gpos_row_inj; [lia| |exact Hj|exact Hj']. apply sph_xy; assumption.
Qed.
Print Assumptions C59_sphere_open_refuted.
Theorem C59_torus_open_refuted (c : vec XR) R0 r sc st : 0 < r < R0 -> (3 <= sc)%Z -> (2 <= st)%Z ->
  (st * (sc + 1) <= 2 ^ 32)%Z ->
  exists m, torusConstruct XT c (Fin R0) (Fin r) sc st = Ok m /\
    ~ closed_mesh (posn (mVertices m)) (triangles_of (mIndices m)).
Proof.
  intros Hr Hsc Hst Hl. destruct (torus_value c R0 r sc st ltac:(lia) Hst Hl) as (m & E & L & HI & HV & _).
  exists m. split; [exact E|]. rewrite HI, triangles_flat3.
  apply (grid_open sc st Hsc Hst (tor_pos R0 r sc st)).
  - intros i j Hi Hj. apply posn_fv, HV; assumption.
  - intros i j j' Hi Hj Hj' Q. apply (tor_row R0 r sc st i (st - 1) j j' Hr ltac:(lia) Hi ltac:(lia) Q).
  - intros j j' Hj Hj'. apply gpos_row_inj; [lia| |exact Hj|exact Hj']. apply tor_xy; assumption.
Qed.
Print Assumptions C59_torus_open_refuted.
(* [closed_mesh] is satisfiable: a triangle with its reverse *)
Example C59_nonvacuous : closed_mesh (fun k => RV (IZR k) (IZR k * IZR k) 0) [(0, 1, 2); (2, 1, 0)]%Z.
Proof.
  intros a t P Q Ha (N & (k & Hk & HP) & (k' & Hk' & HQ)).
  destruct a as [|[|a]]; [| |destruct a; discriminate]; injection Ha as <-.
  - exists 1%nat, (2, 1, 0)%Z. split; [lia|]. split; [reflexivity|]. split; [exact N|]. simpl in *.
    split; [exists k|exists k']; (split; [lia|assumption]).
  - exists 0%nat, (0, 1, 2)%Z. split; [lia|]. split; [reflexivity|]. split; [exact N|]. simpl in *.
    split; [exists k|exists k']; (split; [lia|assumption]).
Qed.
