(** The meshes of package shape in binary64 (properties C148-C151). *)
From Coq Require Import Reals Lra Lia ZArith List Bool.
From Flocq Require Import Core BinarySingleNaN.
From Verif Require Import Base Arith M_r3 Spec_r3 XRvec GoLoop M_shape Spec_shape Spec_shape64 P_nurbs P_meshing P_meshgeom P_tri3 P_shape P_insphere_err P_insphere_b64 P_b64sc P_b64err P_b64hash P_b64rel P_b64norm P_b64clamp P_shape64 P_pi64 P_seam64.
Import ListNotations.
Open Scope R_scope.
Local Instance p53q : Prec_gt_0 53 := eq_refl.
Local Instance vxq : Valid_exp (SpecFloat.fexp 53 1024) := fexp_correct 53 1024 b64_prec.

Lemma sphere_mesh {A : Arith} (G : Trig A) c r sc st : (1 <= sc)%Z -> (2 <= st)%Z -> (st * (sc + 1) <= 2 ^ 32)%Z ->
  let xyOf := fun a => fmul A r (tcos G a) in let zOf := fun a => fmul A r (tsin G a) in let ss := fdiv A (tPi2 G) (fofZ A sc) in let ts := fdiv A (tPi G) (fofZ A st) in
  exists m, sphereConstruct G c r sc st = Ok m /\ mVertices m = flat_map (grow sc (gv G xyOf zOf ts ss)) (zseq 0 (Z.to_nat st)) /\
    mNormals m = flat_map (grow sc (gn G xyOf zOf ts ss (fdiv A (fofZ A 1) r))) (zseq 0 (Z.to_nat st)).
Proof.
  intros Hsc Hst Hl xyOf zOf ss ts. unfold sphereConstruct. rewrite gridVertices_value by lia. cbn [rbind].
  rewrite gridIndices_value by lia. cbn [rbind]. eexists. split; [reflexivity|]. split; reflexivity.
Qed.
Lemma torus_mesh {A : Arith} (G : Trig A) c R0 r sc st : (1 <= sc)%Z -> (2 <= st)%Z -> (st * (sc + 1) <= 2 ^ 32)%Z ->
  let xyOf := fun a => fadd A R0 (fmul A r (tcos G a)) in let zOf := fun a => fmul A r (tsin G a) in let ss := fdiv A (tPi2 G) (fofZ A sc) in let ts := fdiv A (tPi2 G) (fofZ A st) in
  exists m, torusConstruct G c R0 r sc st = Ok m /\ mVertices m = flat_map (grow sc (gv G xyOf zOf ts ss)) (zseq 0 (Z.to_nat st)).
Proof.
  intros Hsc Hst Hl xyOf zOf ss ts. unfold torusConstruct. rewrite gridVertices_value by lia. cbn [rbind].
  rewrite gridIndices_value by lia. cbn [rbind]. eexists. split; [reflexivity|]. reflexivity.
Qed.
Lemma ellipse_mesh {A : Arith} (G : Trig A) c a b sc : (1 <= sc < 2 ^ 32 - 1)%Z ->
  exists m, ellipseConstruct G c a b sc = Ok m /\ mVertices m = c :: map (ellipseVertex G c a b (fdiv A (tPi2 G) (fofZ A sc))) (zseq 0 (Z.to_nat sc)).
Proof.
  intros Hsc. unfold ellipseConstruct. rewrite ellipseVertices_value. cbn [rbind].
  rewrite fanIndices_value by (simpl length; rewrite map_length, zseq_length; lia). cbn [rbind].
  eexists. split; reflexivity.
Qed.

(** ** C148: spheres and tori.  Every computed vertex is finite and near the point it stands for. *)
Theorem C148_sphere64 (G : Trig B64) eps (c : vec B64) (r : B64) rho sc st : trig_acc G eps -> 0 <= eps <= / 1000 ->
  fval r rho -> 0 <= rho <= bpow radix2 1000 -> (1 <= sc)%Z -> (2 <= st)%Z -> (st * (sc + 1) <= 2 ^ 32)%Z ->
  exists m, sphereConstruct G c r sc st = Ok m /\ Z.of_nat (length (mVertices m)) = (st * (sc + 1))%Z /\
    forall i j, (0 <= i < st)%Z -> (0 <= j <= sc)%Z ->
      let a := PI / 2 - IZR i * PI / IZR st in let b := 2 * PI * IZR j / IZR sc in
      let q := RV (rho * cos a * cos b) (rho * cos a * sin b) (rho * sin a) in
      exists v, zget (mVertices m) (i * (sc + 1) + j)%Z = Ok v /\ on_sphere rzero rho q /\
        vwithin v q (rho * (3 * eps + 130 * u53) + 50 * bpow radix2 (-1074)).
Proof.
  intros HT He Fr Hr Hsc Hst Hl. destruct (sphere_mesh G c r sc st Hsc Hst Hl) as (m & Em & EV & EN). exists m. split; [exact Em|].
  split; [rewrite EV; apply grid_length; lia|]. intros i j Hi Hj a b q. eexists. split; [rewrite EV, grid_nth by lia; reflexivity|].
  assert (Hq : q = sph_pos rho sc st i j).
  { unfold q, a, b, sph_pos, gpos, sph_angle. replace (IZR i * PI / IZR st) with (IZR i * (PI / IZR st)) by (unfold Rdiv; ring).
    replace (2 * PI * IZR j / IZR sc) with (IZR j * (2 * PI / IZR sc)) by (unfold Rdiv; ring). reflexivity. }
  rewrite Hq. split.
  - unfold on_sphere, rdist, rdist2. replace (rsub (sph_pos rho sc st i j) rzero) with (sph_pos rho sc st i j)
      by (unfold rsub, rzero, sph_pos, gpos; simpl; f_equal; ring). rewrite sph_norm. apply sqrt_square. lra.
  - apply sphere_acc; auto; nia.
Qed.
Print Assumptions C148_sphere64.
Theorem C148_torus64 (G : Trig B64) eps (c : vec B64) (R0 r : B64) rho0 rho sc st : trig_acc G eps -> 0 <= eps <= / 1000 ->
  fval R0 rho0 -> fval r rho -> 0 <= rho0 <= bpow radix2 999 -> 0 <= rho <= bpow radix2 999 ->
  (1 <= sc)%Z -> (2 <= st)%Z -> (st * (sc + 1) <= 2 ^ 32)%Z ->
  exists m, torusConstruct G c R0 r sc st = Ok m /\ Z.of_nat (length (mVertices m)) = (st * (sc + 1))%Z /\
    forall i j, (0 <= i < st)%Z -> (0 <= j <= sc)%Z ->
      let a := PI / 2 - 2 * PI * IZR i / IZR st in let b := 2 * PI * IZR j / IZR sc in
      let q := RV ((rho0 + rho * cos a) * cos b) ((rho0 + rho * cos a) * sin b) (rho * sin a) in
      exists v, zget (mVertices m) (i * (sc + 1) + j)%Z = Ok v /\ (rho <= rho0 -> on_torus rzero rho0 rho q) /\
        vwithin v q ((rho0 + rho) * (3 * eps + 130 * u53) + 50 * bpow radix2 (-1074)).
Proof.
  intros HT He FR Fr HR Hr Hsc Hst Hl. destruct (torus_mesh G c R0 r sc st Hsc Hst Hl) as (m & Em & EV). exists m. split; [exact Em|].
  split; [rewrite EV; apply grid_length; lia|]. intros i j Hi Hj a b q. eexists. split; [rewrite EV, grid_nth by lia; reflexivity|].
  split.
  - intros Hle. unfold on_torus, q, rzero, Rsqr. cbn [rx ry rz].
    set (d := rho0 + rho * cos a). assert (0 <= d).
    { unfold d. pose proof (COS_bound a). assert (rho * -1 <= rho * cos a) by (apply Rmult_le_compat_l; lra). lra. }
    replace ((d * cos b - 0) * (d * cos b - 0) + (d * sin b - 0) * (d * sin b - 0)) with (d * d * (cos b * cos b + sin b * sin b)) by ring.
    rewrite cs1, Rmult_1_r, sqrt_square by auto. unfold d. pose proof (cs1 a).
    replace ((rho0 + rho * cos a - rho0) * (rho0 + rho * cos a - rho0) + (rho * sin a - 0) * (rho * sin a - 0)) with (rho * rho * (cos a * cos a + sin a * sin a)) by ring.
    rewrite cs1. ring.
  - assert (Hq : q = tor_pos rho0 rho sc st i j).
    { unfold q, a, b, tor_pos, gpos, tor_angle. replace (2 * PI * IZR i / IZR st) with (IZR i * (2 * PI / IZR st)) by (unfold Rdiv; ring).
      replace (2 * PI * IZR j / IZR sc) with (IZR j * (2 * PI / IZR sc)) by (unfold Rdiv; ring). reflexivity. }
    rewrite Hq. apply torus_acc; auto; nia.
Qed.
Print Assumptions C148_torus64.

(** ** C149: circles and ellipses *)
Lemma fan_nth (f : Z -> vec B64) c sc k v : (1 <= k)%Z -> zget (c :: map f (zseq 0 (Z.to_nat sc))) k = Ok v -> (k <= sc)%Z /\ v = f (k - 1)%Z.
Proof.
  intros Hk Hv. unfold zget in Hv. destruct (Z.ltb_spec k 0); [lia|].
  replace (Z.to_nat k) with (S (Z.to_nat (k - 1))) in Hv by lia. cbn [nth_error] in Hv. rewrite nth_error_map in Hv.
  destruct (nth_error (zseq 0 (Z.to_nat sc)) (Z.to_nat (k - 1))) as [i|] eqn:Ei; cbn [option_map] in Hv; [|discriminate].
  assert (Hlt : (Z.to_nat (k - 1) < Z.to_nat sc)%nat) by (rewrite <- (zseq_length 0 (Z.to_nat sc)); apply nth_error_Some; congruence).
  rewrite zseq_nth in Ei by exact Hlt. assert (i = k - 1)%Z by (assert (i = 0 + Z.of_nat (Z.to_nat (k - 1)))%Z by congruence; lia).
  subst i. split; [lia|]. congruence.
Qed.
Theorem C149_ellipse64 (G : Trig B64) eps (c : vec B64) q (a b : B64) ra rb sc : trig_acc G eps -> 0 <= eps <= / 1000 ->
  fval (vx c) (rx q) -> fval (vy c) (ry q) -> fval (vz c) (rz q) -> fval a ra -> fval b rb ->
  Rabs ra <= bpow radix2 1000 -> Rabs rb <= bpow radix2 1000 -> Rabs (rx q) <= bpow radix2 1000 -> Rabs (ry q) <= bpow radix2 1000 ->
  (1 <= sc < 2 ^ 32 - 1)%Z ->
  exists m, ellipseConstruct G c a b sc = Ok m /\ Z.of_nat (length (mVertices m)) = (sc + 1)%Z /\ zget (mVertices m) 0 = Ok c /\
    forall k v, (1 <= k)%Z -> zget (mVertices m) k = Ok v -> let t := PI / 2 - 2 * PI * IZR (k - 1) / IZR sc in
      within (vx v) (rx q + ra * cos t) ((Rabs ra + Rabs (rx q)) * (eps + 60 * u53) + 3 * bpow radix2 (-1074)) /\
      within (vy v) (ry q + rb * sin t) ((Rabs rb + Rabs (ry q)) * (eps + 60 * u53) + 3 * bpow radix2 (-1074)) /\
      fval (vz v) (rz q).
Proof.
  intros HT He Fx Fy Fz Fa Fb Ha Hb Hx Hy Hsc. destruct (ellipse_mesh G c a b sc Hsc) as (m & Em & EV). exists m. split; [exact Em|]. rewrite EV.
  split; [simpl length; rewrite map_length, zseq_length; lia|]. split; [reflexivity|].
  intros k v Hk Hv t. destruct (fan_nth _ _ _ _ _ Hk Hv) as [Hk' ->].
  destruct (fan_acc G eps HT He c q a b ra rb (k - 1) sc Fx Fy Fz Fa Fb Ha Hb Hx Hy ltac:(lia) ltac:(lia)) as (X & Y & F & Z).
  replace t with (fan_angle sc (k - 1)) by (unfold t, fan_angle, Rdiv; ring).
  rewrite (Rplus_comm (rx q)), (Rplus_comm (ry q)). split; [exact X|]. split; [exact Y|]. split; [exact F|].
  set (w := B2R _) in *. apply Rabs_le_inv in Z. lra.
Qed.
Print Assumptions C149_ellipse64.
Theorem C149_circle64 (G : Trig B64) eps (c : vec B64) q (r : B64) rho sc : trig_acc G eps -> 0 <= eps <= / 1000 ->
  fval (vx c) (rx q) -> fval (vy c) (ry q) -> fval (vz c) (rz q) -> fval r rho ->
  Rabs rho <= bpow radix2 1000 -> Rabs (rx q) <= bpow radix2 1000 -> Rabs (ry q) <= bpow radix2 1000 ->
  (1 <= sc < 2 ^ 32 - 1)%Z ->
  exists m, circleConstruct G c r sc = Ok m /\ Z.of_nat (length (mVertices m)) = (sc + 1)%Z /\ zget (mVertices m) 0 = Ok c /\
    forall k v, (1 <= k)%Z -> zget (mVertices m) k = Ok v -> let t := PI / 2 - 2 * PI * IZR (k - 1) / IZR sc in
      within (vx v) (rx q + rho * cos t) ((Rabs rho + Rabs (rx q)) * (eps + 60 * u53) + 3 * bpow radix2 (-1074)) /\
      within (vy v) (ry q + rho * sin t) ((Rabs rho + Rabs (ry q)) * (eps + 60 * u53) + 3 * bpow radix2 (-1074)) /\
      fval (vz v) (rz q).
Proof.
  intros HT He Fx Fy Fz Fr Hr Hx Hy Hsc.
  destruct (C149_ellipse64 G eps c q r r rho rho sc HT He Fx Fy Fz Fr Fr Hr Hr Hx Hy Hsc) as (m & E & H).
  exists m. split; [|exact H]. exact E.
Qed.
Print Assumptions C149_circle64.

(** ** C150: the normals of a sphere are nearly the unit outward normals *)
Theorem C150_normals64 (G : Trig B64) eps (c : vec B64) (r : B64) rho sc st : trig_acc G eps -> 0 <= eps <= / 1000 ->
  fval r rho -> bpow radix2 (-1000) <= rho <= bpow radix2 1000 -> (1 <= sc)%Z -> (2 <= st)%Z -> (st * (sc + 1) <= 2 ^ 32)%Z ->
  exists m, sphereConstruct G c r sc st = Ok m /\ length (mNormals m) = length (mVertices m) /\
    forall i j, (0 <= i < st)%Z -> (0 <= j <= sc)%Z ->
      let a := PI / 2 - IZR i * PI / IZR st in let b := 2 * PI * IZR j / IZR sc in
      let n := RV (cos a * cos b) (cos a * sin b) (sin a) in
      rnorm n = 1 /\ exists nx ny nz, zget (mNormals m) (i * (sc + 1) + j)%Z = Ok (nx, ny, nz) /\
        vwithin (@mkvec B64 nx ny nz) n (3 * eps + 135 * u53).
Proof.
  intros HT He Fr Hr Hsc Hst Hl. destruct (sphere_mesh G c r sc st Hsc Hst Hl) as (m & Em & EV & EN). exists m. split; [exact Em|].
  pose proof (bpow_gt_0 radix2 (-1000)) as P0. pose proof u_pos as U.
  split; [rewrite EV, EN; apply Nat2Z.inj; rewrite !grid_length by lia; reflexivity|]. intros i j Hi Hj a b n.
  assert (Hq : sph_pos rho sc st i j = rscale rho n).
  { unfold n, a, b, rscale, sph_pos, gpos, sph_angle. cbn [rx ry rz]. replace (IZR i * PI / IZR st) with (IZR i * (PI / IZR st)) by (unfold Rdiv; ring).
    replace (2 * PI * IZR j / IZR sc) with (IZR j * (2 * PI / IZR sc)) by (unfold Rdiv; ring). apply f_equal3; ring. }
  assert (B1 : Rabs (rx n) <= 1 /\ Rabs (ry n) <= 1 /\ Rabs (rz n) <= 1).
  { unfold n. cbn [rx ry rz]. rewrite !Rabs_mult. pose proof (abs_cos a). pose proof (abs_cos b). pose proof (abs_sin b). pose proof (abs_sin a).
    pose proof (Rabs_pos (cos a)). pose proof (Rabs_pos (cos b)). pose proof (Rabs_pos (sin b)).
    split; [|split]; auto; rewrite <- (Rmult_1_r 1); apply Rmult_le_compat; auto. }
  split.
  { unfold rnorm, rdot, n. cbn [rx ry rz]. pose proof (cs1 a). pose proof (cs1 b).
    replace (cos a * cos b * (cos a * cos b) + cos a * sin b * (cos a * sin b) + sin a * sin a) with (cos a * cos a * (cos b * cos b + sin b * sin b) + sin a * sin a) by ring.
    rewrite H0, Rmult_1_r, H. apply sqrt_1. }
  do 3 eexists. split; [rewrite EN, grid_nth by lia; unfold gn; reflexivity|].
  destruct (sphere_acc G eps HT He r rho i j sc st Fr ltac:(lra) ltac:(nia) ltac:(nia) ltac:(lia) ltac:(lia)) as (X & Y & Z).
  rewrite Hq in X, Y, Z. unfold rscale in X, Y, Z. cbn [rx ry rz] in X, Y, Z.
  assert (K : forall t, Rabs t <= 1 -> Rabs (rho * t) <= rho).
  { intros t Ht. rewrite Rabs_mult, (Rabs_pos_eq rho) by lra. rewrite <- (Rmult_1_r rho) at 2. apply Rmult_le_compat_l; lra. }
  assert (Q : forall t, rho * t / rho = t) by (intros; field; lra).
  destruct B1 as (B1 & B2 & B3).
  split; [|split]; cbn [vx vy vz]; (eapply within_mono; [rewrite <- Q at 1; eapply normal_acc; [exact Fr|lra|eassumption|lra|apply K; assumption]|lra]).
Qed.
Print Assumptions C150_normals64.

(** ** C151: the last column of every row is meant to be the first one again; in binary64 it never is.  The y coordinate is 0 in
    the first column and not 0 in the last. *)
Theorem C151_sphere_seam_refuted (G : Trig B64) eps (c : vec B64) (r : B64) rho sc st : trig_acc G eps -> 0 <= eps <= bpow radix2 (-40) -> sin_rel G ->
  fval r rho -> bpow radix2 (-800) <= rho <= bpow radix2 1000 -> (1 <= sc)%Z -> (2 <= st)%Z -> (st * (sc + 1) <= 2 ^ 32)%Z ->
  exists m, sphereConstruct G c r sc st = Ok m /\ forall i, (1 <= i < st)%Z ->
    exists v w y, zget (mVertices m) (i * (sc + 1))%Z = Ok v /\ zget (mVertices m) (i * (sc + 1) + sc)%Z = Ok w /\
      fval (vy v) 0 /\ fval (vy w) y /\ 0 < Rabs y <= rho * (3 * eps + 130 * u53) + 50 * bpow radix2 (-1074).
Proof.
  intros HT He HS Fr Hr Hsc Hst Hl. destruct (sphere_mesh G c r sc st Hsc Hst Hl) as (m & Em & EV & _). exists m. split; [exact Em|]. intros i Hi.
  pose proof (bpow_gt_0 radix2 (-800)) as P8.
  assert (G0 : zget (mVertices m) (i * (sc + 1))%Z = zget (mVertices m) (i * (sc + 1) + 0)%Z) by (f_equal; lia).
  rewrite G0, EV, !grid_nth by lia.
  destruct (sphere_row G eps HT He r rho i st Fr Hr ltac:(lia) ltac:(nia)) as (x & Fx & Hx).
  destruct (col_last G eps HT HS _ (fmul B64 r (tsin G (fsub B64 (tPiH G) (fmul B64 (fofZ B64 i) (fdiv B64 (tPi G) (fofZ B64 st)))))) x sc ltac:(nia) Fx Hx) as (y & Fy & Ny).
  eexists. eexists. exists y. split; [reflexivity|]. split; [reflexivity|]. split.
  - unfold gv. apply (col_first G eps HT HS _ _ x); auto. nia.
  - split; [exact Fy|]. split; [apply Rabs_pos_lt; exact Ny|].
    destruct (sphere_acc G eps HT (eps_ok eps He) r rho i sc sc st Fr ltac:(lra) ltac:(nia) ltac:(nia) ltac:(lia) ltac:(lia)) as (_ & [_ V] & _).
    unfold sph_pos, gpos in V. cbn [ry] in V. replace (IZR sc * (2 * PI / IZR sc)) with (2 * PI) in V by (field; apply not_0_IZR; lia).
    rewrite sin_2PI in V. unfold gv in V. cbv zeta in V. destruct Fy as [_ Fy]. rewrite Fy in V. rewrite Rmult_0_r, Rminus_0_r in V. exact V.
Qed.
Print Assumptions C151_sphere_seam_refuted.
Theorem C151_torus_seam_refuted (G : Trig B64) eps (c : vec B64) (R0 r : B64) rho0 rho sc st : trig_acc G eps -> 0 <= eps <= bpow radix2 (-40) -> sin_rel G ->
  fval R0 rho0 -> fval r rho -> bpow radix2 (-800) <= rho0 <= bpow radix2 999 -> 0 <= 2 * rho <= rho0 -> (1 <= sc)%Z -> (2 <= st)%Z -> (st * (sc + 1) <= 2 ^ 32)%Z ->
  exists m, torusConstruct G c R0 r sc st = Ok m /\ forall i, (0 <= i < st)%Z ->
    exists v w y, zget (mVertices m) (i * (sc + 1))%Z = Ok v /\ zget (mVertices m) (i * (sc + 1) + sc)%Z = Ok w /\
      fval (vy v) 0 /\ fval (vy w) y /\ 0 < Rabs y <= (rho0 + rho) * (3 * eps + 130 * u53) + 50 * bpow radix2 (-1074).
Proof.
  intros HT He HS FR Fr HR Hr Hsc Hst Hl. destruct (torus_mesh G c R0 r sc st Hsc Hst Hl) as (m & Em & EV). exists m. split; [exact Em|]. intros i Hi.
  pose proof (bpow_gt_0 radix2 (-800)) as P8.
  assert (G0 : zget (mVertices m) (i * (sc + 1))%Z = zget (mVertices m) (i * (sc + 1) + 0)%Z) by (f_equal; lia).
  rewrite G0, EV, !grid_nth by lia.
  destruct (torus_row G eps HT He R0 r rho0 rho i st FR Fr HR Hr ltac:(lia) ltac:(nia)) as (x & Fx & Hx).
  destruct (col_last G eps HT HS _ (fmul B64 r (tsin G (fsub B64 (tPiH G) (fmul B64 (fofZ B64 i) (fdiv B64 (tPi2 G) (fofZ B64 st)))))) x sc ltac:(nia) Fx Hx) as (y & Fy & Ny).
  eexists. eexists. exists y. split; [reflexivity|]. split; [reflexivity|]. split.
  - unfold gv. apply (col_first G eps HT HS _ _ x); auto. nia.
  - split; [exact Fy|]. split; [apply Rabs_pos_lt; exact Ny|].
    destruct (torus_acc G eps HT (eps_ok eps He) R0 r rho0 rho i sc sc st FR Fr ltac:(lra) ltac:(lra) ltac:(nia) ltac:(nia) ltac:(lia) ltac:(lia)) as (_ & [_ V] & _).
    unfold tor_pos, gpos in V. cbn [ry] in V. replace (IZR sc * (2 * PI / IZR sc)) with (2 * PI) in V by (field; apply not_0_IZR; lia).
    rewrite sin_2PI in V. unfold gv in V. cbv zeta in V. destruct Fy as [_ Fy]. rewrite Fy in V. rewrite Rmult_0_r, Rminus_0_r in V. exact V.
Qed.
Print Assumptions C151_torus_seam_refuted.

(** ** The hypotheses can be met: correctly rounded constants and functions *)
Definition rnd64 (x : R) : b64 :=
  @binary_normalize 53 1024 b64_prec b64_pe mode_NE (Ztrunc (scaled_mantissa radix2 (SpecFloat.fexp 53 1024) (rndF x))) (cexp radix2 (SpecFloat.fexp 53 1024) (rndF x)) false.
Lemma rnd64_ok x : Rabs x <= 100 -> fval (rnd64 x) (rndF x).
Proof.
  intros H. pose proof (binary_normalize_correct 53 1024 b64_prec b64_pe mode_NE (Ztrunc (scaled_mantissa radix2 (SpecFloat.fexp 53 1024) (rndF x))) (cexp radix2 (SpecFloat.fexp 53 1024) (rndF x)) false) as C.
  assert (F : generic_format radix2 (SpecFloat.fexp 53 1024) (rndF x)) by (apply generic_format_round; typeclasses eauto).
  cbv zeta in C. change (F2R (Float radix2 _ _)) with (F2R (Float radix2 (Ztrunc (scaled_mantissa radix2 (SpecFloat.fexp 53 1024) (rndF x))) (cexp radix2 (SpecFloat.fexp 53 1024) (rndF x)))) in C.
  unfold generic_format in F. rewrite <- F in C.
  change (round radix2 (SpecFloat.fexp 53 1024) (round_mode mode_NE) (rndF x)) with (rndF (rndF x)) in C.
  rewrite (rndF_id (rndF x)) in C by exact F.
  rewrite Rlt_bool_true in C.
  - destruct C as (C1 & C2 & _). split; [exact C2|exact C1].
  - apply no_over'. pose proof bp1000. pose proof bp1023. lra.
Qed.
Lemma rnd64_within x e : Rabs x <= 100 -> u53 * Rabs x + bpow radix2 (-1074) <= e -> within (rnd64 x) x e.
Proof. intros H He. apply (within_of _ _ _ _ (rnd64_ok x H)). pose proof (rnd_any x). lra. Qed.
Definition TR : Trig B64 := mkTrig B64 (rnd64 PI) (rnd64 (2 * PI)) (rnd64 (PI / 2))
  (fun x => rnd64 (cos (B2R (x : b64)))) (fun x => rnd64 (sin (B2R (x : b64)))).
Lemma TR_acc : trig_acc TR (2 * u53).
Proof.
  pose proof pi_bd. pose proof u_pos as U. pose proof eta1.
  assert (K : forall x c d, Rabs x <= c -> c <= 100 -> c * u53 + u53 <= d -> within (rnd64 x) x d).
  { intros x c d Hx Hc Hd. apply rnd64_within; [lra|]. assert (u53 * Rabs x <= u53 * c) by (apply Rmult_le_compat_l; lra). lra. }
  split; [|split; [|split]]; cbn [tPi tPi2 tPiH tcos tsin TR]; rewrite ?u8.
  - apply (K _ 4); try lra. apply Rabs_le; lra.
  - apply (K _ 7).
    + apply Rabs_le. pose proof PI_ineq 1 as [_ P]. cbn in P. unfold PI_tg, tg_alt in P. cbn in P. lra.
    + lra.
    + lra.
  - apply (K _ 4); try lra. apply Rabs_le; lra.
  - intros x _ _. split; apply (K _ 1); try lra; [apply abs_cos|apply abs_sin].
Qed.
Lemma fval_one : fval (fofZ B64 1) 1. Proof. apply (fv_ofZ 1). reflexivity. Qed.
(** ConstructSphere, with correctly rounded library functions, puts 90300 vertices within 2^-45 of the unit sphere *)
Example C148_nonvacuous (c : vec B64) : exists m, ConstructSphere TR c (fofZ B64 1) = Ok m /\ Z.of_nat (length (mVertices m)) = 90300%Z /\
  forall k v, zget (mVertices m) k = Ok v -> exists q, on_sphere rzero 1 q /\ vwithin v q (bpow radix2 (-45)).
Proof.
  pose proof u_pos as U. pose proof eta1 as E1. pose proof bp1000.
  destruct (C148_sphere64 TR (2 * u53) c (fofZ B64 1) 1 300 300 TR_acc ltac:(lra) fval_one ltac:(lra) ltac:(lia) ltac:(lia) ltac:(lia)) as (m & E & L & H').
  exists m. split; [exact E|]. split; [exact L|]. intros k v Hk.
  pose proof (zget_lt _ _ _ Hk) as Hk'. rewrite L in Hk'.
  destruct (grid_index 300 300 k ltac:(lia) Hk') as (i & j & Hi & Hj & ->).
  destruct (H' i j Hi Hj) as (w & Hw & S & V1 & V2 & V3). assert (w = v) by congruence. subst w.
  eexists. split; [exact S|]. assert (K : 1 * (3 * (2 * u53) + 130 * u53) + 50 * bpow radix2 (-1074) <= bpow radix2 (-45)).
  { change (bpow radix2 (-45)) with (/ 35184372088832). rewrite u_val in *. lra. }
  split; [|split]; (eapply within_mono; [|exact K]); assumption.
Qed.
Example C149_nonvacuous : exists m, ConstructCircle TR (@mkvec B64 (fofZ B64 0) (fofZ B64 0) (fofZ B64 7)) (fofZ B64 1) = Ok m /\
  Z.of_nat (length (mVertices m)) = 101%Z /\ forall v, zget (mVertices m) 1 = Ok v -> within (vx v) 0 (bpow radix2 (-45)) /\ within (vy v) 1 (bpow radix2 (-45)).
Proof.
  pose proof u_pos as U. pose proof eta1 as E1. pose proof bp1000. assert (F0 : fval (fofZ B64 0) 0) by (apply (fv_ofZ 0); reflexivity).
  destruct (C149_circle64 TR (2 * u53) (@mkvec B64 (fofZ B64 0) (fofZ B64 0) (fofZ B64 7)) (RV 0 0 7) (fofZ B64 1) 1 100 TR_acc ltac:(lra) F0 F0 (fv_ofZ 7 ltac:(lia)) fval_one
    ltac:(rewrite Rabs_R1; lra) ltac:(cbn [rx]; rewrite Rabs_R0; lra) ltac:(cbn [ry]; rewrite Rabs_R0; lra) ltac:(lia)) as (m & E & L & _ & H').
  exists m. split; [exact E|]. split; [exact L|]. intros v Hv. destruct (H' 1%Z v ltac:(lia) Hv) as (X & Y & _).
  cbn [rx ry] in X, Y. rewrite Rabs_R1, Rabs_R0 in X, Y. replace (PI / 2 - 2 * PI * IZR (1 - 1) / 100) with (PI / 2) in X, Y by (cbn; field).
  rewrite cos_PI2 in X. rewrite sin_PI2 in Y. assert (K : (1 + 0) * (2 * u53 + 60 * u53) + 3 * bpow radix2 (-1074) <= bpow radix2 (-45)).
  { change (bpow radix2 (-45)) with (/ 35184372088832). rewrite u_val in *. lra. }
  replace (0 + 1 * 0) with 0 in X by ring. replace (0 + 1 * 1) with 1 in Y by ring.
  split; (eapply within_mono; [|exact K]); assumption.
Qed.
Example C150_nonvacuous (c : vec B64) : exists m nx ny nz, ConstructSphere TR c (fofZ B64 1) = Ok m /\
  zget (mNormals m) 0 = Ok (nx, ny, nz) /\ vwithin (@mkvec B64 nx ny nz) (RV 0 0 1) (bpow radix2 (-45)).
Proof.
  pose proof u_pos as U. pose proof eta1 as E1. pose proof bp1000. assert (bpow radix2 (-1000) <= 1) by (apply (bpow_le radix2 (-1000) 0); lia).
  destruct (C150_normals64 TR (2 * u53) c (fofZ B64 1) 1 300 300 TR_acc ltac:(lra) fval_one ltac:(lra) ltac:(lia) ltac:(lia) ltac:(lia)) as (m & E & L & H').
  destruct (H' 0%Z 0%Z ltac:(lia) ltac:(lia)) as (_ & nx & ny & nz & Hn & V1 & V2 & V3). exists m, nx, ny, nz. split; [exact E|]. split; [exact Hn|].
  replace (PI / 2 - 0 * PI / 300) with (PI / 2) in V1, V2, V3 by field. cbn [rx ry rz] in V1, V2, V3. rewrite cos_PI2, Rmult_0_l in V1, V2. rewrite sin_PI2 in V3.
  assert (K : 3 * (2 * u53) + 135 * u53 <= bpow radix2 (-45)) by (change (bpow radix2 (-45)) with (/ 35184372088832); rewrite u_val in *; lra).
  split; [|split]; (eapply within_mono; [|exact K]); assumption.
Qed.
Lemma TR_sin : sin_rel TR.
Proof.
  pose proof u_pos as U. pose proof eta1 as E1. split; intros x Fx Hx; cbn [tsin TR].
  - rewrite Hx, sin_0. apply within_fval. pose proof (rnd64_ok 0 ltac:(rewrite Rabs_R0; lra)) as R0. rewrite rnd00 in R0. exact R0.
  - set (t := B2R (x : b64)) in *. assert (Ft : generic_format radix2 (SpecFloat.fexp 53 1024) t) by apply generic_format_B2R.
    apply rnd64_within; [pose proof (abs_sin t); lra|].
    pose proof (Rabs_le_inv _ _ Hx). pose proof (far_from_2pi t Ft ltac:(lra)) as FAR. pose proof (sin_half_abs (t - 2 * PI) ltac:(lra)) as SH.
    assert (SE : Rabs (sin t) = Rabs (sin (t - 2 * PI))).
    { f_equal. replace t with ((t - 2 * PI) + 2 * PI) at 1 by ring. rewrite sin_plus, sin_2PI, cos_2PI. ring. }
    rewrite <- SE in SH. change (bpow radix2 (-53)) with (/ 9007199254740992) in FAR. pose proof (Rabs_pos (sin t)).
    assert (u53 * Rabs (sin t) <= / 100 * Rabs (sin t)) by (apply Rmult_le_compat_r; lra). rewrite u_val in *. lra.
Qed.
Example C151_nonvacuous (c : vec B64) : exists m, ConstructSphere TR c (fofZ B64 1) = Ok m /\
  exists v w, zget (mVertices m) 301 = Ok v /\ zget (mVertices m) 601 = Ok w /\ fval (vy v) 0 /\ ~ fval (vy w) 0.
Proof.
  pose proof u_pos as U. pose proof bp1000. assert (bpow radix2 (-800) <= 1) by (apply (bpow_le radix2 (-800) 0); lia).
  destruct (C151_sphere_seam_refuted TR (2 * u53) c (fofZ B64 1) 1 300 300 TR_acc) as (m & E & H').
  - change (bpow radix2 (-40)) with (/ 1099511627776). rewrite u_val. lra.
  - exact TR_sin.
  - exact fval_one.
  - lra.
  - lia.
  - lia.
  - lia.
  - exists m. split; [exact E|]. destruct (H' 1%Z ltac:(lia)) as (v & w & y & Hv & Hw & F0 & [Fy Vy] & Ny & _). exists v, w. split; [exact Hv|]. split; [exact Hw|].
    split; [exact F0|]. intros [_ Z]. rewrite Z in Vy. rewrite <- Vy, Rabs_R0 in Ny. lra.
Qed.
