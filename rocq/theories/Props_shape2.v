(** Property theorems C141-C144: orientation, boundary and normals of the sphere and torus meshes. *)
From Coq Require Import Classical Reals Lra Lia ZArith List Bool.
From Verif Require Import Base Arith M_r3 Spec_r3 XRvec GoLoop P_nurbs M_shape Spec_shape Spec_shape2 P_shape P_shape2.
Import ListNotations.
Open Scope R_scope.

(** ** C141 *)
(** The triangles of a sphere or torus mesh are consistently oriented: each directed side belongs to one triangle. *)
Theorem C141_oriented {A : Arith} (G : Trig A) c R0 r sc st : (1 <= sc)%Z -> (2 <= st)%Z -> (st * (sc + 1) <= 2 ^ 32)%Z ->
  exists m m', sphereConstruct G c r sc st = Ok m /\ torusConstruct G c R0 r sc st = Ok m' /\
    oriented (triangles_of (mIndices m)) /\ oriented (triangles_of (mIndices m')).
Proof.
  intros Hsc Hst Hl. unfold sphereConstruct, torusConstruct. rewrite !gridVertices_value by lia. cbn [rbind]. rewrite gridIndices_value by lia. cbn [rbind].
  eexists. eexists. split; [reflexivity|]. split; [reflexivity|]. cbn [mIndices]. rewrite triangles_flat3. split; apply grid_oriented; lia.
Qed.
Print Assumptions C141_oriented.

(** ** C142 *)
(** An edge of the sphere mesh, coincident vertices identified, lies on two triangles unless both ends are on the last ring, at height
    - r cos(pi / stackCount): the only thing missing is the cap around the south pole. *)
Theorem C142_sphere_boundary (c : vec XR) r sc st : 0 < r -> (3 <= sc)%Z -> (2 <= st)%Z -> (st * (sc + 1) <= 2 ^ 32)%Z ->
  exists m, sphereConstruct XT c (Fin r) sc st = Ok m /\
    forall a t U V, nth_error (triangles_of (mIndices m)) a = Some t -> has_edge (posn (mVertices m)) t U V ->
      (~ shared (posn (mVertices m)) (triangles_of (mIndices m)) a U V <-> rz U = - r * cos (PI / IZR st) /\ rz V = - r * cos (PI / IZR st)).
Proof.
  intros Hr Hsc Hst Hl. destruct (sphere_value c r sc st ltac:(lia) Hst Hl) as (m & E & L & HI & HV & _).
  exists m. split; [exact E|]. rewrite HI, triangles_flat3. intros a t U V Ea He.
  assert (Hpos : forall i j, (0 <= i < st)%Z -> (0 <= j <= sc)%Z -> posn (mVertices m) (at_ sc i j) = sph_pos r sc st i j) by (intros i j Hi Hj; apply posn_fv, HV; auto).
  assert (Hwrap : forall i, (0 <= i < st)%Z -> sph_pos r sc st i sc = sph_pos r sc st i 0).
  { intros i Hi. rewrite !sph_svec. unfold svec. destruct (vang_wrap sc ltac:(lia)) as [-> ->]. rewrite vang_0, cos_0, sin_0. reflexivity. }
  assert (Zb : forall j, rz (sph_pos r sc st (st - 1) j) = - r * cos (PI / IZR st)).
  { intros j. rewrite sph_svec. unfold svec. cbn [rz]. assert (0 < IZR st) by (apply IZR_lt; lia).
    unfold sph_angle. rewrite minus_IZR. replace (PI / 2 - (IZR st - 1) * (PI / IZR st)) with (- (PI / 2 - PI / IZR st)) by (field; lra).
    rewrite sin_neg, sin_shift. ring. }
  assert (Zrow : forall i, (0 <= i < st)%Z -> forall W, ring sc (sph_pos r sc st) i W -> rz W = - r * cos (PI / IZR st) -> ring sc (sph_pos r sc st) (st - 1) W).
  { intros i Hi W (j & Hj & ->) Ez. exists j. split; [auto|]. assert (i = st - 1)%Z as ->; [|reflexivity].
    rewrite <- (Zb j) in Ez. unfold sph_pos, gpos in Ez. cbn [rz] in Ez.
    apply (sph_row r sc st i (st - 1) 0 0); [lra|auto|lia|]. apply Rmult_eq_reg_l in Ez; [|lra].
    (* same height, so the same angle *)
    unfold sph_angle in Ez. rewrite !sin_shift in Ez. pose proof (frac_range i st Hi) as F. pose proof (frac_range (st - 1) st ltac:(lia)) as F'.
    apply cos_inj_0_PI in Ez; try lra. unfold sph_pos, gpos, sph_angle. rewrite Ez. reflexivity. }
  split.
  - intros N. destruct (grid_shared sc st ltac:(lia) (sph_pos r sc st) _ Hst Hpos Hwrap a t U V Ea He) as [S|[(j & Hj & C)|(j & Hj & -> & C)]].
    + contradiction.
    + destruct C as [[-> ->]|[-> ->]]; auto.
    + exfalso. apply N. apply (fan_shared sc st ltac:(lia) (sph_pos r sc st) _ ltac:(lia) Hst Hpos Hwrap a j U V); auto.
      * intros j' _. rewrite !sph_svec. unfold svec. replace (sph_angle st 0) with (PI / 2) by (unfold sph_angle; ring). rewrite cos_PI2. f_equal; ring.
      * apply He.
  - intros [ZU ZV]. destruct (corner_ring sc st (sph_pos r sc st) _ Hst Hpos t U V (nth_error_In _ _ Ea) He) as [(i & Hi & RU) (k & Hk & RV_)].
    apply (bottom_unshared sc st ltac:(lia) (sph_pos r sc st) _ Hst Hpos Hsc) with (t := t); auto.
    + intros i0 j0 j' Hi0 Hj0 Hj' Q. apply (sph_row r sc st i0 (st - 1) j0 j'); auto; lra || lia.
    + intros j0 j' Hj0 Hj'. apply gpos_row_inj; [lia| |exact Hj0|exact Hj']. apply sph_xy; [lra|auto].
    + apply (Zrow i); auto.
    + apply (Zrow k); auto.
Qed.
Print Assumptions C142_sphere_boundary.
(** For the torus the mesh is open along the last ring and along the whole first ring: an edge is on one triangle only
    if and only if both ends are on the last ring or one end is on the first (the top circle, height tubeRadius). *)
Theorem C142_torus_boundary (c : vec XR) R0 r sc st : 0 < r < R0 -> (3 <= sc)%Z -> (2 <= st)%Z -> (st * (sc + 1) <= 2 ^ 32)%Z ->
  exists m, torusConstruct XT c (Fin R0) (Fin r) sc st = Ok m /\
    let on_ring i W := exists j, (0 <= j <= sc)%Z /\ zget (mVertices m) (i * (sc + 1) + j) = Ok (fv W) in
    forall a t U V, nth_error (triangles_of (mIndices m)) a = Some t -> has_edge (posn (mVertices m)) t U V ->
      (~ shared (posn (mVertices m)) (triangles_of (mIndices m)) a U V <->
        (on_ring (st - 1)%Z U /\ on_ring (st - 1)%Z V) \/ on_ring 0%Z U \/ on_ring 0%Z V).
Proof.
  intros Hr Hsc Hst Hl. destruct (torus_value c R0 r sc st ltac:(lia) Hst Hl) as (m & E & L & HI & HV & _).
  exists m. split; [exact E|]. cbv zeta. rewrite HI, triangles_flat3. intros a t U V Ea He.
  assert (Hpos : forall i j, (0 <= i < st)%Z -> (0 <= j <= sc)%Z -> posn (mVertices m) (at_ sc i j) = tor_pos R0 r sc st i j) by (intros i j Hi Hj; apply posn_fv, HV; auto).
  assert (Hwrap : forall i, (0 <= i < st)%Z -> tor_pos R0 r sc st i sc = tor_pos R0 r sc st i 0).
  { intros i Hi. rewrite !tor_tvec. unfold tvec. destruct (vang_wrap sc ltac:(lia)) as [-> ->]. rewrite vang_0, cos_0, sin_0. reflexivity. }
  assert (RR : forall i W, (0 <= i < st)%Z -> (exists j, (0 <= j <= sc)%Z /\ zget (mVertices m) (i * (sc + 1) + j) = Ok (fv W)) <-> ring sc (tor_pos R0 r sc st) i W).
  { intros i W Hi. split; intros (j & Hj & Q); exists j; (split; [auto|]).
    - rewrite HV in Q by auto. symmetry. apply fv_inj. congruence.
    - subst W. apply HV; auto. }
  rewrite !RR by lia.
  assert (Col : forall i j j', (0 <= j <= sc)%Z -> (0 <= j' <= sc)%Z -> tor_pos R0 r sc st i j = tor_pos R0 r sc st i j' -> j = j' \/ Z.abs (j - j') = sc).
  { intros i j j' Hj Hj'. apply gpos_row_inj; [lia| |exact Hj|exact Hj']. apply tor_xy; auto. }
  split.
  - intros N. destruct (grid_shared sc st ltac:(lia) (tor_pos R0 r sc st) _ Hst Hpos Hwrap a t U V Ea He) as [S|[(j & Hj & C)|(j & Hj & -> & C)]].
    + contradiction.
    + left. destruct C as [[-> ->]|[-> ->]]; (split; [|]); first [exists j; split; [lia|reflexivity] | exists (j + 1)%Z; split; [lia|reflexivity]].
    + right. assert (X : ring sc (tor_pos R0 r sc st) 0 (tor_pos R0 r sc st 0 (j + 1))) by (exists (j + 1)%Z; split; [lia|reflexivity]).
      destruct C as [[[-> ->]|[-> ->]]|[[-> ->]|[-> ->]]]; auto.
  - assert (Top : forall U V, has_edge (posn (mVertices m)) t U V -> ring sc (tor_pos R0 r sc st) 0 U -> ~ shared (posn (mVertices m)) (grid_tris sc st) a U V).
    { intros U' V' He' RU. apply (top_unshared sc st ltac:(lia) (tor_pos R0 r sc st) _ Hst Hpos) with (t := t); auto.
      - intros i0 j0 j' Hi0 Hj0 Hj' Q. apply (tor_row R0 r sc st i0 0 j0 j'); auto; lia.
      - intros j0 j' Hj0 Hj'. apply Col; auto. }
    intros [[RU RV_]|[RU|RV_]].
    + apply (bottom_unshared sc st ltac:(lia) (tor_pos R0 r sc st) _ Hst Hpos Hsc) with (t := t); auto.
      * intros i0 j0 j' Hi0 Hj0 Hj' Q. apply (tor_row R0 r sc st i0 (st - 1) j0 j'); auto; lia.
      * intros j0 j' Hj0 Hj'. apply Col; auto.
    + apply Top; auto.
    + intros S. apply (Top V U); [apply has_edge_sym; auto|auto|apply shared_sym; auto].
Qed.
Print Assumptions C142_torus_boundary.

(** On the octahedron-like mesh (4 sectors, 2 stacks) both cases occur: the equator is open, the edges from the pole are not. *)
Example C142_nonvacuous (c : vec XR) : exists m t, sphereConstruct XT c (Fin 1) 4 2 = Ok m /\ nth_error (triangles_of (mIndices m)) 0%nat = Some t /\
  let pos := posn (mVertices m) in let tris := triangles_of (mIndices m) in
  has_edge pos t (RV 1 0 0) (RV 0 1 0) /\ ~ shared pos tris 0%nat (RV 1 0 0) (RV 0 1 0) /\
  has_edge pos t (RV 0 0 1) (RV 1 0 0) /\ shared pos tris 0%nat (RV 0 0 1) (RV 1 0 0).
Proof.
  destruct (C142_sphere_boundary c 1 4 2 ltac:(lra) ltac:(lia) ltac:(lia) ltac:(lia)) as (m & E & B).
  destruct (sphere_value c 1 4 2 ltac:(lia) ltac:(lia) ltac:(lia)) as (m' & E' & _ & HI & HV & _).
  assert (m' = m) by congruence. subst m'. clear E'.
  assert (Ht : nth_error (triangles_of (mIndices m)) 0%nat = Some (1, 5, 6)%Z) by (rewrite HI, triangles_flat3; reflexivity).
  exists m, (1, 5, 6)%Z. split; [exact E|]. split; [exact Ht|]. cbv zeta. specialize (B 0%nat).
  assert (T0 : sph_angle 2 0 = PI / 2) by (unfold sph_angle; ring). assert (T1 : sph_angle 2 1 = 0) by (unfold sph_angle; field).
  assert (P1 : posn (mVertices m) 1 = RV 0 0 1).
  { rewrite (posn_fv (mVertices m) 1 (sph_pos 1 4 2 0 1)) by (apply (HV 0%Z 1%Z); lia). rewrite sph_svec, T0. unfold svec. rewrite cos_PI2, sin_PI2. f_equal; ring. }
  assert (P5 : posn (mVertices m) 5 = RV 1 0 0).
  { rewrite (posn_fv (mVertices m) 5 (sph_pos 1 4 2 1 0)) by (apply (HV 1%Z 0%Z); lia). rewrite sph_svec, T1, vang_0. unfold svec. rewrite cos_0, sin_0. f_equal; ring. }
  assert (P6 : posn (mVertices m) 6 = RV 0 1 0).
  { rewrite (posn_fv (mVertices m) 6 (sph_pos 1 4 2 1 1)) by (apply (HV 1%Z 1%Z); lia). rewrite sph_svec, T1. unfold svec.
    replace (vang 4 1) with (PI / 2) by (unfold vang; field). rewrite cos_0, sin_0, cos_PI2, sin_PI2. f_equal; ring. }
  assert (H1 : has_edge (posn (mVertices m)) (1, 5, 6)%Z (RV 1 0 0) (RV 0 1 0)).
  { split; [intros Q; injection Q; lra|]. split; [exists 5%Z|exists 6%Z]; (split; [unfold corner; auto|auto]). }
  assert (H2 : has_edge (posn (mVertices m)) (1, 5, 6)%Z (RV 0 0 1) (RV 1 0 0)).
  { split; [intros Q; injection Q; lra|]. split; [exists 1%Z|exists 5%Z]; (split; [unfold corner; auto|auto]). }
  split; [exact H1|]. split; [apply (B (1, 5, 6)%Z _ _ Ht H1); cbn [rz]; rewrite cos_PI2; lra|]. split; [exact H2|].
  destruct (Classical_Prop.classic (shared (posn (mVertices m)) (triangles_of (mIndices m)) 0%nat (RV 0 0 1) (RV 1 0 0))) as [S|N]; [exact S|].
  apply (B (1, 5, 6)%Z _ _ Ht H2) in N. cbn [rz] in N. rewrite cos_PI2 in N. lra.
Qed.

(** ** C143 *)
(** Every triangle of the sphere mesh is seen counterclockwise from outside; in particular none is degenerate. *)
Theorem C143_sphere_outward (c : vec XR) r sc st : 0 < r -> (3 <= sc)%Z -> (2 <= st)%Z -> (st * (sc + 1) <= 2 ^ 32)%Z ->
  exists m, sphereConstruct XT c (Fin r) sc st = Ok m /\
    forall i j k, In (i, j, k) (triangles_of (mIndices m)) ->
      0 < det3 (posn (mVertices m) i) (posn (mVertices m) j) (posn (mVertices m) k).
Proof.
  intros Hr Hsc Hst Hl. destruct (sphere_value c r sc st ltac:(lia) Hst Hl) as (m & E & L & HI & HV & _).
  exists m. split; [exact E|]. rewrite HI, triangles_flat3. intros x y z Ht.
  assert (Hpos : forall i j, (0 <= i < st)%Z -> (0 <= j <= sc)%Z -> posn (mVertices m) (at_ sc i j) = sph_pos r sc st i j) by (intros i j Hi Hj; apply posn_fv, HV; auto).
  assert (0 < r * r * r) by (apply Rmult_lt_0_compat; [apply Rmult_lt_0_compat|]; auto).
  apply tris_kind in Ht; [|lia]. destruct Ht as (i & j & Hj & [[Q Hi]|[Q Hi]]); unfold TA, TB in Q; injection Q as -> -> ->; rewrite !Hpos, !sph_svec by lia.
  - rewrite det_B. pose proof (sin_sector sc j Hsc). pose proof (sin_sph st i Hst). pose proof (cos_sph st (i + 1) ltac:(lia)).
    apply Rmult_lt_0_compat; auto. apply Rmult_lt_0_compat; auto. apply Rmult_lt_0_compat; auto.
  - rewrite det_A. pose proof (sin_sector sc j Hsc). pose proof (sin_sph st i Hst). pose proof (cos_sph st i ltac:(lia)).
    apply Rmult_lt_0_compat; auto. apply Rmult_lt_0_compat; auto. apply Rmult_lt_0_compat; auto.
Qed.
Print Assumptions C143_sphere_outward.
(** The normal of every triangle of the torus mesh has a positive component along the outward direction at all three corners. *)
Theorem C143_torus_outward (c : vec XR) R0 r sc st : 0 < r < R0 -> (3 <= sc)%Z -> (3 <= st)%Z -> (st * (sc + 1) <= 2 ^ 32)%Z ->
  exists m, torusConstruct XT c (Fin R0) (Fin r) sc st = Ok m /\
    forall i j k, In (i, j, k) (triangles_of (mIndices m)) ->
      let p := posn (mVertices m) in let n := tri_normal (p i) (p j) (p k) in
      0 < rdot n (torus_out R0 (p i)) /\ 0 < rdot n (torus_out R0 (p j)) /\ 0 < rdot n (torus_out R0 (p k)).
Proof.
  intros Hr Hsc Hst Hl. destruct (torus_value c R0 r sc st ltac:(lia) ltac:(lia) Hl) as (m & E & L & HI & HV & _).
  exists m. split; [exact E|]. rewrite HI, triangles_flat3. intros x y z Ht. cbv zeta.
  assert (Hpos : forall i j, (0 <= i < st)%Z -> (0 <= j <= sc)%Z -> posn (mVertices m) (at_ sc i j) = tor_pos R0 r sc st i j) by (intros i j Hi Hj; apply posn_fv, HV; auto).
  assert (0 < r * r) by (apply Rmult_lt_0_compat; lra).
  apply tris_kind in Ht; [|lia]. destruct Ht as (i & j & Hj & [[Q Hi]|[Q Hi]]); unfold TA, TB in Q; injection Q as -> -> ->; rewrite !Hpos, !tor_tvec by lia;
    rewrite !out_t by (apply rho_pos; auto).
  - destruct (tor_B R0 r (tor_angle st i) (tor_angle st (i + 1)) (vang sc j) (vang sc (j + 1))) as (K1 & K2 & K3). unfold tout in *. rewrite K1, K2, K3.
    pose proof (sin_sector sc j Hsc). pose proof (sin_tor st i Hst). pose proof (rho_pos R0 r (tor_angle st (i + 1)) Hr).
    repeat split; (apply Rmult_lt_0_compat; auto; apply Rmult_lt_0_compat; auto; apply Rmult_lt_0_compat; auto).
  - destruct (tor_A R0 r (tor_angle st i) (tor_angle st (i + 1)) (vang sc j) (vang sc (j + 1))) as (K1 & K2 & K3). unfold tout in *. rewrite K1, K2, K3.
    pose proof (sin_sector sc j Hsc). pose proof (sin_tor st i Hst). pose proof (rho_pos R0 r (tor_angle st i) Hr).
    repeat split; (apply Rmult_lt_0_compat; auto; apply Rmult_lt_0_compat; auto; apply Rmult_lt_0_compat; auto).
Qed.
Print Assumptions C143_torus_outward.
(** the triangles of the smallest such meshes *)
Example C141_143_nonvacuous : exists l, gridIndices 3 3 = Ok l /\ length (triangles_of l) = 9%nat /\ length (flat_map sides (triangles_of l)) = 27%nat /\
  In (1, 4, 5)%Z (triangles_of l) /\ In (4, 8, 5)%Z (triangles_of l).
Proof. eexists. split; [vm_compute; reflexivity|]. vm_compute. tauto. Qed.
Example det3_nonvacuous : det3 (RV 1 0 0) (RV 0 1 0) (RV 0 0 1) = 1 /\ det3 (RV 0 1 0) (RV 1 0 0) (RV 0 0 1) = -1.
Proof. unfold det3. cbn [rx ry rz]. split; ring. Qed.

(** ** C144 *)
(** The normals of the torus mesh are the positions divided by radius. *)
Theorem C144_torus_normals (c : vec XR) R0 r sc st : R0 <> 0 -> (1 <= sc)%Z -> (2 <= st)%Z -> (st * (sc + 1) <= 2 ^ 32)%Z ->
  exists m, torusConstruct XT c (Fin R0) (Fin r) sc st = Ok m /\
    forall k v, zget (mVertices m) k = Ok v -> exists p, v = fv p /\
      zget (mNormals m) k = Ok (Fin (rx p / R0) : XR, Fin (ry p / R0) : XR, Fin (rz p / R0) : XR).
Proof.
  intros HR Hsc Hst Hl. destruct (torus_value c R0 r sc st Hsc Hst Hl) as (m & E & L & _ & HV & HN). specialize (HN HR).
  exists m. split; [exact E|]. intros k v Hk. pose proof (zget_lt _ _ _ Hk) as Hk'. rewrite L in Hk'.
  assert (Hi : (0 <= k / (sc + 1) < st)%Z) by (split; [apply Z.div_pos; lia | apply Z.div_lt_upper_bound; lia]).
  assert (Hj : (0 <= k mod (sc + 1) <= sc)%Z) by (pose proof (Z.mod_pos_bound k (sc + 1) ltac:(lia)); lia).
  assert (Ek : k = (k / (sc + 1) * (sc + 1) + k mod (sc + 1))%Z) by (pose proof (Z_div_mod_eq_full k (sc + 1)); lia).
  revert Hi Hj Ek. generalize (k / (sc + 1))%Z (k mod (sc + 1))%Z. intros i j Hi Hj ->. rewrite (HV i j Hi Hj) in Hk.
  exists (tor_pos R0 r sc st i j). split; [congruence|]. rewrite (HN i j Hi Hj). unfold rscale. cbn [rx ry rz]. unfold Rdiv.
  rewrite !(Rmult_comm (/ R0)). reflexivity.
Qed.
Print Assumptions C144_torus_normals.
(** So the normal of the first vertex of every torus is too long, and it leans away from the outward direction. *)
Theorem C144_torus_normals_refuted (c : vec XR) R0 r sc st : 0 < r -> 0 < R0 -> (1 <= sc)%Z -> (2 <= st)%Z -> (st * (sc + 1) <= 2 ^ 32)%Z ->
  exists m n, torusConstruct XT c (Fin R0) (Fin r) sc st = Ok m /\ zget (mNormals m) 0 = Ok (Fin (rx n) : XR, Fin (ry n) : XR, Fin (rz n) : XR) /\
    rnorm n <> 1 /\ posn (mVertices m) 0 = RV R0 0 r /\ n = RV 1 0 (r / R0) /\
    torus_out R0 (posn (mVertices m) 0) = RV 0 0 r.
Proof.
  intros Hr HR Hsc Hst Hl. destruct (torus_value c R0 r sc st Hsc Hst Hl) as (m & E & L & _ & HV & HN). specialize (HN ltac:(lra)).
  assert (P0 : tor_pos R0 r sc st 0 0 = RV R0 0 r).
  { rewrite tor_tvec. unfold tvec. rewrite vang_0, cos_0, sin_0. replace (tor_angle st 0) with (PI / 2) by (unfold tor_angle; ring). rewrite cos_PI2, sin_PI2. f_equal; ring. }
  pose proof (HV 0%Z 0%Z ltac:(lia) ltac:(lia)) as V0. pose proof (HN 0%Z 0%Z ltac:(lia) ltac:(lia)) as N0. rewrite P0 in V0, N0. cbv zeta in N0.
  exists m, (rscale (/ R0) (RV R0 0 r)). split; [exact E|]. split; [exact N0|].
  assert (Q : rscale (/ R0) (RV R0 0 r) = RV 1 0 (r / R0)) by (unfold rscale; cbn [rx ry rz]; f_equal; field; lra).
  rewrite Q. assert (Pz : posn (mVertices m) 0 = RV R0 0 r) by (apply posn_fv; exact V0).
  assert (0 < r / R0) by (apply Rdiv_lt_0_compat; auto).
  split; [|split; [exact Pz|split; [reflexivity|]]].
  - unfold rnorm, rdot. cbn [rx ry rz]. intros S. apply (f_equal (fun z => z * z)) in S.
    assert (0 < r / R0 * (r / R0)) by (apply Rmult_lt_0_compat; auto). rewrite sqrt_sqrt in S by lra. lra.
  - rewrite Pz. unfold torus_out. cbn [rx ry rz]. rewrite Rmult_0_l, Rplus_0_r, sqrt_square by lra. f_equal; field; lra.
Qed.
Print Assumptions C144_torus_normals_refuted.
