(** The glTF document Export builds (property C175). *)
From Coq Require Import Reals Lra Lia ZArith List String.
From Flocq Require Import Core BinarySingleNaN.
From Verif Require Import Base Arith M_r3 Spec_r3 M_shape Spec_shape M_gltf M_document Spec_document Spec_shape64 P_insphere_err P_b64err P_b64clamp P_meshgeom P_nurbs P_shape P_shape64 P_gltf P_document Props_shape Props_shape64.
Import ListNotations.
Open Scope R_scope.

(** ** What a viewer shows: the vertices rounded to float32, and the triangles of the mesh *)
Theorem C175_shows (mesh : @Mesh B64) : exists d, Export mesh = Ok d /\ forall P I, shows d P I <->
  I = mIndices mesh /\ P = map (fun v : vec B64 => (b32_of_b64 (vx v), b32_of_b64 (vy v), b32_of_b64 (vz v))) (mVertices mesh).
Proof.
  eexists. split; [apply Export_value|]. intros P I. rewrite (Export_shows mesh _ (Export_value mesh)). unfold to32. tauto.
Qed.
Print Assumptions C175_shows.

(** ** The document is valid exactly for meshes with at least one triangle, whole triangles, corners that exist and coordinates
    below the float32 limit *)
Theorem C175_valid (mesh : @Mesh B64) : exists d, Export mesh = Ok d /\ (valid_doc d <->
  mVertices mesh <> [] /\ mIndices mesh <> [] /\ (exists n, List.length (mIndices mesh) = 3 * n)%nat /\
  (forall x, In x (mIndices mesh) -> (0 <= x < Z.of_nat (List.length (mVertices mesh)))%Z /\ x <> (2 ^ 32 - 1)%Z) /\
  (forall (v : vec B64) c, In v (mVertices mesh) -> In c [vx v; vy v; vz v] -> bfin c /\ Rabs (bR c) < lim32)).
Proof.
  eexists. split; [apply Export_value|]. rewrite (Export_valid mesh _ (Export_value mesh)). unfold prim_data. rewrite map_length.
  assert (F : forall c : B64, (bfin c /\ Rabs (bR c) < lim32) <-> is_finite (b32_of_b64 c) = true).
  { intros c. split.
    - intros (Fc & L). apply (b32_finite_iff c Fc). exact L.
    - intros H. assert (Fc : bfin c) by (destruct c; try discriminate; reflexivity). split; [exact Fc|]. apply (b32_finite_iff c Fc). exact H. }
  split.
  - intros (H1 & H2 & H3 & H4 & H5). split; [intros E; apply H1; rewrite E; reflexivity|]. split; [exact H2|]. split; [exact H3|]. split; [exact H4|].
    intros v c Hv Hc. apply F. destruct (H5 (to32 v) (in_map to32 _ _ Hv)) as (X & Y & Z).
    destruct Hc as [<-|[<-|[<-|[]]]]; assumption.
  - intros (H1 & H2 & H3 & H4 & H5). split; [intros E; apply map_eq_nil in E; exact (H1 E)|]. split; [exact H2|]. split; [exact H3|]. split; [exact H4|].
    intros p Hp. apply in_map_iff in Hp. destruct Hp as (v & <- & Hv). unfold to32, finite3.
    split; [|split]; apply F; apply (H5 v); simpl; auto.
Qed.
Print Assumptions C175_valid.

(** ** Spheres: the file is valid, and every position shown is near the point of the sphere it stands for *)
Lemma near_all {A} (l : list A) (f : A -> b32 * b32 * b32) sc st (Q : Z -> Z -> b32 * b32 * b32 -> Prop) : (1 <= sc)%Z ->
  Z.of_nat (List.length l) = (st * (sc + 1))%Z ->
  (forall i j, (0 <= i < st)%Z -> (0 <= j <= sc)%Z -> exists v, zget l (i * (sc + 1) + j)%Z = Ok v /\ Q i j (f v)) ->
  (forall p, In p (map f l) -> exists i j, Q i j p) /\
  (forall i j, (0 <= i < st)%Z -> (0 <= j <= sc)%Z -> exists p, nth_error (map f l) (Z.to_nat (i * (sc + 1) + j)) = Some p /\ Q i j p).
Proof.
  intros Hsc L H. assert (Z2 : forall k v, zget l k = Ok v -> nth_error l (Z.to_nat k) = Some v).
  { intros k v. unfold zget. destruct (k <? 0)%Z; [discriminate|]. destruct (nth_error l (Z.to_nat k)); [|discriminate]. congruence. }
  split.
  - intros p Hp. apply in_map_iff in Hp. destruct Hp as (v & <- & Hv). destruct (In_nth_error _ _ Hv) as (n & En).
    assert (n < List.length l)%nat by (apply nth_error_Some; congruence).
    destruct (grid_index sc st (Z.of_nat n) ltac:(lia) ltac:(lia)) as (i & j & Hi & Hj & K). exists i, j.
    destruct (H i j Hi Hj) as (w & Ew & Qw). apply Z2 in Ew. rewrite <- K, Nat2Z.id in Ew. congruence.
  - intros i j Hi Hj. destruct (H i j Hi Hj) as (w & Ew & Qw). apply Z2 in Ew. exists (f w). split; [|exact Qw].
    rewrite nth_error_map, Ew. reflexivity.
Qed.
Lemma grid_prim (m : @Mesh B64) sc st : (1 <= sc)%Z -> (2 <= st)%Z -> (st * (sc + 1) < 2 ^ 32)%Z -> grid_mesh_ok m sc st ->
  (forall p, In p (map to32 (mVertices m)) -> finite3 p) -> prim_data (map to32 (mVertices m)) (mIndices m).
Proof.
  intros Hsc Hst Hl (L & _ & _ & LI & HI) HF. unfold prim_data. rewrite map_length.
  split. { intros E. apply map_eq_nil in E. rewrite E in L. change (0%Z = (st * (sc + 1))%Z) in L. nia. }
  split. { intros E. rewrite E in LI. change (Z.of_nat (List.length (@nil Z))) with 0%Z in LI. assert (0 <= sc * (st - 2))%Z by (apply Z.mul_nonneg_nonneg; lia). lia. }
  split. { exists (Z.to_nat (sc + 2 * sc * (st - 2))). apply Nat2Z.inj. rewrite LI, Nat2Z.inj_mul, Z2Nat.id by nia. lia. }
  split; [|exact HF]. intros x Hx. specialize (HI x Hx). split; [exact HI|]. rewrite L in HI. lia.
Qed.
Lemma near_fin p x y z e : near32 p x y z e -> finite3 p.
Proof. destruct p as ((a, b), c). intros (H & _). exact H. Qed.
Lemma abs_mul1 a b r : 0 <= r -> Rabs a <= r -> Rabs b <= 1 -> Rabs (a * b) <= r.
Proof.
  intros Hr Ha Hb. rewrite Rabs_mult. rewrite <- (Rmult_1_r r). apply Rmult_le_compat; auto using Rabs_pos.
Qed.
Theorem C175_sphere (G : Trig B64) eps (c : vec B64) (r : B64) rho sc st : trig_acc G eps -> 0 <= eps <= / 1000 ->
  fval r rho -> 0 <= rho <= bpow radix2 127 -> (1 <= sc)%Z -> (2 <= st)%Z -> (st * (sc + 1) < 2 ^ 32)%Z ->
  exists m d P, sphereConstruct G c r sc st = Ok m /\ Export m = Ok d /\ valid_doc d /\ shows d P (mIndices m) /\
    Z.of_nat (List.length P) = (st * (sc + 1))%Z /\
    forall i j, (0 <= i < st)%Z -> (0 <= j <= sc)%Z ->
      let a := PI / 2 - IZR i * PI / IZR st in let b := 2 * PI * IZR j / IZR sc in
      exists p, nth_error P (Z.to_nat (i * (sc + 1) + j)) = Some p /\
        near32 p (rho * cos a * cos b) (rho * cos a * sin b) (rho * sin a) (rho * (4 * eps + / 8388608) + bpow radix2 (-149)).
Proof.
  intros HT He Fr Hr Hsc Hst Hl.
  assert (Hr' : 0 <= rho <= bpow radix2 1000) by (pose proof (bpow_le radix2 127 1000 ltac:(lia)); lra).
  destruct (C148_sphere64 G eps c r rho sc st HT He Fr Hr' Hsc Hst ltac:(lia)) as (m & Em & L & HV).
  destruct (C54_sphere_indices_partial G c r sc st Hsc Hst ltac:(lia)) as (m' & Em' & Hm). assert (m' = m) by congruence. subst m'.
  destruct (near_all (mVertices m) to32 sc st (fun i j p =>
    let a := PI / 2 - IZR i * PI / IZR st in let b := 2 * PI * IZR j / IZR sc in
    near32 p (rho * cos a * cos b) (rho * cos a * sin b) (rho * sin a) (rho * (4 * eps + / 8388608) + bpow radix2 (-149))) Hsc L) as (N1 & N2).
  { intros i j Hi Hj. destruct (HV i j Hi Hj) as (v & Ev & _ & W). exists v. split; [exact Ev|]. cbv zeta.
    assert (K : forall t, Rabs t <= 1 -> Rabs (rho * t) <= rho) by (intros t Ht; apply abs_mul1; [lra|rewrite Rabs_pos_eq; lra|exact Ht]).
    refine (vertex32 v (RV _ _ _) rho eps He Hr _ _ _ W); cbn [rx ry rz]; auto using abs_mul1, abs_cos, abs_sin.
    - apply abs_mul1; [lra|apply K, abs_cos|apply abs_cos].
    - apply abs_mul1; [lra|apply K, abs_cos|apply abs_sin]. }
  exists m. eexists. exists (map to32 (mVertices m)). split; [exact Em|]. split; [apply Export_value|].
  split. { apply (Export_valid m _ (Export_value m)). apply (grid_prim m sc st); auto. intros p Hp. destruct (N1 p Hp) as (i & j & Hp'). eapply near_fin, Hp'. }
  split. { apply (Export_shows m _ (Export_value m)). auto. }
  split; [rewrite map_length; exact L|]. exact N2.
Qed.
Print Assumptions C175_sphere.
Theorem C175_torus (G : Trig B64) eps (c : vec B64) (R0 r : B64) rho0 rho sc st : trig_acc G eps -> 0 <= eps <= / 1000 ->
  fval R0 rho0 -> fval r rho -> 0 <= rho0 -> 0 <= rho -> rho0 + rho <= bpow radix2 127 ->
  (1 <= sc)%Z -> (2 <= st)%Z -> (st * (sc + 1) < 2 ^ 32)%Z ->
  exists m d P, torusConstruct G c R0 r sc st = Ok m /\ Export m = Ok d /\ valid_doc d /\ shows d P (mIndices m) /\
    Z.of_nat (List.length P) = (st * (sc + 1))%Z /\
    forall i j, (0 <= i < st)%Z -> (0 <= j <= sc)%Z ->
      let a := PI / 2 - 2 * PI * IZR i / IZR st in let b := 2 * PI * IZR j / IZR sc in
      exists p, nth_error P (Z.to_nat (i * (sc + 1) + j)) = Some p /\
        near32 p ((rho0 + rho * cos a) * cos b) ((rho0 + rho * cos a) * sin b) (rho * sin a)
          ((rho0 + rho) * (4 * eps + / 8388608) + bpow radix2 (-149)).
Proof.
  intros HT He FR Fr H0 H1 Hr Hsc Hst Hl.
  pose proof (bpow_le radix2 127 999 ltac:(lia)) as B9.
  destruct (C148_torus64 G eps c R0 r rho0 rho sc st HT He FR Fr ltac:(lra) ltac:(lra) Hsc Hst ltac:(lia)) as (m & Em & L & HV).
  destruct (C54_torus_indices_partial G c R0 r sc st Hsc Hst ltac:(lia)) as (m' & Em' & Hm). assert (m' = m) by congruence. subst m'.
  destruct (near_all (mVertices m) to32 sc st (fun i j p =>
    let a := PI / 2 - 2 * PI * IZR i / IZR st in let b := 2 * PI * IZR j / IZR sc in
    near32 p ((rho0 + rho * cos a) * cos b) ((rho0 + rho * cos a) * sin b) (rho * sin a) ((rho0 + rho) * (4 * eps + / 8388608) + bpow radix2 (-149))) Hsc L) as (N1 & N2).
  { intros i j Hi Hj. destruct (HV i j Hi Hj) as (v & Ev & _ & W). exists v. split; [exact Ev|]. cbv zeta.
    assert (K : forall t, Rabs t <= 1 -> Rabs (rho * t) <= rho) by (intros t Ht; apply abs_mul1; [lra|rewrite Rabs_pos_eq; lra|exact Ht]).
    assert (K2 : forall t, Rabs t <= 1 -> Rabs (rho0 + rho * t) <= rho0 + rho).
    { intros t Ht. eapply Rle_trans; [apply Rabs_triang|]. rewrite (Rabs_pos_eq rho0) by lra. specialize (K t Ht). lra. }
    refine (vertex32 v (RV _ _ _) (rho0 + rho) eps He _ _ _ _ W); cbn [rx ry rz]; [lra| | |].
    - apply abs_mul1; [lra|apply K2, abs_cos|apply abs_cos].
    - apply abs_mul1; [lra|apply K2, abs_cos|apply abs_sin].
    - eapply Rle_trans; [apply K, abs_sin|lra]. }
  exists m. eexists. exists (map to32 (mVertices m)). split; [exact Em|]. split; [apply Export_value|].
  split. { apply (Export_valid m _ (Export_value m)). apply (grid_prim m sc st); auto. intros p Hp. destruct (N1 p Hp) as (i & j & Hp'). eapply near_fin, Hp'. }
  split. { apply (Export_shows m _ (Export_value m)). auto. }
  split; [rewrite map_length; exact L|]. exact N2.
Qed.
Print Assumptions C175_torus.

(** ** Circles and ellipses: no file written for one is valid, because the last triangle names a vertex that does not exist *)
Theorem C175_fan_refuted (G : Trig B64) c r a b sc : (1 <= sc < 2 ^ 32 - 1)%Z ->
  exists m m' d d', circleConstruct G c r sc = Ok m /\ ellipseConstruct G c a b sc = Ok m' /\
    Export m = Ok d /\ Export m' = Ok d' /\ ~ valid_doc d /\ ~ valid_doc d'.
Proof.
  intros Hsc. destruct (C57_fan_indices_refuted G c r a b sc Hsc) as (m & m' & E & E' & EI & EL & HI & _).
  exists m, m'. do 2 eexists. split; [exact E|]. split; [exact E'|]. split; [apply Export_value|]. split; [apply Export_value|]. split.
  - intros V. apply (Export_valid m _ (Export_value m)) in V. destruct V as (_ & _ & _ & V & _). rewrite map_length in V. specialize (V _ HI). lia.
  - intros V. apply (Export_valid m' _ (Export_value m')) in V. destruct V as (_ & _ & _ & V & _). rewrite map_length in V. rewrite EI, EL in HI. specialize (V _ HI). lia.
Qed.
Print Assumptions C175_fan_refuted.
(** ** Large spheres: above the float32 limit the north pole is written as an infinity, which the format forbids *)
Theorem C175_large_refuted (G : Trig B64) eps (c : vec B64) (r : B64) rho sc st : trig_acc G eps -> 0 <= eps <= / 1000 ->
  fval r rho -> bpow radix2 129 <= rho <= bpow radix2 1000 -> (1 <= sc)%Z -> (2 <= st)%Z -> (st * (sc + 1) < 2 ^ 32)%Z ->
  exists m d, sphereConstruct G c r sc st = Ok m /\ Export m = Ok d /\ ~ valid_doc d.
Proof.
  intros HT He Fr Hr Hsc Hst Hl. pose proof (bpow_gt_0 radix2 129) as P129.
  destruct (C148_sphere64 G eps c r rho sc st HT He Fr ltac:(lra) Hsc Hst ltac:(lia)) as (m & Em & L & HV).
  exists m. eexists. split; [exact Em|]. split; [apply Export_value|]. intros V.
  apply (Export_valid m _ (Export_value m)) in V. destruct V as (_ & _ & _ & _ & V).
  destruct (HV 0%Z 0%Z ltac:(lia) ltac:(lia)) as (v & Ev & _ & (_ & _ & Fz & W)). cbn [rz] in W.
  assert (Iv : In v (mVertices m)).
  { unfold zget in Ev. destruct (_ <? 0)%Z; [discriminate|]. destruct (nth_error _ _) eqn:N; [|discriminate]. apply nth_error_In in N. congruence. }
  destruct (V (to32 v) (in_map to32 _ _ Iv)) as (_ & _ & Z3).
  assert (Z4 : Rabs (bR (vz v)) < lim32) by (apply b32_finite_iff; [exact Fz|exact Z3]).
  replace (PI / 2 - 0 * PI / IZR st) with (PI / 2) in W by (unfold Rdiv; ring). rewrite sin_PI2, Rmult_1_r in W.
  assert (U : u53 = / 9007199254740992) by apply u_val. rewrite U in W.
  assert (T : 50 * bpow radix2 (-1074) <= bpow radix2 129).
  { pose proof tiny_1074. pose proof (bpow_le radix2 (-150) 129 ltac:(lia)). pose proof (bpow_gt_0 radix2 (-150)). lra. }
  assert (RE : rho * eps <= rho * / 1000) by (apply Rmult_le_compat_l; lra).
  assert (LM : lim32 < bpow radix2 128) by (unfold lim32; pose proof (bpow_gt_0 radix2 103); lra).
  assert (E129 : bpow radix2 129 = 2 * bpow radix2 128) by (change 129%Z with (1 + 128)%Z; rewrite bpow_plus; reflexivity).
  assert (T' : 50 * bpow radix2 (-1074) <= / 8 * bpow radix2 128).
  { pose proof tiny_1074. pose proof (bpow_le radix2 (-150) 125 ltac:(lia)). pose proof (bpow_gt_0 radix2 (-150)).
    assert (bpow radix2 128 = 8 * bpow radix2 125) by (change 128%Z with (3 + 125)%Z; rewrite bpow_plus; reflexivity). lra. }
  unfold bR in Z4. apply Rabs_def2 in Z4. apply Rabs_le_inv in W. lra.
Qed.
Print Assumptions C175_large_refuted.
(** ConstructSphere with radius 1: 90300 positions, each within 2^-22 of the sphere of radius 1 *)
Example C175_nonvacuous (c : vec B64) : exists m d P, ConstructSphere TR c (fofZ B64 1) = Ok m /\ Export m = Ok d /\ valid_doc d /\
  shows d P (mIndices m) /\ Z.of_nat (List.length P) = 90300%Z /\
  exists p, nth_error P 0 = Some p /\ near32 p 0 0 1 (/ 4194304).
Proof.
  pose proof u_pos as U. assert (B : 1 <= bpow radix2 127) by (change 1 with (bpow radix2 0); apply bpow_le; lia).
  destruct (C175_sphere TR (2 * u53) c (fofZ B64 1) 1 300 300 TR_acc ltac:(lra) fval_one ltac:(lra) ltac:(lia) ltac:(lia) ltac:(lia))
    as (m & d & P & E & Ed & V & S & L & H).
  exists m, d, P. split; [exact E|]. split; [exact Ed|]. split; [exact V|]. split; [exact S|]. split; [exact L|].
  destruct (H 0%Z 0%Z ltac:(lia) ltac:(lia)) as (p & Ep & Np). exists p. split; [exact Ep|].
  assert (T : bpow radix2 (-149) <= / 16777216) by (replace (/ 16777216) with (bpow radix2 (-24)) by (simpl; lra); apply bpow_le; lia).
  assert (Uv : u53 = / 9007199254740992) by apply u_val.
  replace (PI / 2 - 0 * PI / 300) with (PI / 2) in Np by (unfold Rdiv; ring). rewrite cos_PI2, sin_PI2, !Rmult_0_r, !Rmult_0_l, Rmult_1_r in Np.
  destruct p as ((x, y), z). destruct Np as (F & N1 & N2 & N3). split; [exact F|]. rewrite Uv in *. split; [|split]; (eapply Rle_trans; [eassumption|lra]).
Qed.
(** one triangle is exported as a valid file; a corner beyond the vertices makes it invalid *)
Definition tri_mesh (k : Z) : @Mesh B64 :=
  mkMesh [@mkvec B64 (b64_of_Z 0) (b64_of_Z 0) (b64_of_Z 0); @mkvec B64 (b64_of_Z 1) (b64_of_Z 0) (b64_of_Z 0); @mkvec B64 (b64_of_Z 0) (b64_of_Z 1) (b64_of_Z 0)] [] [] [0; 1; k]%Z.
Example C175_triangle : (exists d, Export (tri_mesh 2) = Ok d /\ valid_doc d) /\ (exists d, Export (tri_mesh 3) = Ok d /\ ~ valid_doc d).
Proof.
  split; (eexists; split; [apply Export_value|]).
  - apply (Export_valid _ _ (Export_value (tri_mesh 2))). split; [discriminate|]. split; [discriminate|]. split; [exists 1%nat; reflexivity|].
    rewrite map_length. change (Z.of_nat (List.length (mVertices (tri_mesh 2)))) with 3%Z. split; [intros x [<-|[<-|[<-|[]]]]; lia|].
    intros p [<-|[<-|[<-|[]]]]; vm_compute; auto.
  - intros V. apply (Export_valid _ _ (Export_value (tri_mesh 3))) in V. destruct V as (_ & _ & _ & V & _). rewrite map_length in V.
    change (Z.of_nat (List.length (mVertices (tri_mesh 3)))) with 3%Z in V. specialize (V 3%Z (or_intror (or_intror (or_introl eq_refl)))). lia.
Qed.
