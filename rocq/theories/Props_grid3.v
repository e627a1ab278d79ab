(** Property theorems C110-C112: packages predicates and mesh in float64 on grids of space. *)
From Coq Require Import String ZArith Lia List Bool Reals Lra QArith Permutation.
From Flocq Require Import Core BinarySingleNaN.
From Verif Require Import Base Arith M_r3 M_predicates GoMap M_meshing Spec_r3 Spec_sphere Spec_mesh Spec_bw Spec_grid3 XRvec
  P_insphere_b64 P_meshing P_meshorder P_meshgeom P_nurbs P_bw P_b64grid3 Props_meshing Props_bw.
Import ListNotations.
Open Scope Z_scope.

(** C110: the determinants carry no rounding error on a grid k * 2^e.  [okgrid]: |e| <= 130 and the corner of the
    cube within 2^51 steps of the origin; [fin3]: three finite coordinates; [rvec]: their exact values *)
Theorem C110_insphere e ox oy oz (a b c d p : vec B64) : okgrid e ox oy oz ->
  Forall (fun v => fin3 v /\ in_cube e ox oy oz 600 (rvec v)) [a; b; c; d; p] ->
  let r : b64 := InSphereFast a b c d p in
  is_finite r = true /\ B2R r = insphere_det (rvec a) (rvec b) (rvec c) (rvec d) (rvec p).
Proof. intros G. exact (insphere_grid e ox oy oz G a b c d p). Qed.
Print Assumptions C110_insphere.
Theorem C110_orient e ox oy oz (a b c d : vec B64) : okgrid e ox oy oz ->
  Forall (fun v => fin3 v /\ in_cube e ox oy oz 100000 (rvec v)) [a; b; c; d] ->
  let r : b64 := orient3dfast a b c d in
  is_finite r = true /\ B2R r = signed_volume (rvec a) (rvec b) (rvec c) (rvec d).
Proof. intros G. exact (orient_grid e ox oy oz G a b c d). Qed.
Print Assumptions C110_orient.
Lemma zp_grid x y z ox oy oz D : Z.abs x < 2 ^ 53 -> Z.abs y < 2 ^ 53 -> Z.abs z < 2 ^ 53 ->
  ox <= x <= ox + D -> oy <= y <= oy + D -> oz <= z <= oz + D -> fin3 (zp x y z) /\ in_cube 0 ox oy oz D (rvec (zp x y z)).
Proof.
  intros Hx Hy Hz Ix Iy Iz.
  assert (F : forall n, Z.abs n < 2 ^ 53 -> is_finite (b64_of_Z n : b64) = true) by (intros n Hn; apply (bfin_ofZ n Hn)).
  split; [repeat split; apply F; assumption|]. exists x, y, z. repeat (split; [assumption|]).
  unfold rvec, grid_point, grid_number. cbn [vx vy vz zp]. change (bpow radix2 0) with 1%R. rewrite !Rmult_1_r.
  f_equal; apply bR_ofZ; assumption.
Qed.
Example C110_nonvacuous : okgrid 0 0 0 0 /\ Forall (fun v => fin3 v /\ in_cube 0 0 0 0 600 (rvec v)) [zp 0 0 0; zp 600 1 2; zp 7 599 3; zp 11 13 600; zp 200 200 201].
Proof. split; [repeat split; cbn; lia|]. repeat constructor; apply zp_grid; lia. Qed.
(* outside the range of exponents the volume is lost: a corner of a cube of side 2^-400 *)
Definition tiny : B64 := b64_lit 1 (-400).
Lemma tiny_R : is_finite (tiny : b64) = true /\ (0 < B2R (tiny : b64))%R.
Proof.
  split; [vm_compute; reflexivity|]. rewrite <- SF2R_B2SF. replace (B2SF (tiny : b64)) with (SpecFloat.S754_finite false 4503599627370496 (-452)) by (vm_compute; reflexivity).
  unfold SF2R, F2R. cbn [cond_Zopp Fnum Fexp]. apply Rmult_lt_0_compat; [apply IZR_lt; reflexivity|apply bpow_gt_0].
Qed.
Theorem C110_underflow : exists a b c d : vec B64, fin3 a /\ fin3 b /\ fin3 c /\ fin3 d /\
  B2R (orient3dfast a b c d : b64) = 0%R /\ (signed_volume (rvec a) (rvec b) (rvec c) (rvec d) > 0)%R.
Proof.
  destruct tiny_R as [F P]. assert (F0 : bfin (fofZ B64 0)) by reflexivity. assert (R0 : B2R (fofZ B64 0 : b64) = 0%R) by reflexivity.
  exists (mkvec (A:=B64) tiny (fofZ B64 0) (fofZ B64 0)), (mkvec (A:=B64) (fofZ B64 0) tiny (fofZ B64 0)),
    (mkvec (A:=B64) (fofZ B64 0) (fofZ B64 0) tiny), (mkvec (A:=B64) (fofZ B64 0) (fofZ B64 0) (fofZ B64 0)).
  assert (FT : bfin tiny) by exact F. do 4 (split; [unfold fin3; cbn [vx vy vz]; auto|]). split.
  - rewrite <- SF2R_B2SF. match goal with |- SF2R _ (B2SF ?x) = _ => replace (B2SF x) with (SpecFloat.S754_zero false) by (vm_compute; reflexivity) end. reflexivity.
  - unfold signed_volume, rdet3, rsub, rvec. cbn [vx vy vz rx ry rz]. rewrite R0.
    pose proof (Rmult_lt_0_compat _ _ P (Rmult_lt_0_compat _ _ P P)) as C. revert C. generalize (B2R (tiny : b64)). intros x C. lra.
Qed.
Print Assumptions C110_underflow.

(** C111: bowyerWatson in float64 is bowyerWatson over the reals, on a grid cube of side 200 *)
Theorem C111_exact e ox oy oz ordT ordF ordE (points : list (vec B64)) : okgrid e ox oy oz ->
  Forall (fun v => fin3 v /\ in_cube e ox oy oz 200 (rvec v)) points ->
  bowyerWatson ordT ordF ordE points = bowyerWatson ordT ordF ordE (map (fun p => fv (rvec p)) points).
Proof. intros G. exact (bowyerWatson_grid e ox oy oz G ordT ordF ordE points). Qed.
Print Assumptions C111_exact.
Theorem C111_run e ox oy oz ordT ordF ordE (points : list (vec B64)) : okgrid e ox oy oz -> points <> [] ->
  Forall (fun v => fin3 v /\ in_cube e ox oy oz 200 (rvec v)) points ->
  (forall n, order_ok (ordT n)) -> (forall n, order_ok (ordF n)) -> order_ok ordE ->
  exists s1 s2 s3 s4 (T : list quad) tris, NoDup T /\
    (forall p, In p points -> in_tetra s1 s2 s3 s4 (rvec p)) /\
    bw_run (fun j => in_det (s1 :: s2 :: s3 :: s4 :: map rvec points) (nth j (map rvec points) rzero)) 0 (length points)
      (fun q => q = (0, 1, 2, 3)) (fun q => In q T) /\
    bowyerWatson ordT ordF ordE points = Ok (flatten tris) /\
    Permutation tris (map renumber (filter outer (flat_map quad_faces T))).
Proof. exact (bowyerWatson_grid_run e ox oy oz ordT ordF ordE points). Qed.
Print Assumptions C111_run.
Example C111_nonvacuous : okgrid 0 0 0 0 /\ Forall (fun v => fin3 v /\ in_cube 0 0 0 0 200 (rvec v)) five.
Proof. split; [repeat split; cbn; lia|]. repeat constructor; apply zp_grid; lia. Qed.

(** C112: the initial tetrahedron in float64 *)
Theorem C112_grid e ox oy oz (points : list (vec B64)) : okgrid e ox oy oz -> points <> [] ->
  Forall (fun v => fin3 v /\ in_cube e ox oy oz (2 ^ 18) (rvec v)) points ->
  exists t p1 p2 p3 p4, englobe points = (t, p1 :: p2 :: p3 :: p4 :: points) /\ fin3 p1 /\ fin3 p2 /\ fin3 p3 /\ fin3 p4 /\
    forall p, In p points -> in_tetra (rvec p1) (rvec p2) (rvec p3) (rvec p4) (rvec p).
Proof. intros G. exact (englobe_grid e ox oy oz G points). Qed.
Print Assumptions C112_grid.
(* the points (0,0,0) and (0.7,0.7,0.7): 3 * 0.7 is rounded down, the second point is outside *)
Definition origin64 : vec B64 := mkvec (A:=B64) (fofZ B64 0) (fofZ B64 0) (fofZ B64 0).
Definition p07 : vec B64 := mkvec (A:=B64) (fofQ B64 (7 # 10)) (fofQ B64 (7 # 10)) (fofQ B64 (7 # 10)).
Theorem C112_refuted : exists t p1 p2 p3 p4, englobe [origin64; p07] = (t, [p1; p2; p3; p4; origin64; p07]) /\
  fin3 p1 /\ fin3 p2 /\ fin3 p3 /\ fin3 p4 /\ fin3 p07 /\ ~ in_tetra (rvec p1) (rvec p2) (rvec p3) (rvec p4) (rvec p07).
Proof.
  unfold englobe. destruct (computerInitialTetraPoints (findExtremas [origin64; p07])) as [[[p1 p2] p3] p4] eqn:E.
  assert (E' : let '(p1, p2, p3, p4) := computerInitialTetraPoints (findExtremas [origin64; p07]) in
    (sf (vx p1), sf (vy p1), sf (vz p1), (sf (vx p2), sf (vy p2), sf (vz p2)), (sf (vx p3), sf (vy p3), sf (vz p3)), (sf (vx p4), sf (vy p4), sf (vz p4)), sf (vx p07))
    = let z := SpecFloat.S754_zero false in let b := SpecFloat.S754_finite false 4728779608739020 (-51) in
      (z, z, z, (b, z, z), (z, b, z), (z, z, b), SpecFloat.S754_finite false 6305039478318694 (-53))) by (vm_compute; reflexivity).
  rewrite E in E'. cbv zeta in E'. do 5 eexists. split; [reflexivity|].
  assert (S : forall (x : B64) m ex, sf x = SpecFloat.S754_finite false m ex -> bfin x /\ B2R (x : b64) = (IZR (Zpos m) * bpow radix2 ex)%R).
  { intros x m ex Hx. split; [unfold bfin; rewrite <- is_finite_SF_B2SF; unfold sf in Hx; rewrite Hx; reflexivity|].
    rewrite <- SF2R_B2SF. unfold sf in Hx. rewrite Hx. reflexivity. }
  assert (S0 : forall (x : B64), sf x = SpecFloat.S754_zero false -> bfin x /\ B2R (x : b64) = 0%R).
  { intros x Hx. split; [unfold bfin; rewrite <- is_finite_SF_B2SF; unfold sf in Hx; rewrite Hx; reflexivity|].
    rewrite <- SF2R_B2SF. unfold sf in Hx. rewrite Hx. reflexivity. }
  pose proof (f_equal (fun q => snd q) E') as X7. cbv beta in X7. cbn [snd] in X7. apply S in X7. destruct X7 as [F7 X7].
  assert (E2 := f_equal (fun q => fst q) E'). cbn [fst] in E2. clear E'.
  assert (E3 := f_equal (fun q => fst q) E2). assert (V4 := f_equal (fun q => snd q) E2). cbn [fst snd] in E3, V4. clear E2.
  assert (E4 := f_equal (fun q => fst q) E3). assert (V3 := f_equal (fun q => snd q) E3). cbn [fst snd] in E4, V3. clear E3.
  assert (V1 := f_equal (fun q => fst q) E4). assert (V2 := f_equal (fun q => snd q) E4). cbn [fst snd] in V1, V2. clear E4.
  assert (T : forall (x y z a b c : SpecFloat.spec_float), (x, y, z) = (a, b, c) -> x = a /\ y = b /\ z = c) by (intros; split; [|split]; congruence).
  apply T in V1, V2, V3, V4. destruct V1 as (A1 & A2 & A3), V2 as (B1 & B2 & B3), V3 as (C1 & C2 & C3), V4 as (D1 & D2 & D3).
  apply S0 in A1, A2, A3, B2, B3, C1, C3, D1, D2. apply S in B1, C2, D3.
  destruct A1 as [? A1], A2 as [? A2], A3 as [? A3], B1 as [? B1], B2 as [? B2], B3 as [? B3], C1 as [? C1], C2 as [? C2], C3 as [? C3], D1 as [? D1], D2 as [? D2], D3 as [? D3].
  do 5 (split; [repeat split; assumption|]).
  intros (l1 & l2 & l3 & l4 & L1 & L2 & L3 & L4 & L & P). unfold combine4, radd, rscale, rvec in P. cbn [rx ry rz] in P.
  assert (T3 : forall a b c a' b' c', RV a b c = RV a' b' c' -> a = a' /\ b = b' /\ c = c') by (intros; split; [|split]; congruence).
  apply T3 in P. destruct P as (P1 & P2 & P3). unfold p07 in P1, P2, P3. cbn [vx vy vz] in P1, P2, P3. unfold p07 in X7. cbn [vx] in X7.
  rewrite A1, B1, C1, D1, X7 in P1. rewrite A2, B2, C2, D2, X7 in P2. rewrite A3, B3, C3, D3, X7 in P3.
  replace (-51) with (2 + -53) in P1, P2, P3 by reflexivity. rewrite bpow_plus in P1, P2, P3. pose proof (bpow_gt_0 radix2 (-53)) as W.
  set (w := bpow radix2 (-53)) in *. change (bpow radix2 2) with 4%R in *.
  assert (Q : (3 * 6305039478318694 = (l2 + l3 + l4) * 4728779608739020 * 4)%R) by (apply Rmult_eq_reg_r with w; lra).
  lra.
Qed.
Print Assumptions C112_refuted.
