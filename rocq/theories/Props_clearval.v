(** Property theorem C163: in binary64, on inputs clear of rounding errors, both hulls agree and Validate accepts the result
    of Triangulate as long as the accumulated rounding errors stay below its tolerance. *)
From Coq Require Import ZArith Lia List Bool Reals Lra Permutation QArith.
From Flocq Require Import Core BinarySingleNaN.
From Verif Require Import Base Arith M_r3 M_tri2 M_triangulator Spec_r3 Spec_plane Spec_halfedge Spec_delaunay Spec_acc64 Spec_sum64 Spec_clear Spec_circ64 Spec_cleartri XRvec
  P_tri2 P_polygon P_hull P_hullset Props_hullset P_delcomp P_validate P_leg P_legmodel P_tstate P_addtri P_ringops P_insstep P_ring P_insert P_init P_triang P_result P_flipterm P_insphere_err P_insphere_b64 P_b64sc P_b64hash P_b64triang P_b64hull P_b64valid P_hulltri P_acc64 P_sum64 P_clearhull
  P_outcome64 P_cleartri P_clearchk Props_triangulator Props_tiling Props_grid Props_grid2 Props_delcomp Props_acc64 Props_sum64 Props_clearhull Props_cleartri.
Import ListNotations.
Open Scope R_scope.

(** ** the two hulls *)
Lemma hulls_clear srt srt2 vs t : clear_ok srt vs -> returns64 srt vs t false -> vs <> [] -> separated (values vs) -> sorts lessXY vs (srt2 vs) ->
  exists h2 h1 h3, ConvexHull srt2 vs = Ok h2 /\ incl h2 vs /\ incl (tConvexHull t) vs /\ tConvexHull t <> [] /\
    values (tConvexHull t) = h1 ++ h3 /\ values h2 = h3 ++ h1 /\ (length (tConvexHull t) <= length vs)%nat /\
    (Z.of_nat (length (triples (tTriangles t))) + Z.of_nat (length (tConvexHull t)) = 2 * Z.of_nat (length (nodup Z.eq_dec (tTriangles t))) - 2)%Z.
Proof.
  intros H Ret NE Sep Hs. destruct (outcome srt vs (clear_done srt vs H)) as (t' & err' & Rt & TP & [(O & Er & T0 & H0 & C0)|(NL & Ee & s & V & R & i0 & i1 & i2 & hs & I & RS & ET & EH & EC & Bd & LI & IV & IE & Cov)]);
    destruct (returns64_fun _ _ _ _ _ _ Ret Rt) as [E1 E2]; subst t' err'; clear Rt.
  { exfalso. destruct Er as [_ Er]. destruct (le_lt_dec 2 (length vs)) as [Q|Q]; [specialize (Er Q); discriminate|].
    destruct H as (_ & _ & _ & L1 & _). destruct vs as [|a [|b l]]; simpl in *; try lia; contradiction. }
  destruct H as (GS & Hv & Hc & L1 & Big).
  destruct (hull_clear vs Hv (ct_points _ Hc) srt2 Hs) as (h2 & srtX & Eh2 & I2 & So & EX).
  assert (NEv : values vs <> []) by (intros Q; apply NE; destruct vs; [auto|discriminate]).
  assert (Cov' : forall i, (0 <= i < Z.of_nat (length (values vs)))%Z -> exists v, In v V /\ rdist2 (PP (values vs) i) (PP (values vs) v) < epsR).
  { rewrite len_values. exact Cov. }
  destruct (hulls_rest (values vs) i0 i1 i2 hs s V R I srtX RS Bd LI IV IE Cov' NEv Sep So) as (h1 & h3 & E13 & EC2).
  assert (Ev : values h2 = h3 ++ h1). { apply map_fv_inj. unfold values in *. congruence. }
  exists h2, h1, h3. split; auto. split; auto.
  assert (IR : forall v, In v I -> (0 <= v < Z.of_nat (length vs))%Z).
  { intros v Hi. rewrite <- (len_values vs). apply (r_range _ _ _ _ _ _ _ _ RS); auto. }
  split; [|split; [|split; [|split; [exact Ev|split]]]].
  - rewrite EC. intros x Hx. apply in_map_iff in Hx. destruct Hx as (v & <- & Hi). apply V_In. rewrite <- len_gpts. auto.
  - rewrite EC. destruct I as [|v I]; [|discriminate]. exfalso. destruct R as [|r R].
    + destruct (w_hull _ _ (r_wfs _ _ _ _ _ _ _ _ RS)) as (x & _ & []).
    + discriminate LI.
  - rewrite <- E13, EC. unfold values. rewrite map_map. apply map_ext_in. intros v Hi. specialize (IR v Hi).
    rewrite point_PP by lia. symmetry. apply (PP_V vs).
  - rewrite EC, map_length. apply NoDup_range_length; [apply Bd|exact IR].
  - rewrite ET, EC, map_length, LI. pose proof (res_count _ i0 i1 i2 _ s V R RS). lia.
Qed.
Theorem C163_hulls_agree srt srt2 vs t : clear_ok srt vs -> returns64 srt vs t false -> vs <> [] -> separated (values vs) -> sorts lessXY vs (srt2 vs) ->
  exists h2 h1 h3, ConvexHull srt2 vs = Ok h2 /\ values (tConvexHull t) = h1 ++ h3 /\ values h2 = h3 ++ h1.
Proof. intros A B C D E. destruct (hulls_clear srt srt2 vs t A B C D E) as (h2 & h1 & h3 & X & _ & _ & _ & Y & Z & _). exists h2, h1, h3. auto. Qed.
Print Assumptions C163_hulls_agree.

(** ** the verdict *)
Lemma polygon_terms_rot l1 l2 : polygon_terms (l1 ++ l2) = polygon_terms (l2 ++ l1).
Proof. unfold polygon_terms. rewrite !(edges_psum (fun a b => Rabs (rx a - rx b) * Rabs (ry a + ry b))), close_rot_app. reflexivity. Qed.
Lemma perimeter_rot l1 l2 : perimeter3 (l1 ++ l2) = perimeter3 (l2 ++ l1).
Proof. unfold perimeter3. rewrite !(edges_psum rdist), close_rot_app. reflexivity. Qed.
Lemma within (x y : b64) r s e f : is_finite x = true -> is_finite y = true -> Rabs (B2R x - r) <= e -> Rabs (B2R y - s) <= f -> r = s -> e + f <= / 2 ^ 30 ->
  flt B64 tol64 (fabs B64 (fsub B64 x y)) = false.
Proof.
  intros Fx Fy Ex Ey -> L. destruct tol64_val as (Ft & Vt). apply (close_passes x y tol64 (B2R x) (B2R y) (-30)); auto; try lia; [split; auto|split; auto|].
  change (bpow radix2 (-30)) with (/ IZR (2 ^ 30)). apply Rabs_le_inv in Ex, Ey. replace (IZR (2 ^ 30)) with (2 ^ 30) by (rewrite pow_IZR; reflexivity). apply Rabs_le. lra.
Qed.
(** m vertices on the hull, k triangles: Validate accepts when the error bounds of C159 stay below 2^-30 *)
Theorem C163_validate_accepts srt srt2 vs t : clear_ok srt vs -> returns64 srt vs t false -> vs <> [] -> separated (values vs) -> sorts lessXY vs (srt2 vs) ->
  let h := values (tConvexHull t) in let m := length (tConvexHull t) in let k := length (triples (tTriangles t)) in
  (Z.of_nat m <= 2 ^ 49)%Z -> (Z.of_nat k <= 2 ^ 49)%Z ->
  2 * (gamma (m + 3) * polygon_terms h) <= / 2 ^ 30 ->
  gamma (m + 3) * polygon_terms h + gamma (k + 4) * triangle_terms (values vs) (tTriangles t) <= / 2 ^ 30 ->
  2 * (gamma (m + 6) * perimeter3 h) <= / 2 ^ 30 ->
  Validate srt2 t = Ok true.
Proof.
  intros H Ret NE Sep Hs. cbv zeta. intros Lm Lk B1 B2 B3.
  destruct (hulls_clear srt srt2 vs t H Ret NE Sep Hs) as (h2 & h1 & h3 & E2 & I2 & It & Nt & Eh & Eh2 & _).
  pose proof (C161_well_formed srt vs t false H Ret) as (Pd & Rg & Or & _).
  destruct (C161_hull srt vs t false H Ret) as (I & EI & _ & _ & _ & Ar).
  assert (TV : tVectors t = vs).
  { destruct (C161_returns srt vs H) as (t' & err' & Ret' & TV & _). destruct (returns64_fun _ _ _ _ _ _ Ret Ret') as [<- _]. auto. }
  destruct H as (_ & Hv & _). destruct (pr_whole _ _ Pd) as (k & Hk). destruct t as [v c T Hf]. cbn [tVectors tConvexHull tTriangles tHalfedges] in *. subst v. clear Ret.
  assert (Kk : length (triples T) = k) by (apply triples_length; exact Hk). rewrite Kk in *.
  assert (Len2 : length h2 = length c). { rewrite <- (map_length rvec h2), <- (map_length rvec c). change (map rvec h2) with (values h2). change (map rvec c) with (values c). rewrite Eh, Eh2, !app_length. lia. }
  assert (Tw : twins Hf).
  { intros i j Hi Hj. assert (Bi : (i < length Hf)%nat) by (apply nth_error_Some; congruence). rewrite (pr_len _ _ Pd) in Bi.
    assert (Ei : entry Hf (Z.of_nat i) = j) by (unfold entry; rewrite Nat2Z.id; apply nth_error_nth; auto).
    destruct (pr_twin _ _ Pd (Z.of_nat i) ltac:(lia)) as [Q|(Q1 & Q2 & _)]; [rewrite Ei in Q; contradiction|].
    rewrite Ei in Q1, Q2. split; [lia|]. unfold entry in Q2. rewrite <- Q2. apply nth_error_nth'. rewrite (pr_len _ _ Pd). lia. }
  assert (Txy : forall l, incl l vs -> forall v, In v l -> tame_xy v) by (intros l Il v Hl; apply tame_vec_xy, Hv, Il, Hl).
  destruct (C159_polygonArea c (Txy c It) Lm) as (x1 & A1 & F1 & G1 & _). destruct (C159_polygonArea h2 (Txy h2 I2) ltac:(lia)) as (x2 & A2 & F2 & G2 & _).
  destruct (C159_triArea vs c T Hf k (Txy vs (incl_refl _)) Hk Rg Lk) as (x3 & A3 & F3 & G3 & _).
  destruct (C159_perimeter c (fun v Q => Hv v (It v Q)) Lm) as (y1 & P1 & (FP1 & Q1 & _) & _). destruct (C159_perimeter h2 (fun v Q => Hv v (I2 v Q)) ltac:(lia)) as (y2 & P2 & (FP2 & Q2 & _) & _).
  unfold Validate. cbn [tHalfedges tVectors tConvexHull]. apply validate_halfedges_iff in Tw. rewrite Tw. cbn [rbind negb]. rewrite E2. cbn [rbind]. rewrite A1, A2, A3. cbn [rbind]. rewrite P1, P2. cbn [rbind].
  change (fofQ B64 (1 # 1000000000)) with tol64. rewrite Len2 in G2, Q2. rewrite Eh2 in G2, Q2. rewrite shoelace_rot, polygon_terms_rot, <- Eh in G2. rewrite perimeter_rot, <- Eh in Q2.
  rewrite (within x1 x2 _ _ _ _ F1 F2 G1 G2 eq_refl) by lra. rewrite (within x1 x3 _ _ _ _ F1 F3 G1 G3); [|change (values c) with (map rvec c); rewrite EI; symmetry; exact Ar|exact B2]. cbn [orb].
  rewrite (within y1 y2 _ _ _ _ FP1 FP2 Q1 Q2 eq_refl) by lra. reflexivity.
Qed.
Print Assumptions C163_validate_accepts.
Lemma Rsum_bound {X} (f : X -> R) l B : (forall x, In x l -> f x <= B) -> Spec_plane.Rsum (map f l) <= INR (length l) * B.
Proof.
  induction l as [|x l IH]; intros H; [simpl; lra|]. cbn [map Spec_plane.Rsum length]. rewrite S_INR. pose proof (H x (or_introl eq_refl)). assert (Spec_plane.Rsum (map f l) <= INR (length l) * B) by (apply IH; intros y Hy; apply H; right; auto). lra.
Qed.
Lemma pe_In (l : list rv) e : In e (polygon_edges l) -> In (fst e) l /\ In (snd e) l.
Proof.
  destruct l as [|x l]; [intros []|]. unfold polygon_edges. destruct e as [a b]. intros H. split; [apply (in_combine_l _ _ _ _ H)|]. apply in_combine_r in H. apply in_app_iff in H. cbn [snd]. destruct H as [H|[<-|[]]]; [right; auto|left; auto].
Qed.
Lemma pe_len (l : list rv) : length (polygon_edges l) = length l.
Proof. destruct l as [|x l]; [reflexivity|]. unfold polygon_edges. rewrite combine_length, app_length. cbn [length]. lia. Qed.
(** in particular for points in a box of size S around the origin, with m of them on the hull, and k triangles *)
Theorem C163_validate_counts srt srt2 vs t S : clear_ok srt vs -> returns64 srt vs t false -> vs <> [] -> separated (values vs) -> sorts lessXY vs (srt2 vs) ->
  (forall p, In p (values vs) -> Rabs (rx p) <= S /\ Rabs (ry p) <= S) ->
  let m := INR (length (tConvexHull t)) in let k := INR (length (triples (tTriangles t))) in
  (Z.of_nat (length (tConvexHull t)) <= 2 ^ 25)%Z -> (Z.of_nat (length (triples (tTriangles t))) <= 2 ^ 25)%Z ->
  4 * (m * (m + 4)) * (S * S) <= 2 ^ 23 -> (2 * (m * (m + 4)) + 4 * (k * (k + 5))) * (S * S) <= 2 ^ 23 -> 6 * (m * (m + 7)) * S <= 2 ^ 23 ->
  Validate srt2 t = Ok true.
Proof.
  intros H Ret NE Sep Hs Bx. cbv zeta. intros Lm Lk C1 C2 C3.
  destruct (hulls_clear srt srt2 vs t H Ret NE Sep Hs) as (h2 & h1 & h3 & E2 & I2 & It & Nt & Eh & Eh2 & _).
  destruct (C161_well_formed srt vs t false H Ret) as (_ & Rg & _). pose proof (ct_planar _ (proj1 (proj2 (proj2 H)))) as Pl.
  set (m := length (tConvexHull t)) in *. set (k := length (triples (tTriangles t))) in *.
  pose proof (pos_INR m) as m0. pose proof (pos_INR k) as k0.
  assert (S0 : 0 <= S). { destruct vs as [|v l]; [contradiction|]. destruct (Bx (rvec v) (or_introl eq_refl)) as (X & _). pose proof (Rabs_pos (rx (rvec v))). lra. }
  assert (S2 : 0 <= S * S) by (apply Rmult_le_pos; auto).
  assert (Hin : forall p, In p (values (tConvexHull t)) -> In p (values vs)). { intros p Hp. apply in_map_iff in Hp. destruct Hp as (v & <- & Hv). apply in_map, It, Hv. }
  assert (Dx : forall x y, Rabs x <= S -> Rabs y <= S -> Rabs (x - y) <= 2 * S /\ Rabs (x + y) <= 2 * S). { intros x y X Y. apply Rabs_le_inv in X, Y. split; apply Rabs_le; lra. }
  assert (Mu : forall x y, Rabs x <= 2 * S -> Rabs y <= 2 * S -> Rabs x * Rabs y <= 4 * (S * S)). { intros x y X Y. replace (4 * (S * S)) with ((2 * S) * (2 * S)) by ring. apply Rmult_le_compat; auto using Rabs_pos. }
  assert (PT : polygon_terms (values (tConvexHull t)) <= 2 * INR m * (S * S)).
  { unfold polygon_terms. assert (Q : Spec_plane.Rsum (map (fun e => Rabs (rx (fst e) - rx (snd e)) * Rabs (ry (fst e) + ry (snd e))) (polygon_edges (values (tConvexHull t)))) <= INR m * (4 * (S * S))).
    { replace m with (length (polygon_edges (values (tConvexHull t)))) by (rewrite pe_len, len_values; reflexivity). apply Rsum_bound. intros e He. apply pe_In in He. destruct He as (Ha & Hb). apply Hin, Bx in Ha. apply Hin, Bx in Hb. destruct Ha as (Hax & Hay), Hb as (Hbx & Hby). apply Mu; [refine (proj1 (Dx _ _ _ _)); assumption|refine (proj2 (Dx _ _ _ _)); assumption]. }
    lra. }
  assert (TT : triangle_terms (values vs) (tTriangles t) <= 4 * INR k * (S * S)).
  { unfold triangle_terms. assert (Q : Spec_plane.Rsum (map (fun t => let '(a, b, c) := t in area_terms (point (values vs) a) (point (values vs) b) (point (values vs) c)) (triples (tTriangles t))) <= INR k * (8 * (S * S))).
    { apply Rsum_bound. intros [[a b] c] Hx. apply triples_In in Hx. destruct Hx as (Ia & Ib & Ic). assert (P : forall v, In v (tTriangles t) -> In (point (values vs) v) (values vs)). { intros v Iv. apply Rg in Iv. apply nth_In. rewrite len_values. lia. }
      apply P, Bx in Ia. apply P, Bx in Ib. apply P, Bx in Ic. unfold area_terms. assert (M1 : Rabs (ry (point (values vs) b) - ry (point (values vs) a)) * Rabs (rx (point (values vs) c) - rx (point (values vs) b)) <= 4 * (S * S)) by (destruct Ia as (Iax & Iay), Ib as (Ibx & Iby), Ic as (Icx & Icy); apply Mu; (refine (proj1 (Dx _ _ _ _)); assumption)).
      assert (M2 : Rabs (rx (point (values vs) b) - rx (point (values vs) a)) * Rabs (ry (point (values vs) c) - ry (point (values vs) b)) <= 4 * (S * S)) by (destruct Ia as (Iax & Iay), Ib as (Ibx & Iby), Ic as (Icx & Icy); apply Mu; (refine (proj1 (Dx _ _ _ _)); assumption)). lra. }
    lra. }
  assert (PP' : perimeter3 (values (tConvexHull t)) <= 3 * INR m * S).
  { unfold perimeter3. assert (Q : Spec_plane.Rsum (map (fun e => rdist (fst e) (snd e)) (polygon_edges (values (tConvexHull t)))) <= INR m * (3 * S)).
    { replace m with (length (polygon_edges (values (tConvexHull t)))) by (rewrite pe_len, len_values; reflexivity). apply Rsum_bound. intros e He. apply pe_In in He. destruct He as (Ha & Hb). apply Hin in Ha, Hb. pose proof (Pl _ _ Ha Hb) as Ez. apply Bx in Ha, Hb.
      unfold rdist. rewrite <- (sqrt_Rsqr (3 * S)) by lra. apply sqrt_le_1_alt. unfold Rsqr, rdist2, rdot, rsub. cbn [rx ry rz]. rewrite Ez. destruct (Dx _ _ (proj1 Ha) (proj1 Hb)) as (X & _), (Dx _ _ (proj2 Ha) (proj2 Hb)) as (Y & _).
      pose proof (Mu _ _ X X) as QX. pose proof (Mu _ _ Y Y) as QY. rewrite <- Rabs_mult, Rabs_pos_eq in QX, QY by apply Rle_0_sqr. lra. }
    lra. }
  assert (g3 : gamma (m + 3) <= (INR m + 4) / 2 ^ 53). { eapply Rle_trans; [apply gamma_lin; lia|]. rewrite plus_INR. simpl (INR 3). apply Rmult_le_compat_r; [apply Rlt_le, Rinv_0_lt_compat, pow_lt; lra|]. lra. }
  assert (g4 : gamma (k + 4) <= (INR k + 5) / 2 ^ 53). { eapply Rle_trans; [apply gamma_lin; lia|]. rewrite plus_INR. simpl (INR 4). apply Rmult_le_compat_r; [apply Rlt_le, Rinv_0_lt_compat, pow_lt; lra|]. lra. }
  assert (g6 : gamma (m + 6) <= (INR m + 7) / 2 ^ 53). { eapply Rle_trans; [apply gamma_lin; lia|]. rewrite plus_INR. simpl (INR 6). apply Rmult_le_compat_r; [apply Rlt_le, Rinv_0_lt_compat, pow_lt; lra|]. lra. }
  assert (Pos1 : 0 <= polygon_terms (values (tConvexHull t))).
  { unfold polygon_terms. apply Rmult_le_pos; [|lra]. generalize (polygon_edges (values (tConvexHull t))). induction l as [|e l IH]; cbn [map Spec_plane.Rsum]; [lra|]. pose proof (Rmult_le_pos _ _ (Rabs_pos (rx (fst e) - rx (snd e))) (Rabs_pos (ry (fst e) + ry (snd e)))). lra. }
  assert (Pos2 : 0 <= triangle_terms (values vs) (tTriangles t)).
  { unfold triangle_terms. apply Rmult_le_pos; [|lra]. generalize (triples (tTriangles t)). induction l as [|[[a b] c] l IH]; cbn [map Spec_plane.Rsum]; [lra|]. assert (0 <= area_terms (point (values vs) a) (point (values vs) b) (point (values vs) c)) by (unfold area_terms; apply Rplus_le_le_0_compat; apply Rmult_le_pos; apply Rabs_pos). lra. }
  assert (Pos3 : 0 <= perimeter3 (values (tConvexHull t))).
  { unfold perimeter3. generalize (polygon_edges (values (tConvexHull t))). induction l as [|e l IH]; cbn [map Spec_plane.Rsum]; [lra|]. pose proof (sqrt_pos (rdist2 (fst e) (snd e))) as Q. fold (rdist (fst e) (snd e)) in Q. lra. }
  pose proof (gamma_pos (m + 3)) as p3. pose proof (gamma_pos (k + 4)) as p4. pose proof (gamma_pos (m + 6)) as p6.
  set (M := INR m) in *. set (K := INR k) in *. clearbody M K.
  assert (E1 : gamma (m + 3) * polygon_terms (values (tConvexHull t)) <= (M + 4) / 2 ^ 53 * (2 * M * (S * S))) by (apply Rmult_le_compat; auto).
  assert (E4 : gamma (k + 4) * triangle_terms (values vs) (tTriangles t) <= (K + 5) / 2 ^ 53 * (4 * K * (S * S))) by (apply Rmult_le_compat; auto).
  assert (E6 : gamma (m + 6) * perimeter3 (values (tConvexHull t)) <= (M + 7) / 2 ^ 53 * (3 * M * S)) by (apply Rmult_le_compat; auto).
  replace ((M + 4) / 2 ^ 53 * (2 * M * (S * S))) with (/ 2 ^ 53 * (/ 2 * (4 * (M * (M + 4)) * (S * S)))) in E1 by (field; apply pow_nonzero; lra).
  replace ((K + 5) / 2 ^ 53 * (4 * K * (S * S))) with (/ 2 ^ 53 * ((2 * (M * (M + 4)) + 4 * (K * (K + 5))) * (S * S)) - / 2 ^ 53 * (/ 2 * (4 * (M * (M + 4)) * (S * S)))) in E4 by (field; apply pow_nonzero; lra).
  replace ((M + 7) / 2 ^ 53 * (3 * M * S)) with (/ 2 ^ 53 * (/ 2 * (6 * (M * (M + 7)) * S))) in E6 by (field; apply pow_nonzero; lra).
  apply (C163_validate_accepts srt srt2 vs t H Ret NE Sep Hs); fold m k; try lia.
  - apply Rle_trans with (2 * (/ 2 ^ 53 * (/ 2 * 2 ^ 23))); [|lra]. apply Rmult_le_compat_l; [lra|]. eapply Rle_trans; [exact E1|]. apply Rmult_le_compat_l; [lra|]. apply Rmult_le_compat_l; [lra|exact C1].
  - apply Rle_trans with (/ 2 ^ 53 * ((2 * (M * (M + 4)) + 4 * (K * (K + 5))) * (S * S))); [lra|]. apply Rle_trans with (/ 2 ^ 53 * 2 ^ 23); [|lra]. apply Rmult_le_compat_l; [lra|exact C2].
  - apply Rle_trans with (2 * (/ 2 ^ 53 * (/ 2 * 2 ^ 23))); [|lra]. apply Rmult_le_compat_l; [lra|]. eapply Rle_trans; [exact E6|]. apply Rmult_le_compat_l; [lra|]. apply Rmult_le_compat_l; [lra|exact C3].
Qed.
Print Assumptions C163_validate_counts.
(** and, with n points in all, as soon as 18 (n+2)^2 S^2 and 6 n (n+7) S are at most 2^23: 600 points in the unit square *)
Theorem C163_validate_box srt srt2 vs t S : clear_ok srt vs -> returns64 srt vs t false -> vs <> [] -> separated (values vs) -> sorts lessXY vs (srt2 vs) ->
  (forall p, In p (values vs) -> Rabs (rx p) <= S /\ Rabs (ry p) <= S) ->
  let n := INR (length vs) in (Z.of_nat (length vs) <= 2 ^ 24)%Z -> 18 * ((n + 2) * (n + 2)) * (S * S) <= 2 ^ 23 -> 6 * (n * (n + 7)) * S <= 2 ^ 23 ->
  Validate srt2 t = Ok true.
Proof.
  intros H Ret NE Sep Hs Bx. cbv zeta. intros Ln C1 C2.
  destruct (hulls_clear srt srt2 vs t H Ret NE Sep Hs) as (h2 & h1 & h3 & E2 & I2 & It & Nt & Eh & Eh2 & Lm & Lk).
  destruct (C161_well_formed srt vs t false H Ret) as (_ & Rg & _). pose proof (ct_planar _ (proj1 (proj2 (proj2 H)))) as Pl.
  assert (Lv : (length (nodup Z.eq_dec (tTriangles t)) <= length vs)%nat).
  { apply NoDup_range_length; [apply NoDup_nodup|]. intros v Hv. apply nodup_In in Hv. apply Rg, Hv. }
  set (m := length (tConvexHull t)) in *. set (k := length (triples (tTriangles t))) in *. set (N := length vs) in *.
  assert (Km : (k <= 2 * N)%nat) by lia. assert (MR : INR m <= INR N) by (apply le_INR, Lm). assert (KR : INR k <= 2 * INR N) by (apply le_INR in Km; rewrite mult_INR in Km; simpl (INR 2) in Km; lra).
  pose proof (pos_INR m) as m0. pose proof (pos_INR k) as k0. pose proof (pos_INR N) as n0. set (n := INR N) in *.
  assert (S0 : 0 <= S). { destruct vs as [|v l]; [contradiction|]. destruct (Bx (rvec v) (or_introl eq_refl)) as (X & _). pose proof (Rabs_pos (rx (rvec v))). lra. }
  assert (S2 : 0 <= S * S) by (apply Rmult_le_pos; auto). assert (nn : 0 <= n * n) by (apply Rmult_le_pos; auto).
  assert (Q4 : INR m * (INR m + 4) <= n * (n + 4)) by (apply Rmult_le_compat; lra). assert (Q5 : INR k * (INR k + 5) <= 2 * n * (2 * n + 5)) by (apply Rmult_le_compat; lra). assert (Q7 : INR m * (INR m + 7) <= n * (n + 7)) by (apply Rmult_le_compat; lra).
  apply (C163_validate_counts srt srt2 vs t S H Ret NE Sep Hs Bx); fold m k; try lia.
  - eapply Rle_trans; [|exact C1]. apply Rmult_le_compat_r; auto. lra.
  - eapply Rle_trans; [|exact C1]. apply Rmult_le_compat_r; auto. lra.
  - eapply Rle_trans; [|exact C2]. apply Rmult_le_compat_r; auto. lra.
Qed.
Print Assumptions C163_validate_box.

(** ** four points with odd coordinates up to 229, which is too fine for the grids of C94: three of them on the hull, three triangles *)
Definition ex163 : list zpt := [(229, 13, 0); (-127, 201, 0); (-83, -211, 0); (17, 31, 0)]%Z.
Lemma ex163_check : zcheck ex163 = true. Proof. vm_compute. reflexivity. Qed.
Example C163_nonvacuous : let vs := map zv ex163 in clear_ok isort vs /\ separated (values vs) /\ sorts lessXY vs (isort2 vs) /\ ~ (exists e, grid_points e vs) /\
  (match Triangulate isort vs with Ok (t, false) => Some (length (tConvexHull t), length (triples (tTriangles t))) | _ => None end) = Some (3, 3)%nat /\
  (forall p, In p (values vs) -> Rabs (rx p) <= 229 /\ Rabs (ry p) <= 229) /\
  4 * (3 * (3 + 4)) * (229 * 229) <= 2 ^ 23 /\ (2 * (3 * (3 + 4)) + 4 * (3 * (3 + 5))) * (229 * 229) <= 2 ^ 23 /\ 6 * (3 * (3 + 7)) * 229 <= 2 ^ 23 /\
  verdict vs = Some true.
Proof.
  cbv zeta. destruct (C161_certified isort ex163 isort_good ex163_check ltac:(discriminate) ltac:(reflexivity)) as (Ev & Ok').
  { intros p Hp. repeat (destruct Hp as [<-|Hp]; [cbn; lia|]). destruct Hp. }
  split; [exact Ok'|]. rewrite Ev. split; [|split; [|split; [|split; [|split; [|split; [|split; [|split]]]]]]].
  - intros a b Ha Hb N. apply in_map_iff in Ha, Hb. destruct Ha as (p & <- & Hp), Hb as (q & <- & Hq).
    assert (D : (fst (fst p) = fst (fst q) /\ p = q \/ 1 <= Z.abs (fst (fst p) - fst (fst q)))%Z).
    { repeat (destruct Hp as [<-|Hp]; [repeat (destruct Hq as [<-|Hq]; [cbn [fst snd]; first [left; split; reflexivity|right; cbn; lia]|]); destruct Hq|]); destruct Hp. }
    destruct D as [(_ & ->)|D]; [contradiction|]. apply IZR_le in D. rewrite abs_IZR, minus_IZR in D. unfold samexy, rdist2, rdot, rsub, zr. cbn [rx ry rz].
    set (x := IZR (fst (fst p)) - IZR (fst (fst q))) in *. split; [intros (E & _); unfold x in D; rewrite E, Rminus_diag_eq, Rabs_R0 in D; [lra|reflexivity]|].
    assert (X : 1 <= x * x). { rewrite <- (Rabs_pos_eq (x * x)) by apply Rle_0_sqr. rewrite Rabs_mult. replace 1 with (1 * 1) by ring. apply Rmult_le_compat; lra. }
    pose proof (Rle_0_sqr (IZR (snd (fst p)) - IZR (snd (fst q)))) as Y. pose proof (Rle_0_sqr (IZR (snd p) - IZR (snd q))) as Z. unfold Rsqr in Y, Z.
    assert (epsR <= 1) by (unfold epsR; lra). lra.
  - apply (isort2_sorts 0). intros v Hv. apply in_map_iff in Hv. destruct Hv as (p & <- & Hp).
    assert (B : (Z.abs (fst (fst p)) <= 300 /\ Z.abs (snd (fst p)) <= 300 /\ Z.abs (snd p) <= 300)%Z) by (repeat (destruct Hp as [<-|Hp]; [cbn; lia|]); destruct Hp).
    assert (G : forall k, (Z.abs k <= 300)%Z -> on_grid25 0 (fofZ B64 k)). { intros k Hk. destruct (fr_ofZ k ltac:(lia)) as (F & E). exists k. split; [lia|]. split; [exact F|]. rewrite E. simpl. lra. }
    unfold zv, iv. cbn [vx vy vz]. split; [|split]; apply G; tauto.
  - intros (e & G & _). destruct (G (zv (229, 13, 0)%Z)) as ((k & Hk & _ & E) & (m & Hm & _ & E') & _); [left; reflexivity|].
    destruct (fr_ofZ 229 ltac:(discriminate)) as (_ & X). destruct (fr_ofZ 13 ltac:(discriminate)) as (_ & Y). cbn [zv iv vx vy fst snd] in E, E'. rewrite X in E. rewrite Y in E'.
    pose proof (bpow_gt_0 radix2 e) as P. destruct (Z_lt_le_dec 0 e) as [Pe|Pe].
    + assert (E2 : bpow radix2 e = 2 * IZR (2 ^ (e - 1))). { replace e with (1 + (e - 1))%Z at 1 by lia. rewrite bpow_plus. f_equal. change 2%Z with (radix_val radix2) at 1. rewrite IZR_Zpower by lia. reflexivity. }
      rewrite E2 in E'. assert (Q : (13 = m * (2 * 2 ^ (e - 1)))%Z) by (apply eq_IZR; rewrite !mult_IZR; exact E'). apply (f_equal (fun z => (z mod 2)%Z)) in Q. replace (m * (2 * 2 ^ (e - 1)))%Z with (m * 2 ^ (e - 1) * 2)%Z in Q by ring. rewrite Z.mod_mul in Q by lia. discriminate.
    + assert (B : bpow radix2 e <= 1) by (apply (bpow_le radix2 e 0); lia). assert (M : IZR k <= 128) by (apply IZR_le; lia). pose proof (Rmult_le_compat_r _ _ _ (Rlt_le _ _ P) M). lra.
  - vm_compute. reflexivity.
  - intros p Hp. repeat (destruct Hp as [<-|Hp]; [unfold zr; cbn [rx ry fst snd]; split; apply Rabs_le; lra|]). destruct Hp.
  - lra.
  - lra.
  - lra.
  - vm_compute. reflexivity.
Qed.
