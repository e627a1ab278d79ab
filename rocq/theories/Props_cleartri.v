(** Property theorems C161-C162: Triangulate as compiled, in binary64, on every input clear of rounding errors. *)
From Coq Require Import ZArith Lia List Bool Reals Lra Permutation.
From Flocq Require Import Core BinarySingleNaN.
From Verif Require Import Base Arith M_r3 M_tri2 M_triangulator Spec_r3 Spec_plane Spec_halfedge Spec_delaunay Spec_delaunay2 Spec_acc64 Spec_clear Spec_circ64 Spec_cleartri XRvec
  P_triang P_flipterm P_delcomp P_insphere_err P_insphere_b64 P_b64hash P_acc64 P_b64triang P_outcome64 P_cleartri P_clearchk Props_triangulator Props_tiling Props_grid Props_delcomp Props_acc64 Props_clearhull.
Import ListNotations.
Open Scope R_scope.

(** a sort that sorts, coordinates of moderate size, clear of rounding errors, not exactly one point, a slice length *)
Definition clear_ok (srt : (Z -> Z -> bool) -> list Z -> list Z) (vs : list (vec B64)) : Prop :=
  good_sort srt /\ (forall v, In v vs -> tame_vec v) /\ clear_triangulation (values vs) /\ length vs <> 1%nat /\ (Z.of_nat (length vs) < 2 ^ 63)%Z.
Lemma clear_done srt vs : clear_ok srt vs -> done64 srt vs.
Proof. intros (GS & Hv & Hc & L1 & Big). split; [exact L1|]. exact (triangulate_clear srt vs GS Hv Hc L1 Big). Qed.

(** ** C161: the float64 run returns; the result is a Delaunay triangulation of the points, with no tolerance *)
Theorem C161_returns srt vs : clear_ok srt vs -> exists t err, returns64 srt vs t err /\ tVectors t = vs /\
  ((2 <= length vs)%nat -> (err = true <-> on_a_line (values vs)) /\ (err = false -> tTriangles t <> [])).
Proof. intros H. exact (o_returns srt vs (clear_done srt vs H)). Qed.
Print Assumptions C161_returns.
Theorem C161_well_formed srt vs t err : clear_ok srt vs -> returns64 srt vs t err ->
  paired (tTriangles t) (tHalfedges t) /\
  (forall v, In v (tTriangles t) -> (0 <= v < Z.of_nat (length vs))%Z) /\
  (forall c, In c (triples (tTriangles t)) -> 0 < area3 (values vs) c) /\
  (forall u v, In u (tTriangles t) -> In v (tTriangles t) -> samexy (point (values vs) u) (point (values vs) v) -> u = v).
Proof. intros H. exact (o_well_formed srt vs t err (clear_done srt vs H)). Qed.
Print Assumptions C161_well_formed.
Theorem C161_delaunay srt vs t err : clear_ok srt vs -> returns64 srt vs t err -> delaunay (values vs) (tTriangles t).
Proof. intros H. exact (o_delaunay srt vs t err (clear_done srt vs H)). Qed.
Print Assumptions C161_delaunay.
Theorem C161_hull srt vs t err : clear_ok srt vs -> returns64 srt vs t err -> exists I,
  map rvec (tConvexHull t) = map (point (values vs)) I /\ boundary (tTriangles t) (tHalfedges t) I /\
  encloses (map (point (values vs)) I) (map (point (values vs)) (tTriangles t)) /\ (forall v, In v I -> In v (tTriangles t)) /\
  Spec_plane.Rsum (map (area3 (values vs)) (triples (tTriangles t))) = shoelace (map (point (values vs)) I).
Proof. intros H. exact (o_hull srt vs t err (clear_done srt vs H)). Qed.
Print Assumptions C161_hull.
Theorem C161_no_point_lost srt vs t : clear_ok srt vs -> returns64 srt vs t false ->
  forall i, (0 <= i < Z.of_nat (length vs))%Z -> exists v, In v (tTriangles t) /\ rdist2 (point (values vs) i) (point (values vs) v) < epsR.
Proof. intros H. exact (o_no_point_lost srt vs t (clear_done srt vs H)). Qed.
Print Assumptions C161_no_point_lost.
Theorem C161_tiles srt vs t err : clear_ok srt vs -> returns64 srt vs t err ->
  (forall q i j ti tj, nth_error (triples (tTriangles t)) i = Some ti -> nth_error (triples (tTriangles t)) j = Some tj ->
     in_triangle (values vs) q ti -> in_triangle (values vs) q tj -> i = j) /\
  (forall I, boundary (tTriangles t) (tHalfedges t) I -> I <> [] -> forall q, strictly_inside (map (point (values vs)) I) q ->
     exists ti, In ti (triples (tTriangles t)) /\ in_triangle_or_edge (values vs) q ti).
Proof. intros H. exact (o_tiles srt vs t err (clear_done srt vs H)). Qed.
Print Assumptions C161_tiles.
(** the conditions can be tested in integers: lists of integer points that pass [zcheck] are clear *)
Theorem C161_certified srt (l : list zpt) : good_sort srt -> zcheck l = true -> length l <> 1%nat -> (Z.of_nat (length l) < 2 ^ 63)%Z ->
  (forall p, In p l -> (Z.abs (fst (fst p)) <= 2 ^ 53)%Z /\ (Z.abs (snd (fst p)) <= 2 ^ 53)%Z /\ (Z.abs (snd p) <= 2 ^ 53)%Z) ->
  values (map zv l) = map zr l /\ clear_ok srt (map zv l).
Proof.
  intros GS Ck L1 Big Bd. assert (Ev : values (map zv l) = map zr l). { unfold values. rewrite map_map. apply map_ext_in. intros p Hp. destruct (Bd p Hp) as (X & Y & Z). exact (iv_R _ _ _ X Y Z). }
  split; [exact Ev|]. split; [exact GS|]. split; [|rewrite Ev, map_length; split; [exact (zcheck_clear l Ck)|split; auto]].
  intros v Hv. apply in_map_iff in Hv. destruct Hv as (p & <- & Hp). destruct (Bd p Hp) as (X & Y & Z).
  assert (T : forall k, (Z.abs k <= 2 ^ 53)%Z -> tame (fofZ B64 k)).
  { intros k Hk. destruct (fr_ofZ k Hk) as (F & E). split; [exact F|]. rewrite E. split.
    - exists (k * 2 ^ 180)%Z. rewrite mult_IZR. change 2%Z with (radix_val radix2). rewrite (IZR_Zpower radix2) by lia. rewrite Rmult_assoc, <- bpow_plus. simpl bpow. ring.
    - rewrite <- abs_IZR. apply Rle_trans with (IZR (2 ^ 53)); [apply IZR_le, Hk|]. change 2%Z with (radix_val radix2). rewrite (IZR_Zpower radix2) by lia. apply bpow_le. lia. }
  split; [|split]; apply T; auto.
Qed.
Print Assumptions C161_certified.

(** ** C162: it is the triangulation of the exact algorithm *)
Lemma circle_ccw o r2 a b c : circle3 o r2 a b c -> ~ samexy a b -> ~ samexy a c -> ~ samexy b c -> ccw a b c <> 0.
Proof.
  intros (A & B & C) Nab Nac Nbc W. unfold dist2xy, ccw, samexy in *.
  set (ux := rx b - rx a) in *. set (uy := ry b - ry a) in *. set (wx := rx c - rx a) in *. set (wy := ry c - ry a) in *. set (qx := rx o - rx a). set (qy := ry o - ry a).
  assert (E1 : 2 * (ux * qx + uy * qy) = ux * ux + uy * uy) by (unfold ux, uy, qx, qy; lra).
  assert (E2 : 2 * (wx * qx + wy * qy) = wx * wx + wy * wy) by (unfold wx, wy, qx, qy; lra).
  assert (W' : ux * wy = uy * wx) by lra. assert (Nu : ux <> 0 \/ uy <> 0). { destruct (Req_dec ux 0) as [X|X]; auto. destruct (Req_dec uy 0) as [Y|Y]; auto. exfalso. apply Nab. unfold ux, uy in *. split; lra. }
  assert (Nw : wx <> 0 \/ wy <> 0). { destruct (Req_dec wx 0) as [X|X]; auto. destruct (Req_dec wy 0) as [Y|Y]; auto. exfalso. apply Nac. unfold wx, wy in *. split; lra. }
  apply Nbc. assert (G : forall p p' v v' s t, p <> 0 -> p * v' = p' * v -> 2 * (p * s + p' * t) = p * p + p' * p' -> 2 * (v * s + v' * t) = v * v + v' * v' -> v <> 0 \/ v' <> 0 -> p = v /\ p' = v').
  { intros p p' v v' s t Np Cr F1 F2 Nv. assert (Vv : v' = v / p * p') by (apply (Rmult_eq_reg_l p); [|exact Np]; rewrite Cr; field; exact Np). set (k := v / p) in *. assert (Vk : v = k * p) by (unfold k; field; exact Np).
    rewrite Vv in F2, Nv |- *. rewrite Vk in F2, Nv |- *. assert (P0 : 0 < p * p + p' * p') by (pose proof (Rle_0_sqr p') as S; unfold Rsqr in S; pose proof (Rsqr_pos_lt p Np) as S2; unfold Rsqr in S2; lra).
    assert (K : k * (1 - k) = 0). { apply (Rmult_eq_reg_r (p * p + p' * p')); [|lra]. rewrite Rmult_0_l. replace (k * (1 - k) * (p * p + p' * p')) with (k * (p * p + p' * p') - (k * p * (k * p) + k * p' * (k * p'))) by ring. rewrite <- F1, <- F2. ring. }
    apply Rmult_integral in K. destruct K as [K|K]; [rewrite K, !Rmult_0_l in Nv; lra|]. replace k with 1 by lra. split; ring. }
  destruct Nu as [N|N].
  - destruct (G ux uy wx wy qx qy N W' E1 E2 Nw) as (X & Y). unfold ux, uy, wx, wy in X, Y. split; lra.
  - destruct (G uy ux wy wx qy qx N) as (Y & X); [lra|lra|lra|tauto|]. unfold ux, uy, wx, wy in X, Y. split; lra.
Qed.
Lemma clear_no_four pts : clear_triangulation pts -> separated pts -> no_four_cocircular pts.
Proof.
  intros Hc Se a b c d o r2 Ia Ib Ic Id ND (A & B & C & D). apply NoDup_cons_iff in ND. destruct ND as (N1 & ND). apply NoDup_cons_iff in ND. destruct ND as (N2 & ND). apply NoDup_cons_iff in ND. destruct ND as (N3 & _). cbn [In] in N1, N2, N3.
  assert (S : forall p q, In p pts -> In q pts -> p <> q -> ~ samexy p q) by (intros p q Ip Iq N; apply (Se p q Ip Iq N)).
  assert (Sad : ~ samexy a d) by (apply S; auto; intros ->; tauto). assert (Sbd : ~ samexy b d) by (apply S; auto; intros ->; tauto). assert (Scd : ~ samexy c d) by (apply S; auto; intros ->; tauto). assert (Sbc : ~ samexy b c) by (apply S; auto; intros ->; tauto).
  assert (W : ccw a b c <> 0) by (apply (circle_ccw o r2); [split; auto|apply S; auto; intros ->; tauto|apply S; auto; intros ->; tauto|exact Sbc]).
  assert (Wd : ccw d b c <> 0) by (apply (circle_ccw o r2); [split; auto|intros (X & Y); apply Sbd; split; auto|intros (X & Y); apply Scd; split; auto|exact Sbc]).
  destruct (ct_circles _ Hc a b c d Ia Ib Ic Id W) as [L|Z].
  - assert (E : incircle_det a b c d = 0).
    { replace (incircle_det a b c d) with (ccw a b c * (r2 - dist2xy d o)); [rewrite D; ring|]. unfold incircle_det, ccw, dist2xy in *.
      set (px := rx a - rx d). set (py := ry a - ry d). set (qx := rx b - rx d). set (qy := ry b - ry d). set (sx := rx c - rx d). set (sy := ry c - ry d). set (ex := rx o - rx d). set (ey := ry o - ry d).
      assert (D' : ex * ex + ey * ey = r2) by (unfold ex, ey; lra).
      assert (Ea : px * px + py * py = 2 * (px * ex + py * ey)) by (unfold px, py, ex, ey; lra). assert (Eb : qx * qx + qy * qy = 2 * (qx * ex + qy * ey)) by (unfold qx, qy, ex, ey; lra). assert (Ec : sx * sx + sy * sy = 2 * (sx * ex + sy * ey)) by (unfold sx, sy, ex, ey; lra).
      rewrite Ea, Eb, Ec, D. ring. }
    rewrite E, Rabs_R0 in L. pose proof (gamma_pos 11) as G. assert (T : 0 <= incircle_terms a b c d).
    { unfold incircle_terms, dist2xy. repeat first [apply Rle_0_sqr|apply Rplus_le_le_0_compat|apply Rmult_le_pos|apply Rabs_pos]. }
    pose proof (Rmult_le_pos _ _ G T). lra.
  - unfold incircle_terms in Z. set (X1 := Rabs (rx a - rx d) * _) in Z. set (X2 := Rabs (ry a - ry d) * _) in Z. set (X3 := dist2xy a d * _) in Z.
    assert (P1 : 0 <= X1) by (unfold X1, dist2xy; repeat first [apply Rle_0_sqr|apply Rplus_le_le_0_compat|apply Rmult_le_pos|apply Rabs_pos]).
    assert (P2 : 0 <= X2) by (unfold X2, dist2xy; repeat first [apply Rle_0_sqr|apply Rplus_le_le_0_compat|apply Rmult_le_pos|apply Rabs_pos]).
    assert (P3 : 0 <= X3) by (unfold X3, dist2xy; repeat first [apply Rle_0_sqr|apply Rplus_le_le_0_compat|apply Rmult_le_pos|apply Rabs_pos]).
    assert (Z3 : X3 = 0) by lra. unfold X3 in Z3. apply Rmult_integral in Z3. destruct Z3 as [Z3|Z3].
    + apply Sad. unfold dist2xy in Z3. pose proof (Rle_0_sqr (rx a - rx d)) as Q1. pose proof (Rle_0_sqr (ry a - ry d)) as Q2. unfold Rsqr in Q1, Q2. split; apply Rminus_diag_uniq, Rsqr_0_uniq; unfold Rsqr; lra.
    + rewrite <- !Rabs_mult in Z3. pose proof (Rabs_pos ((rx b - rx d) * (ry c - ry d))) as Q1. pose proof (Rabs_pos ((ry b - ry d) * (rx c - rx d))) as Q2.
      apply Wd. replace (ccw d b c) with ((rx b - rx d) * (ry c - ry d) - (ry b - ry d) * (rx c - rx d)) by (unfold ccw; ring).
      destruct (Req_dec ((rx b - rx d) * (ry c - ry d)) 0) as [->|N]; [|apply Rabs_pos_lt in N; lra]. destruct (Req_dec ((ry b - ry d) * (rx c - rx d)) 0) as [->|N]; [ring|apply Rabs_pos_lt in N; lra].
Qed.
Lemma good_clear srt vs t : clear_ok srt vs -> returns64 srt vs t false -> tTriangles t <> [] -> exists I, good (values vs) (tTriangles t) I.
Proof.
  intros H Ret NT. destruct (C161_well_formed srt vs t false H Ret) as (Pr & Rg & Pos & Di).
  destruct (C161_hull srt vs t false H Ret) as (I & EI & Bd & En & II & Ar). destruct (C161_tiles srt vs t false H Ret) as (_ & Co).
  exists I. apply good_intro with (H := tHalfedges t); auto; [apply (C161_delaunay srt vs t false H Ret)|]. intros NI q Hq. apply (Co I Bd NI q Hq).
Qed.
(** without near-duplicates the triangles are exactly those with an empty circumcircle *)
Theorem C162_unique srt vs t : clear_ok srt vs -> returns64 srt vs t false -> let T := tTriangles t in let pts := values vs in
  NoDup pts -> separated pts -> forall A B C, triangle_at pts T A B C <->
    In A pts /\ In B pts /\ In C pts /\ ccw A B C < 0 /\ exists o r2, circle3 o r2 A B C /\ circle_free pts o r2.
Proof.
  intros H Ret T pts ND Se A B C. destruct (C161_well_formed srt vs t false H Ret) as (_ & Rg & _). rewrite <- (len_values vs) in Rg. fold pts in Rg.
  assert (N4 : no_four_cocircular pts) by (apply clear_no_four; auto; apply H).
  assert (Al : forall i, (0 <= i < Z.of_nat (length pts))%Z -> In i T).
  { intros i Hi. unfold pts in Hi. rewrite (len_values vs) in Hi. destruct (C161_no_point_lost srt vs t H Ret i Hi) as (v & Hv & D). rewrite <- (len_values vs) in Hi. fold pts in D, Hi. pose proof (Rg v Hv).
    destruct (Z.lt_total i v) as [Q|[->|Q]]; auto; exfalso.
    - pose proof (index_sep pts ND Se i v ltac:(lia) ltac:(lia)). lra.
    - pose proof (index_sep pts ND Se v i ltac:(lia) ltac:(lia)). assert (rdist2 (point pts i) (point pts v) = rdist2 (point pts v) (point pts i)) by (unfold rdist2, rdot, rsub; cbn [rx ry rz]; ring). lra. }
  destruct (list_eq_dec Z.eq_dec T []) as [E0|NT].
  - split; [rewrite E0; intros (a & b & c & [[]|[[]|[]]] & _)|]. intros (HA & _). exfalso. destruct (In_nth _ _ (RV 0 0 0) HA) as (n & Lt & _). assert (In (Z.of_nat n) T) as W by (apply Al; lia). rewrite E0 in W. destruct W.
  - destruct (good_clear srt vs t H Ret NT) as (I & G). apply (characterised_at _ _ _ G); auto. intros i. split; [apply Al|apply Rg].
Qed.
Print Assumptions C162_unique.
(** the exact algorithm, run on the same points in any order with any sort, reports the same error and has the same triangles *)
Theorem C162_exact srt srt' vs pts' t err t' err' : clear_ok srt vs -> good_sort srt' -> Permutation (values vs) pts' ->
  returns64 srt vs t err -> returns srt' pts' t' err' -> NoDup (values vs) -> separated (values vs) ->
  err = err' /\ forall A B C, triangle_at (values vs) (tTriangles t) A B C <-> triangle_at pts' (tTriangles t') A B C.
Proof.
  intros H GS Pm Ret Ret' ND Se. assert (N4 : no_four_cocircular (values vs)) by (apply clear_no_four; auto; apply H). destruct (perm_facts _ _ Pm ND Se N4) as (ND' & Se' & N4').
  pose proof (Permutation_length Pm) as Lp. rewrite len_values in Lp. assert (OK : input_ok srt' pts').
  { destruct H as (_ & _ & Hc & L1 & Big). split; [exact GS|]. split; [|split; [lia|lia]]. intros a b Ha Hb. apply (ct_planar _ Hc); eapply Permutation_in; try (apply Permutation_sym; exact Pm); auto. }
  assert (OL : on_a_line (values vs) <-> on_a_line pts').
  { split; intros (p & q & k & N & L); exists p, q, k; (split; [exact N|]); intros x Hx; apply L; first [exact (Permutation_in x (Permutation_sym Pm) Hx)|exact (Permutation_in x Pm Hx)]. }
  destruct (C161_returns srt vs H) as (t0 & e0 & R0 & _ & D0). destruct (returns64_fun _ _ _ _ _ _ Ret R0) as (<- & <-).
  destruct (outcome srt vs (clear_done srt vs H)) as (t1 & e1 & R1 & _ & D1). destruct (returns64_fun _ _ _ _ _ _ Ret R1) as (<- & <-).
  destruct (master srt' pts' OK) as (t2 & e2 & R2 & _ & D2). destruct (returns_fun _ _ _ _ _ _ Ret' R2) as (<- & <-).
  change (gpts vs) with (values vs) in D1.
  assert (Ee : err = err').
  { destruct D1 as [(O & X & _)|(NL & -> & _)], D2 as [(O' & X' & _)|(NL' & -> & _)]; auto.
    - destruct err, err'; auto; exfalso; [assert (false = true) by (apply X'; rewrite <- Lp; apply X; reflexivity)|assert (false = true) by (apply X; rewrite Lp; apply X'; reflexivity)]; discriminate.
    - exfalso. destruct O as [O|O]; [|apply NL', OL, O]. apply NL'. destruct pts'; [exists 1, 0, 0; split; [lra|intros p []]|simpl in Lp; lia].
    - exfalso. apply NL, OL. destruct O' as [O'|O']; [|exact O']. destruct pts'; [exists 1, 0, 0; split; [lra|intros p []]|discriminate]. }
  split; [exact Ee|]. subst err'. destruct err.
  - destruct D1 as [(O & X & T0 & _)|(_ & Q & _)]; [|discriminate]. destruct D2 as [(O' & X' & T0' & _)|(_ & Q & _)]; [|discriminate]. rewrite T0, T0'.
    intros A B C. split; intros (a & b & c & [[]|[[]|[]]] & _).
  - intros A B C. rewrite (C162_unique srt vs t H Ret ND Se A B C), (C125_triangles srt' pts' t' OK Ret' ND' Se' N4' A B C). split; apply perm_same; auto. apply Permutation_sym; auto.
Qed.
Print Assumptions C162_exact.

(** ** five points with 10-bit coordinates at height 7, one of them twice: accepted by the integer test, not on a grid of C86 *)
Definition ex161 : list zpt := [(811, 13, 7); (-403, 755, 7); (93, -641, 7); (811, 13, 7); (31, 105, 7); (-771, -251, 7)]%Z.
Lemma ex161_check : zcheck ex161 = true. Proof. vm_compute. reflexivity. Qed.
Example C161_nonvacuous : clear_ok isort (map zv ex161) /\ ~ on_a_line (values (map zv ex161)) /\ ~ (exists e, grid_points e (map zv ex161)) /\
  (match Triangulate isort (map zv ex161) with Ok (t, false) => Some (tTriangles t) | _ => None end) = Some [4; 0; 2; 2; 5; 4; 5; 1; 4; 4; 1; 0]%Z.
Proof.
  destruct (C161_certified isort ex161 isort_good ex161_check ltac:(discriminate) ltac:(reflexivity)) as (Ev & Ok').
  { intros p Hp. repeat (destruct Hp as [<-|Hp]; [cbn; lia|]). destruct Hp. }
  split; [exact Ok'|]. rewrite Ev. split; [|split].
  - intros (p & q & k & N & L). pose proof (L _ (or_introl eq_refl)) as L0. pose proof (L _ (or_intror (or_introl eq_refl))) as L1. pose proof (L _ (or_intror (or_intror (or_introl eq_refl)))) as L2. cbn [rx ry zr fst snd] in L0, L1, L2.
    assert (p = 0) by lra. assert (q = 0) by lra. destruct N; lra.
  - intros (e & G & _). destruct (G (zv (811, 13, 7)%Z)) as ((k & Hk & _ & E) & (m & Hm & _ & E') & _); [left; reflexivity|].
    destruct (fr_ofZ 811 ltac:(discriminate)) as (_ & X). destruct (fr_ofZ 13 ltac:(discriminate)) as (_ & Y). cbn [zv iv vx vy fst snd] in E, E'. rewrite X in E. rewrite Y in E'.
    pose proof (bpow_gt_0 radix2 e) as P. destruct (Z_lt_le_dec 0 e) as [Pe|Pe].
    + assert (E2 : bpow radix2 e = 2 * IZR (2 ^ (e - 1))). { replace e with (1 + (e - 1))%Z at 1 by lia. rewrite bpow_plus. f_equal. change 2%Z with (radix_val radix2) at 1. rewrite IZR_Zpower by lia. reflexivity. }
      rewrite E2 in E'. assert (Q : (13 = m * (2 * 2 ^ (e - 1)))%Z) by (apply eq_IZR; rewrite !mult_IZR; exact E'). apply (f_equal (fun z => (z mod 2)%Z)) in Q. replace (m * (2 * 2 ^ (e - 1)))%Z with (m * 2 ^ (e - 1) * 2)%Z in Q by ring. rewrite Z.mod_mul in Q by lia. discriminate.
    + assert (B : bpow radix2 e <= 1) by (apply (bpow_le radix2 e 0); lia). assert (M : IZR k <= 128) by (apply IZR_le; lia). pose proof (Rmult_le_compat_r _ _ _ (Rlt_le _ _ P) M). lra.
  - vm_compute. reflexivity.
Qed.
