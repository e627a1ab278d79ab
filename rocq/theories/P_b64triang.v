(** Triangulate in binary64 on grid points: exact predicates, an empty seed circle, a good insertion order and
    valid hash keys, so the proof of P_triang applies. *)
From Coq Require Import ZArith Lia List Bool Reals Lra QArith Permutation Sorted.
From Flocq Require Import Core BinarySingleNaN.
From Verif Require Import Base Arith GoLoop M_r3 M_tri2 M_triangulator Spec_r3 Spec_plane Spec_halfedge Spec_delaunay XRvec P_tri2 P_delgeom
  P_leg P_legmodel P_tstate P_addtri P_ringops P_insstep P_insert P_seed P_init P_flipterm P_triang P_insphere_err P_insphere_b64 P_b64sc P_b64hash P_b64err P_gridgeo P_b64grid.
Import ListNotations.
Open Scope Z_scope.

Lemma blt_irrefl (x : B64) : flt B64 x x = false.
Proof.
  destruct x as [s|s| |s m ex B]; try reflexivity; [destruct s; reflexivity|].
  rewrite (fr_lt _ (B2R (B754_finite s m ex B)) _ (B2R (B754_finite s m ex B))) by (split; reflexivity).
  unfold Rltb. destruct Rlt_dec; auto. lra.
Qed.
Lemma blt_fin (x y : b64) : is_finite x = true -> is_finite y = true -> flt B64 x y = Rltb (B2R x) (B2R y).
Proof. intros Fx Fy. apply fr_lt; split; auto. Qed.
Lemma blt_trans (x y z : B64) : flt B64 x y = true -> flt B64 y z = true -> flt B64 x z = true.
Proof.
  destruct (is_finite (x : b64)) eqn:Fx, (is_finite (y : b64)) eqn:Fy, (is_finite (z : b64)) eqn:Fz.
  1:{ rewrite !blt_fin by auto. rewrite !Rltb_true. intros; eapply Rlt_trans; eauto. }
  all: destruct x as [sx|sx| |sx mx ex Bx]; try discriminate Fx; destruct y as [sy|sy| |sy my ey By]; try discriminate Fy;
    destruct z as [sz|sz| |sz mz ez Bz]; try discriminate Fz;
    repeat match goal with s : bool |- _ => destruct s end; cbn; auto; try discriminate.
Qed.
Definition argmin_b64 := @argmin_gen B64 blt_irrefl blt_trans.

(** a point of the grid 2^e * [-128, 128]^2 at height zz * 2^e *)
Definition gridpt (e zz : Z) (v : vec B64) : Prop := exists X Y, si (vx v) e X 128 /\ si (vy v) e Y 128 /\ si (vz v) e zz 128.

Section GridTri.
Variables (e zz : Z) (vs : list (vec B64)).
Hypothesis He : -170 <= e <= 170.
Hypothesis Hgrid : forall v, In v vs -> gridpt e zz v.
Hypothesis Hn : 2 <= Ln vs.
Definition gpts : list rv := map rvec vs.
Notation pts := gpts.
Notation n := (Ln pts).
Notation PP := (PP pts).
Notation V := (vat vs).
Lemma len_gpts : length vs = length pts. Proof. unfold gpts. rewrite map_length. auto. Qed.
Definition GX (i : Z) : Z := Ztrunc (B2R (vx (V i) : b64) * bp (- e)).
Definition GY (i : Z) : Z := Ztrunc (B2R (vy (V i) : b64) * bp (- e)).
Lemma PP_V i : PP i = rvec (V i).
Proof.
  unfold P_insert.PP, vat, getz, gpts. destruct (i <? 0).
  - reflexivity.
  - rewrite <- (map_nth rvec). reflexivity.
Qed.
Lemma V_In i : 0 <= i < n -> In (V i) vs.
Proof. intros H. unfold vat, getz. destruct (Z.ltb_spec i 0); [lia|]. apply nth_In. rewrite len_gpts. lia. Qed.
Lemma V_nth i : 0 <= i < n -> nth_error vs (Z.to_nat i) = Some (V i).
Proof. intros H. unfold vat, getz. destruct (Z.ltb_spec i 0); [lia|]. apply nth_error_nth'. rewrite len_gpts. lia. Qed.
Lemma V_nth_inv k q : nth_error vs k = Some q -> 0 <= Z.of_nat k < n /\ q = V (Z.of_nat k).
Proof.
  intros E. assert (K : (k < length vs)%nat) by (apply nth_error_Some; congruence). rewrite len_gpts in K.
  split; [lia|]. pose proof (V_nth (Z.of_nat k) ltac:(lia)) as Q. rewrite Nat2Z.id in Q. congruence.
Qed.
Lemma V_zget i : 0 <= i < n -> zget vs i = Ok (V i).
Proof. intros Hi. apply zget_getz. rewrite len_gpts. auto. Qed.
Lemma V_grid i : exists X Y, si (vx (V i)) e X 128 /\ si (vy (V i)) e Y 128.
Proof.
  assert (C : In (V i) vs \/ V i = mkvec (fofZ B64 0) (fofZ B64 0) (fofZ B64 0)).
  { unfold vat, getz. destruct (i <? 0); auto. destruct (Nat.lt_ge_cases (Z.to_nat i) (length vs)).
    - left. apply nth_In; auto.
    - right. apply nth_overflow; auto. }
  destruct C as [C|C].
  - destruct (Hgrid _ C) as (X & Y & H1 & H2 & _). eauto.
  - rewrite C. exists 0, 0. split; apply (si_weaken _ _ _ 0); try lia; apply si_zero.
Qed.
Lemma unscale x k : si x e k 128 -> Ztrunc (B2R x * bp (- e)) = k.
Proof.
  intros [[_ E] _]. rewrite E. replace (bp e * IZR k * bp (- e))%R with (IZR k * (bp e * bp (- e)))%R by ring.
  rewrite <- bpow_plus. replace (e + - e) with 0 by lia. simpl. rewrite Rmult_1_r. apply Ztrunc_IZR.
Qed.
Lemma cx i : si (vx (V i)) e (GX i) 128.
Proof. destruct (V_grid i) as (X & Y & H1 & H2). unfold GX. rewrite (unscale _ X); auto. Qed.
Lemma cy i : si (vy (V i)) e (GY i) 128.
Proof. destruct (V_grid i) as (X & Y & H1 & H2). unfold GY. rewrite (unscale _ Y); auto. Qed.
Lemma cz i : 0 <= i < n -> si (vz (V i)) e zz 128.
Proof. intros H. destruct (Hgrid _ (V_In i H)) as (X & Y & _ & _ & H3). auto. Qed.
Lemma px i : rx (PP i) = (bp e * IZR (GX i))%R.
Proof. rewrite PP_V. apply (proj2 (si_sr _ _ _ _ (cx i))). Qed.
Lemma py i : ry (PP i) = (bp e * IZR (GY i))%R.
Proof. rewrite PP_V. apply (proj2 (si_sr _ _ _ _ (cy i))). Qed.
Lemma pz i : 0 <= i < n -> rz (PP i) = (bp e * IZR zz)%R.
Proof. intros H. rewrite PP_V. apply (proj2 (si_sr _ _ _ _ (cz i H))). Qed.
Lemma bpos : (0 < bp e)%R. Proof. apply bpow_gt_0. Qed.
Lemma b2pos : (0 < bp e * bp e)%R. Proof. pose proof bpos. apply Rmult_lt_0_compat; auto. Qed.
Lemma gplanar : planar pts.
Proof.
  intros a b Ha Hb. destruct (In_PP pts a Ha) as (i & Hi & <-). destruct (In_PP pts b Hb) as (j & Hj & <-). rewrite !pz; auto.
Qed.

(** the predicates are exact *)
Notation det a b c := (zd (GX a) (GY a) (GX b) (GY b) (GX c) (GY c)).
Notation len a b := (zL (GX a) (GY a) (GX b) (GY b)).
Notation nn a b c := (zN (GX a) (GY a) (GX b) (GY b) (GX c) (GY c)).
Lemma ar_det a b c : ar (PP a) (PP b) (PP c) = (- (bp e * bp e * IZR (det a b c)))%R.
Proof. unfold ar, ccw, zd. rewrite !px, !py, !minus_IZR, !mult_IZR, !minus_IZR. ring. Qed.
Lemma dt_nn a b c : dt (PP c) (PP a) (PP b) = (bp e * bp e * IZR (nn a b c))%R.
Proof. unfold dt, zN. rewrite !px, !py, !plus_IZR, !mult_IZR, !minus_IZR. ring. Qed.
Lemma dist_len a b : dist2xy (PP a) (PP b) = (bp e * bp e * IZR (len a b))%R.
Proof. unfold dist2xy, zL. rewrite !px, !py, !plus_IZR, !mult_IZR, !minus_IZR. ring. Qed.
Lemma scale_lt k c : (0 < c)%R -> Rltb (c * IZR k) 0 = (k <? 0).
Proof.
  intros Hc. rewrite <- IZR_lt_b. destruct (Rltb_spec (IZR k) (IZR 0)) as [L|L].
  - apply Rltb_true. replace 0%R with (c * 0)%R by ring. apply Rmult_lt_compat_l; auto.
  - apply Rltb_false. apply Rmult_le_pos; lra.
Qed.
Lemma gexact : exact_preds vs pts.
Proof.
  pose proof b2pos as B2. constructor.
  - apply len_gpts.
  - intros a b c v _ _ _ _ _. unfold badA.
    rewrite (inCircle_si e He _ _ _ _ _ _ _ _ _ _ _ _ (cx a) (cy a) (cx b) (cy b) (cx c) (cy c) (cx v) (cy v)).
    rewrite <- (scale_lt _ (bp e * bp e * (bp e * bp e))) by (apply Rmult_lt_0_compat; auto). f_equal.
    unfold incirc, zinc. rewrite !px, !py. rewrite ?plus_IZR, ?minus_IZR, ?mult_IZR, ?minus_IZR, ?plus_IZR, ?mult_IZR, ?minus_IZR, ?plus_IZR, ?mult_IZR, ?minus_IZR. ring.
  - apply (bad_self_zn B64 _ vs null_like_B64).
  - intros a b c _ _ _. pose proof (area_si e He _ _ _ _ _ _ _ _ _ (cx a) (cy a) (cx b) (cy b) (cx c) (cy c)) as S.
    rewrite (sr_lt _ _ _ _ _ (si_sr _ _ _ _ S) (sr_zero _)), IZR_lt_b, <- (scale_lt _ (bp e * bp e)) by auto. f_equal.
    rewrite ar_det. unfold zd. rewrite !minus_IZR, !mult_IZR, !minus_IZR. ring.
  - intros a b c _ _ _. pose proof (area_si e He _ _ _ _ _ _ _ _ _ (cx a) (cy a) (cx b) (cy b) (cx c) (cy c)) as S.
    rewrite (sr_le _ _ _ _ _ (sr_zero _) (si_sr _ _ _ _ S)).
    replace (ar (PP a) (PP b) (PP c)) with (bp e * bp e * IZR ((GY b - GY a) * (GX c - GX b) - (GX b - GX a) * (GY c - GY b)))%R
      by (rewrite ar_det; unfold zd; rewrite !minus_IZR, !mult_IZR, !minus_IZR; ring).
    generalize (IZR ((GY b - GY a) * (GX c - GX b) - (GX b - GX a) * (GY c - GY b))). intros k. destruct (Rleb_spec 0 k) as [L|L]; symmetry.
    + apply Rleb_true. apply Rmult_le_pos; lra.
    + apply Rleb_false. replace 0%R with (bp e * bp e * 0)%R by ring. apply Rmult_lt_compat_l; auto.
Qed.

(** squared distances between input points *)
Lemma sqdist i j : 0 <= i < n -> 0 <= j < n -> si (SquaredDistance (V i) (V j)) (2 * e) (len j i) 196608.
Proof.
  intros Hi Hj. unfold SquaredDistance, Norm2, Dot, Sub. cbn [vx vy vz].
  replace (len j i) with (len j i + (zz - zz) * (zz - zz)) by ring.
  apply (si_add _ _ _ _ _ 131072 65536); try (unfold okexp; lia).
  - unfold zL. apply (d_sq2 e He); apply (cd_sub e He); auto using cx, cy.
  - apply (d_mul e He); apply (cd_sub e He); auto using cz.
Qed.
Lemma same_len i j : len i j = 0 <-> samexy (PP i) (PP j).
Proof.
  pose proof bpos as B. unfold samexy. rewrite !px, !py. unfold zL.
  pose proof (Z.square_nonneg (GX j - GX i)). pose proof (Z.square_nonneg (GY j - GY i)). split.
  - intros E. assert (GX j - GX i = 0) by nia. assert (GY j - GY i = 0) by nia. split; f_equal; f_equal; lia.
  - intros [E1 E2]. apply Rmult_eq_reg_l in E1; [|lra]. apply Rmult_eq_reg_l in E2; [|lra]. apply eq_IZR in E1. apply eq_IZR in E2.
    rewrite E1, E2. ring.
Qed.
Lemma len_sym i j : len i j = len j i. Proof. unfold zL. ring. Qed.
Lemma len_nonneg i j : 0 <= len i j.
Proof. unfold zL. pose proof (Z.square_nonneg (GX j - GX i)). pose proof (Z.square_nonneg (GY j - GY i)). lia. Qed.

(** the seeds *)
Lemma gseed0 m : 0 <= seed0 vs m < n.
Proof.
  unfold seed0. destruct (argmin _ _ _ _ _ _ _) as [b m'] eqn:E. apply argmin_b64 in E.
  pose proof len_gpts. destruct E as [_ [[-> _]|(k & q & E1 & -> & _)]]; simpl; [lia|]. apply V_nth_inv in E1. lia.
Qed.
Lemma gseed1 i0 : 0 <= i0 < n -> let i1 := seed1 vs i0 (V i0) in
  0 <= i1 < n /\
  ((forall j, 0 <= j < n -> samexy (PP i0) (PP j)) \/
   (i1 <> i0 /\ len i0 i1 <> 0 /\ forall j, 0 <= j < n -> len i0 j = 0 \/ len i0 i1 <= len i0 j)).
Proof.
  intros H0. cbv zeta. unfold seed1. destruct (argmin _ _ _ _ _ _ _) as [i1 m'] eqn:E. apply argmin_b64 in E. cbn [fst].
  pose proof len_gpts as LG. destruct E as [A B].
  assert (A' : forall j, 0 <= j < n -> j <> i0 -> len i0 j <> 0 -> flt B64 (SquaredDistance (V j) (V i0)) m' = false).
  { intros j Hj Nj D. apply (A (Z.to_nat j) _ (V_nth j Hj)).
    - rewrite Z2Nat.id by lia. rewrite Z.add_0_l. apply Z.eqb_neq. auto.
    - rewrite (sr_lt _ _ _ _ _ (sr_zero _) (si_sr _ _ _ _ (sqdist j i0 Hj H0))), IZR_lt_b. apply Z.ltb_lt. pose proof (len_nonneg i0 j). lia. }
  destruct B as [[-> ->]|(k & q & B1 & B2 & B3 & B4 & B5 & B6)].
  - split; [lia|]. left. intros j Hj. apply same_len. destruct (Z.eq_dec j i0) as [->|N]; [unfold zL; ring|].
    destruct (Z.eq_dec (len i0 j) 0) as [|D]; auto. specialize (A' j Hj N D).
    destruct (sr_inf _ _ _ (si_sr _ _ _ _ (sqdist j i0 Hj H0))) as (Q & _). unfold infinity in A'. congruence.
  - apply V_nth_inv in B1. destruct B1 as [Rk ->]. rewrite Z.add_0_l in B2. rewrite <- B2 in *.
    split; auto. right. apply Z.eqb_neq in B3.
    pose proof (si_sr _ _ _ _ (sqdist i1 i0 Rk H0)) as S1.
    rewrite (sr_lt _ _ _ _ _ (sr_zero _) S1), IZR_lt_b in B4. apply Z.ltb_lt in B4. split; auto. split; [lia|].
    intros j Hj. destruct (Z.eq_dec j i0) as [->|N]; [left; unfold zL; ring|].
    destruct (Z.eq_dec (len i0 j) 0) as [|D]; auto. right. specialize (A' j Hj N D). rewrite B5 in A'.
    rewrite (sr_lt _ _ _ _ _ (si_sr _ _ _ _ (sqdist j i0 Hj H0)) S1), IZR_lt_b in A'. apply Z.ltb_ge in A'. auto.
Qed.
Lemma far_nn a b c : len a c = 0 \/ len a b <= len a c -> 0 <= nn a b c.
Proof.
  intros H. assert (E : 2 * nn a b c = len a c - len a b + len b c) by (unfold zN, zL; ring). pose proof (len_nonneg b c).
  destruct H as [H|H]; [|lia]. unfold zL in H. pose proof (Z.square_nonneg (GX c - GX a)). pose proof (Z.square_nonneg (GY c - GY a)).
  assert (Q1 : GX c - GX a = 0) by nia. assert (Q2 : GY c - GY a = 0) by nia. unfold zN. rewrite Q1, Q2. lia.
Qed.
Notation T a b c := (rT (GX a) (GY a) (GX b) (GY b) (GX c) (GY c)).
Notation RR a b c := (rR (GX a) (GY a) (GX b) (GY b) (GX c) (GY c)).
Lemma circ_T a b c : det a b c <> 0 -> dist2xy (PP a) (rcircumcenter (PP a) (PP b) (PP c)) = (bp e * bp e * T a b c / 4)%R.
Proof.
  intros Nd. assert (N : ar (PP a) (PP b) (PP c) <> 0%R).
  { rewrite ar_det. apply not_0_IZR in Nd. pose proof b2pos as B. intros Q. assert (Z : (bp e * bp e * IZR (det a b c) = 0)%R) by lra.
    apply Rmult_integral in Z. destruct Z; lra. }
  pose proof (circumradius_pencil _ _ _ N) as Q. rewrite ar_det, dt_nn, dist_len in Q.
  set (S := IZR (det a b c)) in *. assert (S <> 0%R) by (apply not_0_IZR; auto).
  set (r := dist2xy _ _) in *. pose proof b2pos as B. set (g := (bp e * bp e)%R) in *.
  apply (Rmult_eq_reg_l (4 * ((- (g * S)) * (- (g * S))))%R).
  - rewrite Q. unfold rT. fold S. field. auto.
  - intros Z. assert (Z' : (g * g * (S * S) = 0)%R) by lra. apply Rmult_integral in Z'. destruct Z' as [Z'|Z']; apply Rmult_integral in Z'; destruct Z'; lra.
Qed.
Lemma flt_T a b c v : det a b c <> 0 -> det a b v <> 0 -> 0 <= nn a b c -> 0 <= nn a b v ->
  flt B64 (circumradius (V a) (V b) (V v)) (circumradius (V a) (V b) (V c)) = false -> (T a b c <= T a b v)%R.
Proof.
  intros Dc Dv Pc Pv F. destruct (Rle_lt_dec (T a b c) (T a b v)) as [|L]; auto. exfalso.
  pose proof (circumradius_sr e He _ _ _ _ _ _ _ _ _ (cx a) (cy a) (cx b) (cy b) (cx c) (cy c) Dc) as Sc.
  pose proof (circumradius_sr e He _ _ _ _ _ _ _ _ _ (cx a) (cy a) (cx b) (cy b) (cx v) (cy v) Dv) as Sv.
  rewrite (sr_lt _ _ _ _ _ Sv Sc) in F. apply Rltb_false in F.
  pose proof (rR_near (GX a) (GY a) (GX b) (GY b) (GX c) (GY c) Dc) as Nc.
  pose proof (rR_near (GX a) (GY a) (GX b) (GY b) (GX v) (GY v) Dv) as Nv.
  pose proof (rT1 e He _ _ _ _ _ _ _ _ (cx a) (cy a) (cx b) (cy b) Dc) as Tc.
  pose proof (rT1 e He _ _ _ _ _ _ _ _ (cx a) (cy a) (cx b) (cy b) Dv) as Tv.
  pose proof (zd_bound e _ _ _ _ _ _ _ _ _ (cx a) (cy a) (cx b) (cy b) (cx c) (cy c)) as Bc.
  pose proof (zd_bound e _ _ _ _ _ _ _ _ _ (cx a) (cy a) (cx b) (cy b) (cx v) (cy v)) as Bv.
  pose proof (zN_bound e He _ _ _ _ _ _ _ _ _ (cx a) (cy a) (cx b) (cy b) (cx c) (cy c)) as BN.
  pose proof (zL1 e He _ _ _ _ _ _ _ _ (cx a) (cy a) (cx b) (cy b) Dc) as L1.
  apply (Rlt_not_le (RR a b c) (RR a b v)); auto. refine (near_lt_gap _ _ _ _ _ _ Nv Nc _); [lra|lra|].
  revert L. unfold rT. set (l := len a b) in *. set (dc := det a b c) in *. set (dv := det a b v) in *. set (nc := nn a b c) in *. set (nv := nn a b v) in *.
  clearbody l dc dv nc nv. clear -Dc Dv Pc Pv Bc Bv BN L1. intros L.
  pose proof (sq_pos dc Dc) as Qc. pose proof (sq_pos dv Dv) as Qv. assert (l1 : (1 <= IZR l)%R) by (apply IZR_le; auto).
  assert (M : (0 < IZR dc * IZR dc * (IZR dv * IZR dv))%R) by (apply Rmult_lt_0_compat; auto).
  assert (Ndc : IZR dc <> 0%R) by (apply not_0_IZR; auto). assert (Ndv : IZR dv <> 0%R) by (apply not_0_IZR; auto).
  assert (K : (nv * nv + dv * dv) * (dc * dc) < (nc * nc + dc * dc) * (dv * dv)).
  { apply lt_IZR. rewrite !mult_IZR, !plus_IZR, !mult_IZR. apply (Rmult_lt_reg_l (IZR l)); [lra|].
    apply (Rmult_lt_compat_r (IZR dc * IZR dc * (IZR dv * IZR dv))) in L; auto. 
    replace (IZR l * (IZR nv * IZR nv + IZR dv * IZR dv) / (IZR dv * IZR dv) * (IZR dc * IZR dc * (IZR dv * IZR dv)))%R
      with (IZR l * ((IZR nv * IZR nv + IZR dv * IZR dv) * (IZR dc * IZR dc)))%R in L by (field; auto).
    replace (IZR l * (IZR nc * IZR nc + IZR dc * IZR dc) / (IZR dc * IZR dc) * (IZR dc * IZR dc * (IZR dv * IZR dv)))%R
      with (IZR l * ((IZR nc * IZR nc + IZR dc * IZR dc) * (IZR dv * IZR dv)))%R in L by (field; auto). exact L. }
  assert (G : 2 ^ 49 * ((nv * nv + dv * dv) * (dc * dc)) <= (2 ^ 49 - 1) * ((nc * nc + dc * dc) * (dv * dv))).
  { pose proof (cot_gap nc (Z.abs dc) nv (Z.abs dv)) as Q. rewrite !Z.abs_square in Q. apply Q; lia. }
  apply IZR_le in G. rewrite !mult_IZR, !plus_IZR, !mult_IZR in G. 
  change (2 ^ 49 - 1) with 562949953421311 in G. change (2 ^ 49) with 562949953421312 in G.
  replace 562949953421311%R with (2 ^ 49 - 1)%R in G by (simpl; lra). replace 562949953421312%R with (2 ^ 49)%R in G by (simpl; lra).
  apply (Rmult_le_reg_r (IZR dc * IZR dc * (IZR dv * IZR dv))); auto.
  replace (2 ^ 49 * (IZR l * (IZR nv * IZR nv + IZR dv * IZR dv) / (IZR dv * IZR dv)) * (IZR dc * IZR dc * (IZR dv * IZR dv)))%R
    with (IZR l * (2 ^ 49 * ((IZR nv * IZR nv + IZR dv * IZR dv) * (IZR dc * IZR dc))))%R by (field; auto).
  replace ((2 ^ 49 - 1) * (IZR l * (IZR nc * IZR nc + IZR dc * IZR dc) / (IZR dc * IZR dc)) * (IZR dc * IZR dc * (IZR dv * IZR dv)))%R
    with (IZR l * ((2 ^ 49 - 1) * ((IZR nc * IZR nc + IZR dc * IZR dc) * (IZR dv * IZR dv))))%R by (field; auto).
  apply Rmult_le_compat_l; [lra|]. exact G.
Qed.

Lemma ar_zero a b c : ar (PP a) (PP b) (PP c) = 0%R <-> det a b c = 0.
Proof.
  rewrite ar_det. pose proof b2pos as B. split.
  - intros Q. apply eq_IZR. apply (Rmult_eq_reg_l (bp e * bp e)); lra.
  - intros ->. lra.
Qed.
Lemma gseeds i0 i1 i2 r : 0 <= i0 < n -> i1 = seed1 vs i0 (V i0) -> seed2 vs i0 i1 (V i0) (V i1) = (i2, r) ->
  0 <= i1 < n /\
  ((r = @infinity B64 /\ on_a_line pts) \/
   (feq B64 r infinity = false /\ 0 <= i2 < n /\ ar (PP i0) (PP i1) (PP i2) <> 0%R /\
    forall v, 0 <= v < n -> (0 <= ar (PP i0) (PP i1) (PP i2) * incirc (PP i0) (PP i1) (PP i2) (PP v))%R)).
Proof.
  intros R0 E1 E2. destruct (gseed1 i0 R0) as [R1 D]. rewrite <- E1 in *. split; auto.
  unfold seed2 in E2. apply argmin_b64 in E2. destruct E2 as [A B].
  assert (A' : forall j, 0 <= j < n -> j <> i0 -> j <> i1 -> flt B64 (circumradius (V i0) (V i1) (V j)) r = false).
  { intros j Hj N0 N1. apply (A (Z.to_nat j)); auto. apply V_nth; auto. rewrite Z2Nat.id, Z.add_0_l by lia.
    apply orb_false_iff. split; apply Z.eqb_neq; auto. }
  assert (CI : forall j, det i0 i1 j = 0 -> circumradius (V i0) (V i1) (V j) = @infinity B64).
  { intros j Q. apply (circumradius_inf e He _ _ _ _ _ _ _ _ _ (cx i0) (cy i0) (cx i1) (cy i1) (cx j) (cy j) Q). }
  assert (CF : forall j, det i0 i1 j <> 0 -> sr (circumradius (V i0) (V i1) (V j)) (2 * (e - 1)) (RR i0 i1 j)).
  { intros j Q. apply (circumradius_sr e He _ _ _ _ _ _ _ _ _ (cx i0) (cy i0) (cx i1) (cy i1) (cx j) (cy j) Q). }
  destruct D as [D|(N10 & S01 & Near)].
  { left. assert (C : forall j, circumradius (V i0) (V i1) (V j) = @infinity B64).
    { intros j. apply CI. apply ar_zero. unfold ar, ccw. destruct (D i1 R1) as [Q1 Q2]. rewrite Q1, Q2. ring. }
    split.
    - destruct B as [[_ ->]|(k & q & B1 & B2 & B3 & B4 & B5 & B6)]; auto.
      apply V_nth_inv in B1. destruct B1 as [_ ->]. rewrite B5, C. auto.
    - apply (line_same pts (PP i0)). intros b Hb. destruct (In_PP pts b Hb) as (j & Hj & <-). auto. }
  destruct B as [[_ ->]|(k & q & B1 & B2 & B3 & B4 & B5 & B6)].
  - left. split; auto. apply (line_two pts (PP i0) (PP i1)); [intros Q; apply S01, same_len; auto|].
    intros c Hc. destruct (In_PP pts c Hc) as (j & Hj & <-).
    destruct (Z.eq_dec j i0) as [->|N0]; [apply ar_aba|]. destruct (Z.eq_dec j i1) as [->|N1]; [apply ar_baa|].
    specialize (A' j Hj N0 N1). apply ar_zero. destruct (Z.eq_dec (det i0 i1 j) 0) as [|Q]; auto. exfalso.
    destruct (sr_inf _ _ _ (CF j Q)) as (Q1 & _). unfold infinity in A'. congruence.
  - right. apply V_nth_inv in B1. destruct B1 as [Rk ->]. rewrite Z.add_0_l in B2. rewrite <- B2 in *.
    destruct (Z.eq_dec (det i0 i1 i2) 0) as [Q|Q].
    { exfalso. rewrite CI in B5, B6 by auto. subst r. rewrite blt_irrefl in B6. discriminate. }
    split; [rewrite B5; apply (sr_inf _ _ _ (CF i2 Q))|]. split; auto.
    assert (Ar : ar (PP i0) (PP i1) (PP i2) <> 0%R) by (intros Z; apply ar_zero in Z; contradiction). split; auto.
    intros v Hv.
    assert (Dt : forall j, 0 <= j < n -> 0 <= nn i0 i1 j) by (intros j Hj; apply far_nn; auto).
    assert (Dt' : forall j, 0 <= j < n -> (0 <= dt (PP j) (PP i0) (PP i1))%R).
    { intros j Hj. rewrite dt_nn. apply Rmult_le_pos; [pose proof b2pos; lra|]. apply IZR_le. auto. }
    apply seed_empty; auto; [intros Z; apply S01, same_len; auto|]. intros Nv. rewrite ar_zero in Nv. rewrite !circ_T by auto.
    destruct (Z.eq_dec v i0) as [->|N0]; [exfalso; apply Nv, ar_zero, ar_aba|].
    destruct (Z.eq_dec v i1) as [->|N1]; [exfalso; apply Nv, ar_zero, ar_baa|].
    specialize (A' v Hv N0 N1). rewrite B5 in A'. apply flt_T in A'; auto.
    pose proof b2pos as G. apply (Rmult_le_compat_l (bp e * bp e)) in A'; lra.
Qed.

(** the center, in half grid units *)
Section Center.
Variables a b c : Z.
Hypothesis Ra : 0 <= a < n.
Hypothesis Rb : 0 <= b < n.
Hypothesis Rc : 0 <= c < n.
Hypothesis Nd : det a b c <> 0.
Hypothesis Out : forall v, 0 <= v < n -> (0 <= ar (PP a) (PP b) (PP c) * incirc (PP a) (PP b) (PP c) (PP v))%R.
Notation ctr := (circumcenter (V a) (V b) (V c)).
Notation CX := (cX (GX a) (GY a) (GX b) (GY b) (GX c) (GY c)).
Notation CY := (cY (GX a) (GY a) (GX b) (GY b) (GX c) (GY c)).
Notation RX := (rX (GX a) (GY a) (GX b) (GY b) (GX c) (GY c)).
Notation RY := (rY (GX a) (GY a) (GX b) (GY b) (GX c) (GY c)).
Open Scope R_scope.
Definition EX0 : R := 2 * IZR (GX a) + RX.
Definition EY0 : R := 2 * IZR (GY a) + RY.
Definition g1 : R := bp (e - 1).
Definition go : rv := RV (g1 * CX) (g1 * CY) 0.
Definition Dv (v : Z) : R := (2 * IZR (GX v) - CX) * (2 * IZR (GX v) - CX) + (2 * IZR (GY v) - CY) * (2 * IZR (GY v) - CY).
Definition Ev (v : Z) : R := (2 * IZR (GX v) - EX0) * (2 * IZR (GX v) - EX0) + (2 * IZR (GY v) - EY0) * (2 * IZR (GY v) - EY0).
Lemma bp_e1 : bp e = 2 * g1.
Proof. unfold g1. replace e with (1 + (e - 1))%Z at 1 by ring. rewrite bpow_plus. reflexivity. Qed.
Lemma g1_pos : 0 < g1. Proof. apply bpow_gt_0. Qed.
Lemma Dv_dist v : dist2xy (PP v) go = g1 * g1 * Dv v.
Proof. unfold dist2xy, go, Dv. cbn [rx ry]. rewrite px, py, bp_e1. ring. Qed.
Lemma det_R : ccw (PP a) (PP b) (PP c) = bp e * bp e * IZR (det a b c).
Proof. pose proof (ar_det a b c) as Q. unfold ar in Q. lra. Qed.
Lemma Ev_dist v : dist2xy (PP v) (rcircumcenter (PP a) (PP b) (PP c)) = g1 * g1 * Ev v.
Proof.
  assert (Z : IZR (det a b c) <> 0) by (apply not_0_IZR; auto). pose proof bpos as B. pose proof g1_pos as G.
  assert (X : rx (rcircumcenter (PP a) (PP b) (PP c)) = g1 * EX0).
  { unfold rcircumcenter, EX0, rX. cbn [rx]. rewrite det_R, !px, !py, bp_e1. unfold zX, zL, zC.
    rewrite ?minus_IZR, ?mult_IZR, ?plus_IZR, ?mult_IZR, ?minus_IZR. field. split; [auto|lra]. }
  assert (Y : ry (rcircumcenter (PP a) (PP b) (PP c)) = g1 * EY0).
  { unfold rcircumcenter, EY0, rY. cbn [ry]. rewrite det_R, !px, !py, bp_e1. unfold zY, zL, zC.
    rewrite ?minus_IZR, ?mult_IZR, ?plus_IZR, ?mult_IZR, ?minus_IZR. field. split; [auto|lra]. }
  unfold dist2xy. rewrite X, Y, px, py, bp_e1. unfold Ev. ring.
Qed.
Lemma Nccw : ccw (PP a) (PP b) (PP c) <> 0.
Proof. intros Q. apply Nd. apply ar_zero. unfold ar. lra. Qed.
Lemma Ev_seed j : In j [a; b; c] -> Ev j = T a b c.
Proof.
  pose proof (rcircumcenter_circle _ _ _ Nccw) as (C1 & C2 & C3). rewrite !Ev_dist in C2, C3.
  assert (A : Ev a = T a b c).
  { unfold Ev, EX0, EY0. rewrite <- (rXY (GX a) (GY a) (GX b) (GY b) (GX c) (GY c)) by auto. ring. }
  assert (G : g1 * g1 <> 0) by (pose proof g1_pos; apply Rgt_not_eq, Rmult_lt_0_compat; auto).
  intros [<-|[<-|[<-|[]]]]; auto; rewrite <- A; apply (Rmult_eq_reg_l (g1 * g1)); auto.
Qed.
Lemma Ev_out v : (0 <= v < n)%Z -> T a b c <= Ev v.
Proof.
  intros Hv. pose proof (rcircumcenter_circle _ _ _ Nccw) as C. pose proof (Out v Hv) as Q.
  rewrite (incirc_identity _ _ _ _ _ _ C) in Q. rewrite !Ev_dist, (Ev_seed a (or_introl eq_refl)) in Q. unfold ar in Q.
  pose proof Nccw as N. set (w := ccw _ _ _) in *.
  assert (W : 0 < w * w) by (apply Rsqr_pos_lt in N; exact N). pose proof g1_pos as G. assert (GG : 0 < g1 * g1) by (apply Rmult_lt_0_compat; auto).
  apply Rnot_lt_le. intros L. assert (0 < w * w * (g1 * g1 * (T a b c - Ev v))).
  { apply Rmult_lt_0_compat; auto. apply Rmult_lt_0_compat; lra. } lra.
Qed.
Lemma CXf : fixm 70 CX /\ Rabs (CX - EX0) <= / 10000000.
Proof. apply (cX_facts e He _ _ _ _ _ _ _ _ _ (cx a) (cy a) (cx b) (cy b) (cx c) (cy c) Nd). Qed.
Lemma CYf : fixm 70 CY /\ Rabs (CY - EY0) <= / 10000000.
Proof. apply (cY_facts e He _ _ _ _ _ _ _ _ _ (cx a) (cy a) (cx b) (cy b) (cx c) (cy c) Nd). Qed.
Lemma Csr : sr (vx ctr) (e - 1) CX /\ sr (vy ctr) (e - 1) CY /\ sr (vz ctr) (e - 1) 0.
Proof. apply (circumcenter_sr e He _ _ _ _ _ _ _ _ _ (cx a) (cy a) (cx b) (cy b) (cx c) (cy c) Nd). Qed.
Lemma T1 : 1 <= T a b c.
Proof. apply (rT1 e He _ _ _ _ _ _ _ _ (cx a) (cy a) (cx b) (cy b) Nd). Qed.
Lemma Rmax : Rabs RX <= 47453133 /\ Rabs RY <= 47453133.
Proof. apply (rX_max e He _ _ _ _ _ _ _ _ _ (cx a) (cy a) (cx b) (cy b) (cx c) (cy c) Nd). Qed.
Lemma Tmax : T a b c <= 2251799813685248.
Proof. apply (rT_max e He _ _ _ _ _ _ _ _ _ (cx a) (cy a) (cx b) (cy b) (cx c) (cy c) Nd). Qed.

(* a seed comes before every point *)
Lemma int_sq (k : Z) : Rabs (IZR k) <= IZR k * IZR k.
Proof. rewrite <- abs_IZR, <- mult_IZR. apply IZR_le. nia. Qed.
Lemma first_ok j i : In j [a; b; c] -> (0 <= i < n)%Z -> before pts go j i.
Proof.
  intros Hj Hi. unfold before. destruct (Z.eq_dec (len j i) 0) as [Q|Q].
  { left. rewrite len_sym in Q. apply same_len; auto. }
  right. rewrite !Dv_dist, dist_len, bp_e1. pose proof (Ev_out i Hi) as O. rewrite <- (Ev_seed j Hj) in O.
  set (dx := (GX i - GX j)%Z). set (dy := (GY i - GY j)%Z).
  assert (K : Dv j - Dv i <= 4 * (IZR dx * (CX - EX0)) + 4 * (IZR dy * (CY - EY0))).
  { unfold Dv, Ev in *. unfold dx, dy. rewrite !minus_IZR. lra. }
  destruct CXf as [_ BX]. destruct CYf as [_ BY].
  assert (P : forall k t, Rabs t <= / 10000000 -> IZR k * t <= / 10000000 * (IZR k * IZR k)).
  { intros k t Ht. apply Rle_trans with (1 := Rle_abs _). rewrite Rabs_mult, Rmult_comm. apply Rmult_le_compat; auto using Rabs_pos, int_sq. }
  pose proof (P dx _ BX). pose proof (P dy _ BY).
  assert (L : 1 <= IZR (len j i)) by (apply IZR_le; pose proof (len_nonneg j i); lia).
  assert (E : IZR (len j i) = IZR dx * IZR dx + IZR dy * IZR dy).
  { unfold zL. rewrite plus_IZR, !mult_IZR. auto. }
  assert (F : Dv j < Dv i + 4 * IZR (len j i)) by lra.
  pose proof g1_pos as G. assert (GG : 0 < g1 * g1) by (apply Rmult_lt_0_compat; auto).
  apply (Rmult_lt_compat_l (g1 * g1)) in F; auto. lra.
Qed.

(* hash keys *)
Lemma bpv k : (0 <= k)%Z -> bp k = IZR (2 ^ k). Proof. intros H. rewrite (IZR_Zpower radix2) by auto. reflexivity. Qed.
Lemma diff_bd k x0 t r : (Z.abs k <= 128)%Z -> (Z.abs x0 <= 128)%Z -> Rabs r <= 47453133 -> Rabs (t - (2 * IZR x0 + r)) <= / 10000000 ->
  Rabs (2 * IZR k - t) <= 50000000 /\ (2 * IZR k - t) * (2 * IZR k - t) <= r * r + 1026 * Rabs r + 263169.
Proof.
  intros Hk H0 Hr Ht. assert (K : Rabs (2 * IZR k - t + r) <= 513).
  { apply IZR_le in Hk. apply IZR_le in H0. rewrite abs_IZR in Hk, H0. unfold Rabs in *. 
    repeat destruct Rcase_abs; lra. }
  assert (A : Rabs (2 * IZR k - t) <= Rabs r + 513).
  { replace (2 * IZR k - t) with ((2 * IZR k - t + r) + - r) by ring. apply Rle_trans with (1 := Rabs_triang _ _). rewrite Rabs_Ropp. lra. }
  split; [lra|]. rewrite <- (Rabs_pos_eq ((2 * IZR k - t) * _)) by apply Rle_0_sqr. rewrite Rabs_mult.
  apply Rle_trans with ((Rabs r + 513) * (Rabs r + 513)); [apply Rmult_le_compat; auto using Rabs_pos|].
  assert (E : r * r = Rabs r * Rabs r) by (rewrite <- Rabs_mult, Rabs_pos_eq; auto; apply Rle_0_sqr). rewrite E. lra.
Qed.
Lemma diffX v : Rabs (2 * IZR (GX v) - CX) <= 50000000 /\ (2 * IZR (GX v) - CX) * (2 * IZR (GX v) - CX) <= RX * RX + 1026 * Rabs RX + 263169.
Proof. apply (diff_bd _ (GX a)); [apply (si_bd _ _ _ _ (cx v))|apply (si_bd _ _ _ _ (cx a))|apply Rmax|apply CXf]. Qed.
Lemma diffY v : Rabs (2 * IZR (GY v) - CY) <= 50000000 /\ (2 * IZR (GY v) - CY) * (2 * IZR (GY v) - CY) <= RY * RY + 1026 * Rabs RY + 263169.
Proof. apply (diff_bd _ (GY a)); [apply (si_bd _ _ _ _ (cy v))|apply (si_bd _ _ _ _ (cy a))|apply Rmax|apply CYf]. Qed.
Lemma fix_d k t : fixm 70 t -> fixm 70 (2 * IZR k - t).
Proof. intros F. apply fixm_add; [rewrite <- mult_IZR; apply fixm_IZR; lia|]. apply fixm_opp; auto. Qed.
Lemma sub_sr x k t w : si x e k 128 -> sr w (e - 1) t -> fixm 70 t -> Rabs (2 * IZR k - t) <= 50000000 ->
  sr (fsub B64 x w) (e - 1) (rndX (2 * IZR k - t)) /\ fixm 70 (rndX (2 * IZR k - t)) /\ Rabs (rndX (2 * IZR k - t)) <= bp 30.
Proof.
  intros S W F B. assert (B26 : Rabs (2 * IZR k - t) <= bp 26) by (change (bp 26) with 67108864; lra). split; [|split].
  - apply sr_sub; auto; [unfold okexp; lia|apply (fixm_tame 70 26); auto; try lia; apply fix_d; auto|]. apply sr_half, (si_sr _ _ _ _ S).
  - apply fixm_round, fix_d; auto.
  - apply Rle_trans with (bp 26); [apply rndX_bound; auto|apply bpow_le; lia].
Qed.
Lemma subX v : sr (fsub B64 (vx (V v)) (vx ctr)) (e - 1) (rndX (2 * IZR (GX v) - CX)) /\ fixm 70 (rndX (2 * IZR (GX v) - CX)) /\ Rabs (rndX (2 * IZR (GX v) - CX)) <= bp 30.
Proof. apply sub_sr; [apply cx|apply Csr|apply CXf|apply diffX]. Qed.
Lemma subY v : sr (fsub B64 (vy (V v)) (vy ctr)) (e - 1) (rndX (2 * IZR (GY v) - CY)) /\ fixm 70 (rndX (2 * IZR (GY v) - CY)) /\ Rabs (rndX (2 * IZR (GY v) - CY)) <= bp 30.
Proof. apply sub_sr; [apply cy|apply Csr|apply CYf|apply diffY]. Qed.
Lemma subZ v : (0 <= v < n)%Z -> sr (fsub B64 (vz (V v)) (vz ctr)) (e - 1) (rndX (2 * IZR zz - 0)) /\ fixm 70 (rndX (2 * IZR zz - 0)) /\ Rabs (rndX (2 * IZR zz - 0)) <= bp 30.
Proof.
  intros Hv. apply sub_sr; [apply cz; auto|apply Csr|exists 0%Z; ring|].
  pose proof (si_bd _ _ _ _ (cz v Hv)) as Q. apply IZR_le in Q. rewrite abs_IZR in Q. unfold Rabs in *. repeat destruct Rcase_abs; lra.
Qed.
Lemma hash_ok hs v : (0 < hs <= 2 ^ 53)%Z -> (0 <= v < n)%Z -> (0 <= hashKey ctr hs (V v) < hs)%Z.
Proof.
  intros Hh Hv. destruct Csr as (S1 & S2 & _). apply hashKey_b64; auto; try apply (cx v); try apply (cy v); try apply S1; try apply S2; try apply subX; try apply subY.
  pose proof (proj2 (si_sr _ _ _ _ (cx v))) as X. pose proof (proj2 (si_sr _ _ _ _ (cy v))) as Y. rewrite X, Y, (proj2 S1), (proj2 S2).
  fold g1. rewrite bp_e1. pose proof g1_pos as G. pose proof (Ev_out v Hv) as O. pose proof T1 as T'.
  destruct (Req_dec (2 * g1 * IZR (GX v)) (g1 * CX)) as [Q1|]; auto. destruct (Req_dec (2 * g1 * IZR (GY v)) (g1 * CY)) as [Q2|]; auto. exfalso.
  assert (X1 : 2 * IZR (GX v) = CX) by (apply (Rmult_eq_reg_l g1); lra). assert (Y1 : 2 * IZR (GY v) = CY) by (apply (Rmult_eq_reg_l g1); lra).
  destruct CXf as [_ BX]. destruct CYf as [_ BY]. unfold Ev in O. rewrite X1, Y1 in O.
  assert (S : forall t, Rabs t <= / 10000000 -> t * t <= / 10).
  { intros t Ht. rewrite <- (Rabs_pos_eq (t * t)) by apply Rle_0_sqr. rewrite Rabs_mult. apply Rle_trans with (/ 10000000 * / 10000000); [apply Rmult_le_compat; auto using Rabs_pos|lra]. }
  apply S in BX. apply S in BY. lra.
Qed.

(* squared distances to the center *)
Definition DD (v : Z) : R := rndX (rndX (rndX (rndX (2 * IZR (GX v) - CX) * rndX (2 * IZR (GX v) - CX)) + rndX (rndX (2 * IZR (GY v) - CY) * rndX (2 * IZR (GY v) - CY)))
  + rndX (rndX (2 * IZR zz - 0) * rndX (2 * IZR zz - 0))).
Lemma DD_sr v : (0 <= v < n)%Z -> sr (SquaredDistance (V v) ctr) (2 * (e - 1)) (DD v).
Proof.
  intros Hv. destruct (subX v) as (X1 & X2 & X3). destruct (subY v) as (Y1 & Y2 & Y3). destruct (subZ v Hv) as (Z1 & Z2 & Z3).
  unfold SquaredDistance, Norm2, Dot, Sub. cbn [vx vy vz].
  destruct (sq_tame _ X2 X3) as (X4 & X5 & X6). destruct (sq_tame _ Y2 Y3) as (Y4 & Y5 & Y6). destruct (sq_tame _ Z2 Z3) as (Z4 & Z5 & Z6).
  assert (D : forall k, bp (1 + k) = 2 * bp k) by (intros; rewrite bpow_plus; reflexivity).
  set (p := rndX (_ * rndX (2 * IZR (GX v) - CX))) in *. set (q := rndX (_ * rndX (2 * IZR (GY v) - CY))) in *. set (r := rndX (_ * rndX (2 * IZR zz - 0))) in *.
  assert (B1 : Rabs (p + q) <= bp 61).
  { change 61%Z with (1 + 60)%Z. rewrite D. pose proof (Rabs_triang p q). lra. }
  assert (B2 : Rabs (rndX (p + q) + r) <= bp 62).
  { change 62%Z with (1 + 61)%Z. rewrite D. pose proof (Rabs_triang (rndX (p + q)) r). pose proof (rndX_bound _ _ B1).
    assert (bp 60 <= bp 61) by (apply bpow_le; lia). lra. }
  assert (F1 : fixm 140 (p + q)) by (apply fixm_add; auto).
  apply sr_add; [unfold okexp; lia| | |].
  - apply (fixm_tame 140 62); auto; try lia. apply fixm_add; auto. apply fixm_round; auto.
  - apply sr_add; [unfold okexp; lia|apply (fixm_tame 140 61); auto; lia| |].
    + apply (sr_mulE _ _ _ _ (e - 1) (e - 1)); auto; unfold okexp; lia.
    + apply (sr_mulE _ _ _ _ (e - 1) (e - 1)); auto; unfold okexp; lia.
  - apply (sr_mulE _ _ _ _ (e - 1) (e - 1)); auto; unfold okexp; lia.
Qed.
Lemma DD_before u v : (0 <= u < n)%Z -> (0 <= v < n)%Z -> DD u <= DD v -> before pts go u v.
Proof.
  intros Hu Hv L. unfold before. destruct (Z.eq_dec (len u v) 0) as [Q|Q].
  { left. rewrite len_sym in Q. apply same_len; auto. }
  right. rewrite !Dv_dist, dist_len, bp_e1.
  set (w := (2 * IZR zz - 0) * (2 * IZR zz - 0)).
  assert (W : 0 <= w <= 65536).
  { split; [apply Rle_0_sqr|]. unfold w. pose proof (si_bd _ _ _ _ (cz v Hv)) as B. assert (B2 : (zz * zz <= 16384)%Z) by nia.
    apply IZR_le in B2. rewrite mult_IZR in B2. lra. }
  assert (Bd : forall i, 0 <= Dv i + w <= 2251800000000000 + 300000000000).
  { intros i. split.
    - unfold Dv. pose proof (Rle_0_sqr (2 * IZR (GX i) - CX)). pose proof (Rle_0_sqr (2 * IZR (GY i) - CY)). unfold Rsqr in *. lra.
    - unfold Dv. pose proof (diffX i) as [_ QX]. pose proof (diffY i) as [_ QY]. pose proof Rmax as [MX MY]. pose proof Tmax as TM.
      rewrite <- (rXY (GX a) (GY a) (GX b) (GY b) (GX c) (GY c)) in TM by auto. lra. }
  pose proof (near_norm3 (2 * IZR (GX u) - CX) (2 * IZR (GY u) - CY) (2 * IZR zz - 0)) as Nu.
  pose proof (near_norm3 (2 * IZR (GX v) - CX) (2 * IZR (GY v) - CY) (2 * IZR zz - 0)) as Nv.
  fold (DD u) in Nu. fold (DD v) in Nv. fold w in Nu, Nv. fold (Dv u) in Nu. fold (Dv v) in Nv.
  pose proof (near_le_diff _ _ _ _ _ (Bd u) (Bd v) Nu Nv L (Rle_refl _)) as G.
  assert (L1 : 1 <= IZR (len u v)) by (apply IZR_le; pose proof (len_nonneg u v); lia).
  assert (F : Dv u < Dv v + 4 * IZR (len u v)) by lra.
  pose proof g1_pos as G1. assert (GG : 0 < g1 * g1) by (apply Rmult_lt_0_compat; auto).
  apply (Rmult_lt_compat_l (g1 * g1)) in F; auto. lra.
Qed.

(* the sorted ids *)
Notation sq := (map (fun p => SquaredDistance p ctr) vs).
Lemma nth_V i : (0 <= i < n)%Z -> nth (Z.to_nat i) vs (@mkvec B64 (fofZ B64 0) (fofZ B64 0) (fofZ B64 0)) = V i.
Proof. intros H. apply nth_error_nth. apply V_nth; auto. Qed.
Lemma nth_D i : (0 <= i < n)%Z -> nth (Z.to_nat i) sq (fofZ B64 0) = SquaredDistance (V i) ctr.
Proof. intros H. apply nth_error_nth. rewrite (map_nth_error _ _ _ (V_nth i H)). reflexivity. Qed.
Definition gkey (i j : Z) : Prop :=
  DD i < DD j \/ (DD i = DD j /\ (IZR (GX i) < IZR (GX j) \/ (IZR (GX i) = IZR (GX j) /\ IZR (GY i) < IZR (GY j)))).
Lemma glessId i j : (0 <= i < n)%Z -> (0 <= j < n)%Z -> (@lessId B64 vs sq i j = true <-> gkey i j).
Proof.
  intros Hi Hj. unfold lessId. rewrite !nth_V, !nth_D by auto. unfold gkey.
  rewrite (sr_eq _ _ _ _ _ (DD_sr i Hi) (DD_sr j Hj)), (sr_lt _ _ _ _ _ (DD_sr i Hi) (DD_sr j Hj)).
  rewrite (sr_eq _ _ _ _ _ (si_sr _ _ _ _ (cx i)) (si_sr _ _ _ _ (cx j))), (sr_lt _ _ _ _ _ (si_sr _ _ _ _ (cx i)) (si_sr _ _ _ _ (cx j))),
    (sr_lt _ _ _ _ _ (si_sr _ _ _ _ (cy i)) (si_sr _ _ _ _ (cy j))).
  destruct (Reqb_spec (DD i) (DD j)) as [E|E]; cbn.
  - destruct (Reqb_spec (IZR (GX i)) (IZR (GX j))) as [E2|E2]; cbn; rewrite Rltb_true; split; intros; lra.
  - rewrite Rltb_true. split; intros; lra.
Qed.
Lemma glessId_false i j : (0 <= i < n)%Z -> (0 <= j < n)%Z -> (@lessId B64 vs sq i j = false <-> ~ gkey i j).
Proof. intros Hi Hj. rewrite <- glessId by auto. destruct (lessId vs sq i j); split; intros; congruence. Qed.
Lemma gsorted srt : good_sort srt ->
  let ids := srt (@lessId B64 vs sq) (allIds (length vs)) in
  NoDup ids /\ (forall i, In i ids <-> (0 <= i < n)%Z) /\ StronglySorted (before pts go) ids.
Proof.
  intros GS. cbv zeta. destruct (GS (@lessId B64 vs sq) (allIds (length vs))) as [PM ST]; rewrite len_gpts in *.
  - intros i j Hi Hj L. apply In_allIds in Hi. apply In_allIds in Hj. apply glessId in L; auto. apply glessId_false; auto.
    unfold gkey in *. lra.
  - intros i j k Hi Hj Hk L1 L2. apply In_allIds in Hi. apply In_allIds in Hj. apply In_allIds in Hk.
    apply glessId_false in L1; auto. apply glessId_false in L2; auto. apply glessId_false; auto. unfold gkey in *. lra.
  - set (ids := srt _ _) in *. assert (I : forall i, In i ids <-> (0 <= i < n)%Z).
    { intros i. rewrite <- In_allIds. split; apply Permutation_in; auto. apply Permutation_sym; auto. }
    split; [apply (Permutation_NoDup PM), allIds_NoDup|]. split; auto.
    assert (I' : forall i, In i ids -> (0 <= i < n)%Z) by (intros i; apply I). clear PM I.
    induction ST as [|x l ST IH F]; constructor.
    + apply IH. intros i Hi. apply I'. right; auto.
    + rewrite Forall_forall in *. intros j Hj. specialize (F j Hj). apply glessId_false in F; [|apply I'; simpl; auto|apply I'; simpl; auto].
      unfold gkey in F. apply DD_before; [apply I'; simpl; auto|apply I'; simpl; auto|lra].
Qed.

(* near-duplicates *)
Lemma near0 i : (0 <= i < n)%Z -> flt B64 (SquaredDistance (V i) (mkvec infinity infinity (fofZ B64 0))) eps = false.
Proof.
  intros Hi. unfold SquaredDistance, Norm2, Dot, Sub. cbn [vx vy vz].
  assert (S : forall x : b64, is_finite x = true -> fsub B64 x infinity = B754_infinity true).
  { intros x F. destruct x as [s|s| |s m ex B]; try discriminate F; reflexivity. }
  rewrite !S; [|apply (cy i)|apply (cx i)].
  destruct (d_mul e He (fsub B64 (vz (V i)) (fofZ B64 0)) (zz - 0) (fsub B64 (vz (V i)) (fofZ B64 0)) (zz - 0)) as [[F _] _].
  1, 2: apply (si_weaken _ _ _ 128); [lia|]; apply (si_sub _ _ _ _ _ 128 0); try lia; [unfold okexp; lia|apply cz; auto|apply si_zero].
  change (fadd B64 (fmul B64 (B754_infinity true : B64) (B754_infinity true : B64)) (fmul B64 (B754_infinity true : B64) (B754_infinity true : B64))) with (B754_infinity false : B64).
  set (w := fmul B64 (fsub B64 (vz (V i)) _) _) in *. assert (Q : fadd B64 (B754_infinity false : B64) w = B754_infinity false).
  { clearbody w. destruct (w : b64) as [s|s| |s m ex B]; try discriminate F; reflexivity. }
  rewrite Q. reflexivity.
Qed.
End Center.
Lemma gnear i j : 0 <= i < n -> 0 <= j < n -> flt B64 (SquaredDistance (V i) (V j)) eps = true -> (rdist2 (PP i) (PP j) < epsR)%R.
Proof.
  intros Hi Hj H. pose proof (si_sr _ _ _ _ (sqdist i j Hi Hj)) as [F E].
  assert (Ee : fr (@eps B64) epsR).
  { split; [reflexivity|]. unfold eps, epsR. cbn. unfold Defs.F2R. cbn. lra. }
  rewrite (fr_lt _ _ _ _ (conj F E) Ee) in H. apply Rltb_true in H.
  replace (rdist2 (PP i) (PP j)) with (bp (2 * e) * IZR (len j i))%R; auto.
  unfold rdist2, rdot, rsub. cbn [rx ry rz]. rewrite !px, !py, !pz by auto. unfold zL. rewrite plus_IZR, !mult_IZR, !minus_IZR.
  replace (2 * e) with (e + e) by ring. rewrite bpow_plus. ring.
Qed.
End GridTri.

Theorem triangulate_b64 e zz srt vs : -170 <= e <= 170 -> good_sort srt -> (forall v, In v vs -> gridpt e zz v) ->
  length vs <> 1%nat -> Ln vs < 2 ^ 63 ->
  (vs = [] /\ triangulate srt vs = Ok (emptyTri, false)) \/
  (2 <= Ln vs /\ on_a_line (gpts vs) /\ triangulate srt vs = Ok (emptyTri, true)) \/
  (~ on_a_line (gpts vs) /\ exists s V R i0 i1 i2 hs, triangulate srt vs = Ok (cut s, false) /\
     rest (gpts vs) i0 i1 i2 hs s V R /\
     forall i, 0 <= i < Ln vs -> exists v, In v V /\ (rdist2 (PP (gpts vs) i) (PP (gpts vs) v) < epsR)%R).
Proof.
  intros He GS Hgrid L1 Big. destruct (Nat.eq_dec (length vs) 0) as [E|NE].
  { left. destruct vs; [|discriminate]. split; reflexivity. }
  right. assert (N2 : 2 <= Ln vs) by lia.
  rewrite triangulate_eq by (intros Q; apply NE; destruct vs; [reflexivity|discriminate]). cbv zeta.
  pose proof (len_gpts vs) as LG. set (pts := gpts vs) in *. set (n := Ln pts).
  unfold bounds. rewrite (V_zget vs 0), (V_zget vs 1) by (fold pts; lia). cbn [rbind]. destruct (fold_left _ _ _) as [[[x0 y0] x1] y1].
  set (m := @mkvec B64 _ _ _). pose proof (gseed0 vs N2 m) as R0. fold pts in R0. rewrite (V_zget vs (seed0 _ m)) by auto. cbn [rbind].
  set (i0 := seed0 vs m) in *. destruct (gseed1 e zz vs He Hgrid N2 i0 R0) as [R1 _]. fold pts in R1. rewrite (V_zget vs (seed1 _ _ _)) by auto. cbn [rbind].
  destruct (seed2 _ _ _ _ _) as [i2 r] eqn:E2.
  destruct (gseeds e zz vs He Hgrid N2 i0 _ i2 r R0 eq_refl E2) as (_ & D). fold pts in D.
  set (i1 := seed1 vs i0 (vat vs i0)) in *.
  destruct D as [[-> Line]|(Ef & R2 & Ar & Emp)].
  { left. split; [lia|]. auto. }
  right. assert (NL : ~ on_a_line pts).
  { intros Ln. apply Ar. apply (line_ar pts _ _ _ Ln); apply PP_In; auto. }
  split; auto. rewrite Ef. rewrite (V_zget vs i2) by auto. cbn [rbind].
  rewrite (ex_lt _ _ (gexact e zz vs He Hgrid) i0 i1 i2) by auto. fold pts.
  (* the general case for a positively oriented seed *)
  assert (Gen : forall j1 j2, 0 <= j1 < n -> 0 <= j2 < n -> (0 < ar (PP pts i0) (PP pts j1) (PP pts j2))%R ->
    (forall v, 0 <= v < n -> (0 <= incirc (PP pts i0) (PP pts j1) (PP pts j2) (PP pts v))%R) ->
    exists s V R a0 a1 a2 hs,
     (let! v1 := zget vs j1 in
      let! v2 := zget vs j2 in
      let! s := initTri vs (circumcenter (vat vs i0) v1 v2) i0 j1 j2 in
      let! s := insertAll vs (circumcenter (vat vs i0) v1 v2) i0 j1 j2
         (srt (lessId vs (map (fun p => SquaredDistance p (circumcenter (vat vs i0) v1 v2)) vs)) (allIds (length vs)))
         (mkvec infinity infinity (fofZ B64 0)) s in
      Ok (cut s, false)) = Ok (cut s, false) /\
     rest pts a0 a1 a2 hs s V R /\
     forall i, 0 <= i < Ln vs -> exists v, In v V /\ (rdist2 (PP pts i) (PP pts v) < epsR)%R).
  { intros j1 j2 Rj1 Rj2 Or Hs. rewrite !V_zget by auto. cbn [rbind].
    assert (Nd : zd (GX e vs i0) (GY e vs i0) (GX e vs j1) (GY e vs j1) (GX e vs j2) (GY e vs j2) <> 0).
    { intros Q. apply (ar_zero e zz vs Hgrid) in Q. fold pts in Q. lra. }
    assert (Out : forall v, 0 <= v < n -> (0 <= ar (PP pts i0) (PP pts j1) (PP pts j2) * incirc (PP pts i0) (PP pts j1) (PP pts j2) (PP pts v))%R).
    { intros v Hv. apply Rmult_le_pos; [lra|auto]. }
    pose proof (gsorted e zz vs He Hgrid N2 i0 j1 j2 Nd srt GS) as SI. cbv zeta in SI.
    set (ctr := circumcenter (vat vs i0) (vat vs j1) (vat vs j2)) in *.
    set (ids := srt _ _) in *. destruct SI as (ND & Iids & ST). fold pts in Iids, ST.
    assert (HS : 0 < ftoZ B64 (fceil B64 (fsqrt B64 (fofZ B64 (Ln pts)))) <= 2 ^ 53) by (apply hsize_b64; lia).
    destruct (run_ok vs pts (gexact e zz vs He Hgrid) i0 j1 j2 ctr (go e vs i0 j1 j2)) with (ids := ids) as (s & V & R & E & RS & Cov); auto.
    - apply (gplanar e zz vs Hgrid).
    - lia.
    - intros v Hv. apply (hash_ok e zz vs He Hgrid i0 j1 j2); auto.
    - intros i Hi. apply (near0 e zz vs He Hgrid); auto.
    - intros i j Hi Hj. apply (gnear e zz vs He Hgrid); auto.
    - intros j i Hj Hi. apply (first_ok e zz vs He Hgrid i0 j1 j2); auto.
    - exists s, V, R, i0, j1, j2. eexists. split; [exact E|]. split; [exact RS|]. rewrite LG. auto. }
  destruct (Rltb (ar (PP pts i0) (PP pts i1) (PP pts i2)) 0) eqn:B.
  - apply Rltb_true in B. apply Gen; auto.
    + rewrite ar_swap23. lra.
    + intros v Hv. specialize (Emp v Hv).
      assert (E : incirc (PP pts i0) (PP pts i2) (PP pts i1) (PP pts v) = (- incirc (PP pts i0) (PP pts i1) (PP pts i2) (PP pts v))%R)
        by (unfold incirc; ring).
      rewrite E. apply (Rmult_le_reg_l (- ar (PP pts i0) (PP pts i1) (PP pts i2))); lra.
  - assert (B' : (0 < ar (PP pts i0) (PP pts i1) (PP pts i2))%R) by (apply Rltb_false in B; lra).
    apply Gen; auto. intros v Hv. specialize (Emp v Hv).
    apply (Rmult_le_reg_l (ar (PP pts i0) (PP pts i1) (PP pts i2))); lra.
Qed.
