(** Triangulate in binary64 on inputs clear of rounding errors (C161): exact predicates, an empty seed circle, a good
    insertion order and valid hash keys, so the proof of P_triang applies. *)
From Coq Require Import ZArith Lia List Bool Reals Lra QArith Permutation Sorted.
From Flocq Require Import Core BinarySingleNaN.
From Verif Require Import Base Arith GoLoop M_r3 M_tri2 M_triangulator Spec_r3 Spec_plane Spec_halfedge Spec_delaunay Spec_acc64 Spec_clear Spec_circ64 Spec_cleartri XRvec P_tri2 P_delgeom
  P_leg P_legmodel P_tstate P_addtri P_ringops P_insstep P_insert P_seed P_init P_flipterm P_triang P_insphere_err P_insphere_b64 P_b64sc P_b64hash P_b64err P_b64rel P_b64norm P_b64hull P_b64triang P_acc64 P_clearhull P_circ64.
Import ListNotations.
Open Scope R_scope.

(** ** the predicates *)
Lemma area_same (a b c : vec B64) : tame_xy a -> tame_xy b -> tame_xy c -> B2R (vx a : b64) = B2R (vx c : b64) -> B2R (vy a : b64) = B2R (vy c : b64) -> B2R (area a b c) = 0.
Proof.
  intros (Ax & Ay) (Bx & By) (Cx & Cy) Ex Ey.
  pose proof (rel_diff _ _ _ _ (tame_rel _ By) (tame_rel _ Ay)) as D1. pose proof (rel_diff _ _ _ _ (tame_rel _ Cx) (tame_rel _ Bx)) as D2.
  pose proof (rel_diff _ _ _ _ (tame_rel _ Bx) (tame_rel _ Ax)) as D3. pose proof (rel_diff _ _ _ _ (tame_rel _ Cy) (tame_rel _ By)) as D4.
  pose proof (rel_mul _ _ _ _ 180 201 180 201 ltac:(lia) ltac:(lia) D1 D2) as M1. pose proof (rel_mul _ _ _ _ 180 201 180 201 ltac:(lia) ltac:(lia) D3 D4) as M2.
  pose proof (rel_sub _ _ _ _ (180 + 180) (201 + 201) ltac:(lia) ltac:(lia) M1 M2) as (_ & E & _). unfold area. rewrite E, Ex, Ey.
  replace (B2R (vx c : b64) - B2R (vx b : b64)) with (- (B2R (vx b : b64) - B2R (vx c : b64))) by ring.
  replace (B2R (vy c : b64) - B2R (vy b : b64)) with (- (B2R (vy b : b64) - B2R (vy c : b64))) by ring. rewrite !(rndX_opp (_ - _)).
  match goal with |- rndX (rndX (?p * - ?q) - rndX (?q * - ?p)) = 0 => replace (p * - q) with (q * - p) by ring end. rewrite Rminus_eq_0. apply round_0. typeclasses eauto.
Qed.
Lemma area_sign (a b c : vec B64) : tame_xy a -> tame_xy b -> tame_xy c -> clear_orient (rvec b) (rvec a) (rvec c) ->
  let w := ar (rvec a) (rvec b) (rvec c) in (0 < B2R (area a b c) <-> 0 < w) /\ (B2R (area a b c) < 0 <-> w < 0).
Proof.
  intros Ha Hb Hc H w. pose proof (area_acc a b c Ha Hb Hc) as Q. fold (ar (rvec a) (rvec b) (rvec c)) in Q. fold w in Q.
  assert (Et : area_terms (rvec a) (rvec b) (rvec c) = cross_terms (rvec b) (rvec a) (rvec c)).
  { unfold area_terms, cross_terms. rewrite (Rabs_minus_sym (ry (rvec b))), (Rabs_minus_sym (rx (rvec b))). ring. }
  assert (Ew : ccw (rvec b) (rvec a) (rvec c) = w) by (unfold w, ar, ccw; ring). rewrite Et in Q. destruct H as [H|[H|(H1 & H2)]].
  - rewrite Ew in H. exact (acc_sign _ _ _ _ _ _ Q H).
  - rewrite H in Q. destruct (acc_bound _ _ _ _ _ _ Q) as (_ & B). rewrite Rmult_0_r in B.
    assert (E : B2R (area a b c) - w = 0) by (apply Rabs_le_inv in B; lra). split; split; lra.
  - cbn [rx ry rvec] in H1, H2. rewrite (area_same a b c Ha Hb Hc H1 H2). unfold w, ar, ccw. cbn [rx ry rvec]. rewrite H1, H2. match goal with |- (_ <-> 0 < ?t) /\ _ => replace t with 0 by ring end. split; split; auto.
Qed.
Lemma incircle_sign (a b c p : vec B64) : tame_xy a -> tame_xy b -> tame_xy c -> tame_xy p -> clear_circle (rvec a) (rvec b) (rvec c) (rvec p) ->
  inCircle a b c p = Rltb (incirc (rvec a) (rvec b) (rvec c) (rvec p)) 0.
Proof.
  intros Ha Hb Hc Hp L. pose proof (incircle_acc a b c p Ha Hb Hc Hp) as Q.
  replace (incirc (rvec a) (rvec b) (rvec c) (rvec p)) with (incircle_det (rvec a) (rvec b) (rvec c) (rvec p)) by (unfold incircle_det, incirc, dist2xy; ring).
  set (det := incircle_det _ _ _ _) in *. assert (S : B2R (incircle_val a b c p) < 0 <-> det < 0).
  { destruct L as [L|L]; [exact (proj2 (acc_sign _ _ _ _ _ _ Q L))|]. rewrite L in Q. destruct (acc_bound _ _ _ _ _ _ Q) as (_ & B). rewrite Rmult_0_r in B.
    assert (E : B2R (incircle_val a b c p) - det = 0) by (apply Rabs_le_inv in B; lra). split; lra. }
  destruct Q as (Hr & _). rewrite inCircle_val, (rel_lt _ _ _ _ _ _ _ _ Hr rel_z). apply eq_true_iff_eq. rewrite !Rltb_true. exact S.
Qed.

Lemma fin_le (x y : b64) : is_finite x = true -> is_finite y = true -> fle B64 x y = Rleb (B2R x) (B2R y).
Proof. intros Fx Fy. cbn [fle B64]. rewrite Bleb_correct by auto. destruct (Rleb_spec (B2R x) (B2R y)); [apply Rle_bool_true|apply Rle_bool_false]; auto. Qed.
Section ClearTri.
Variable vs : list (vec B64).
Hypothesis Hv : forall v, In v vs -> tame_vec v.
Notation pts := (gpts vs).
Notation n := (Ln pts).
Notation PP := (PP pts).
Notation V := (vat vs).
Hypothesis Hc : clear_triangulation pts.
Hypothesis Hn : (2 <= Ln vs)%Z.
Notation rng i := (0 <= i < n)%Z.
Lemma Pin i : rng i -> In (PP i) pts. Proof. apply PP_In. Qed.
Lemma Vt i : rng i -> tame_vec (V i). Proof. intros H. apply Hv, V_In; auto. Qed.
Lemma Vxy i : rng i -> tame_xy (V i). Proof. intros H. apply tame_vec_xy, Vt; auto. Qed.
Lemma cexact : exact_preds vs pts.
Proof.
  destruct (ct_points _ Hc) as (Ho & _). constructor.
  - apply len_gpts.
  - intros a b c v Ra Rb Rc Rv Ar. unfold badA. rewrite !PP_V. apply incircle_sign; auto using Vxy.
    rewrite <- !PP_V. apply (ct_circles _ Hc); auto using Pin. unfold ar in Ar. lra.
  - apply (bad_self_zn B64 _ vs null_like_B64).
  - intros a b c Ra Rb Rc. pose proof (Ho _ _ _ (Pin b Rb) (Pin a Ra) (Pin c Rc)) as O. rewrite !PP_V in *.
    destruct (area_sign _ _ _ (Vxy a Ra) (Vxy b Rb) (Vxy c Rc) O) as (_ & S). pose proof (proj1 (area_acc _ _ _ (Vxy a Ra) (Vxy b Rb) (Vxy c Rc))) as R1.
    rewrite (rel_lt _ _ _ _ _ _ _ _ R1 rel_z). apply eq_true_iff_eq. rewrite !Rltb_true. exact S.
  - intros a b c Ra Rb Rc. pose proof (Ho _ _ _ (Pin b Rb) (Pin a Ra) (Pin c Rc)) as O. rewrite !PP_V in *.
    destruct (area_sign _ _ _ (Vxy a Ra) (Vxy b Rb) (Vxy c Rc) O) as (_ & S). pose proof (proj1 (area_acc _ _ _ (Vxy a Ra) (Vxy b Rb) (Vxy c Rc))) as (F & _).
    destruct zeroF as (Fz & Ez). rewrite (fin_le _ _ Fz F), Ez. apply eq_true_iff_eq. rewrite !Rleb_true. split; intros L; apply Rnot_lt_le; intros Q; apply S in Q; lra.
Qed.
(** squared distances of input points *)
Notation dd i j := (dist2xy (PP i) (PP j)).
Lemma dd_acc i j : rng i -> rng j -> acc (SquaredDistance (V i) (V j)) (dd i j) (dd i j) 5 360 404.
Proof.
  intros Ri Rj. pose proof (sqdist_acc _ _ (Vt i Ri) (Vt j Rj)) as Q. rewrite <- !PP_V in Q.
  replace (rdist2 (PP i) (PP j)) with (dd i j) in Q; auto. pose proof (ct_planar _ Hc _ _ (Pin i Ri) (Pin j Rj)) as Z. unfold rdist2, rdot, rsub, dist2xy. cbn [rx ry rz]. rewrite Z. ring.
Qed.
Lemma dd_sym i j : dd i j = dd j i. Proof. unfold dist2xy. ring. Qed.
Lemma dd_pos i j : 0 <= dd i j. Proof. unfold dist2xy. pose proof (Rle_0_sqr (rx (PP i) - rx (PP j))). pose proof (Rle_0_sqr (ry (PP i) - ry (PP j))). unfold Rsqr in *. lra. Qed.
Lemma dd_same i j : dd i j = 0 <-> samexy (PP i) (PP j).
Proof. split; [apply dist_nz|]. intros (X & Y). unfold dist2xy. rewrite X, Y. ring. Qed.
Lemma g5 : gamma 5 <= 6 / 2 ^ 53. Proof. pose proof (gamma_lin 5 ltac:(lia)) as Q. replace (INR 5) with 5 in Q by (simpl; lra). lra. Qed.
Lemma dd_val i j : rng i -> rng j -> let x := SquaredDistance (V i) (V j) in is_finite (x : b64) = true /\ (1 - 6 / 2 ^ 53) * dd i j <= B2R (x : b64) <= (1 + 6 / 2 ^ 53) * dd i j.
Proof.
  intros Ri Rj x. destruct (acc_bound _ _ _ _ _ _ (dd_acc i j Ri Rj)) as (F & B). split; [exact F|]. apply Rabs_le_inv in B. fold x in B.
  assert (gamma 5 * dd i j <= 6 / 2 ^ 53 * dd i j) by (apply Rmult_le_compat_r; [apply dd_pos|apply g5]). lra.
Qed.
(** the second seed: an edge whose diametral circle is empty *)
Lemma fin_inf (x : b64) : is_finite x = true -> flt B64 x infinity = true /\ feq B64 x infinity = false.
Proof. intros F. destruct x as [s|s| |s m e B]; try discriminate F; try destruct s; split; reflexivity. Qed.
Lemma cseed1 i0 : rng i0 -> let i1 := seed1 vs i0 (V i0) in
  rng i1 /\ ((forall j, rng j -> samexy (PP i0) (PP j)) \/ (i1 <> i0 /\ diametral pts (PP i0) (PP i1))).
Proof.
  intros H0. cbv zeta. unfold seed1. destruct (argmin _ _ _ _ _ _ _) as [i1 m'] eqn:E. apply argmin_b64 in E. cbn [fst].
  pose proof (len_gpts vs) as LG. destruct E as [A B].
  assert (Zf : is_finite (fofZ B64 0 : b64) = true /\ B2R (fofZ B64 0 : b64) = 0) by (split; reflexivity). destruct Zf as (Zf & Z0).
  assert (Pos : forall j, rng j -> dd j i0 <> 0 -> flt B64 (fofZ B64 0) (SquaredDistance (V j) (V i0)) = true).
  { intros j Hj D. destruct (dd_val j i0 Hj H0) as (F & L & _). rewrite fin_lt by auto. apply Rltb_true. rewrite Z0. pose proof (dd_pos j i0) as P0. eapply Rlt_le_trans; [|exact L]. apply Rmult_lt_0_compat; lra. }
  assert (A' : forall j, rng j -> j <> i0 -> dd j i0 <> 0 -> flt B64 (SquaredDistance (V j) (V i0)) m' = false).
  { intros j Hj Nj D. apply (A (Z.to_nat j) _ (V_nth vs j Hj)).
    - rewrite Z2Nat.id by lia. rewrite Z.add_0_l. apply Z.eqb_neq. auto.
    - apply Pos; auto. }
  destruct B as [[-> ->]|(k & q & B1 & B2 & B3 & B4 & B5 & B6)].
  - split; [lia|]. left. intros j Hj. destruct (Z.eq_dec j i0) as [->|N]; [split; reflexivity|]. apply dd_same. rewrite dd_sym. destruct (Req_dec (dd j i0) 0) as [|D]; auto. specialize (A' j Hj N D).
    destruct (fin_inf _ (proj1 (dd_val j i0 Hj H0))) as (Q & _). unfold infinity in *. congruence.
  - apply V_nth_inv in B1. destruct B1 as [Rk ->]. rewrite Z.add_0_l in B2. rewrite <- B2 in *. split; auto. right. apply Z.eqb_neq in B3. split; auto.
    destruct (dd_val i1 i0 Rk H0) as (F1 & L1 & U1). rewrite fin_lt in B4 by auto. apply Rltb_true in B4. rewrite Z0 in B4.
    assert (D1 : 0 < dd i1 i0). { destruct (dd_pos i1 i0) as [|Q]; auto. exfalso. rewrite <- Q in *. lra. }
    split; [intros Q; apply dd_same in Q; rewrite dd_sym in Q; lra|]. intros c Ic. destruct (In_PP pts c Ic) as (j & Hj & <-).
    assert (E2 : 2 * ((rx (PP j) - rx (PP i0)) * (rx (PP j) - rx (PP i1)) + (ry (PP j) - ry (PP i0)) * (ry (PP j) - ry (PP i1))) = dd j i0 - dd i1 i0 + dd i1 j) by (unfold dist2xy; ring).
    destruct (Req_dec (dd j i0) 0) as [D0|D0].
    { apply dd_same in D0. destruct D0 as (X & Y). rewrite X, Y. lra. }
    destruct (ct_spread _ Hc (PP i0) (PP i1) (PP j)) as [S|S]; auto using Pin.
    { destruct S as (X & Y). rewrite X, Y. lra. }
    assert (N : j <> i0) by (intros ->; apply D0; unfold dist2xy; ring). specialize (A' j Hj N D0). rewrite B5 in A'. destruct (dd_val j i0 Hj H0) as (F2 & L2 & U2).
    rewrite fin_lt in A' by auto. apply Rltb_false in A'. rewrite (dd_sym i0 i1) in S.
    assert (C : (1 - 6 / 2 ^ 53) * dd i1 i0 <= (1 + 6 / 2 ^ 53) * dd j i0) by lra. lra.
Qed.
(** the third seed: an empty circle *)
Lemma radius2_circ a b c : ccw a b c <> 0 -> dist2xy a (rcircumcenter a b c) = radius2 a b c.
Proof. intros N. unfold radius2, dist2xy, rcircumcenter. cbn [rx ry]. unfold ccw in *. field. exact N. Qed.
Lemma exact_r2_eq a b c : mild (rvec a) (rvec b) (rvec c) -> exact_r2 a b c = radius2 (rvec a) (rvec b) (rvec c).
Proof. intros M. destruct (circle3_unique _ _ _ _ _ (proj1 M) (exact_circle a b c M)) as (_ & _ & ->). apply radius2_circ, M. Qed.
Lemma crad_fin a b c : rng a -> rng b -> rng c -> mild (PP a) (PP b) (PP c) -> radius_err (PP a) (PP b) (PP c) < radius2 (PP a) (PP b) (PP c) ->
  let r := circumradius (V a) (V b) (V c) in is_finite (r : b64) = true /\ Rabs (B2R (r : b64) - radius2 (PP a) (PP b) (PP c)) <= radius_err (PP a) (PP b) (PP c).
Proof.
  intros Ra Rb Rc. rewrite !PP_V. intros M L. rewrite <- exact_r2_eq in * by auto. destruct (rad_acc _ _ _ (Vxy a Ra) (Vxy b Rb) (Vxy c Rc) M L) as (_ & F & B). split; [exact F|exact B].
Qed.
Lemma gamma_pos k : 0 <= gamma k. Proof. unfold gamma. assert (1 <= (1 + / 2 ^ 53) ^ k) by (apply pow_R1_Rle; lra). lra. Qed.
Lemma crad_inf a b c : rng a -> rng b -> rng c -> ccw (PP a) (PP b) (PP c) = 0 -> circumradius (V a) (V b) (V c) = @infinity B64.
Proof.
  intros Ra Rb Rc Z. destruct (ct_points _ Hc) as (Ho & _). pose proof (Ho _ _ _ (Pin a Ra) (Pin b Rb) (Pin c Rc)) as O. rewrite !PP_V in *. apply rad_inf; auto using Vxy.
  destruct O as [O|[O|O]]; [|auto|auto]. exfalso. rewrite Z, Rabs_R0 in O. assert (0 <= cross_terms (rvec (V a)) (rvec (V b)) (rvec (V c))) by (unfold cross_terms; apply Rplus_le_le_0_compat; apply Rmult_le_pos; apply Rabs_pos).
  pose proof (Rmult_le_pos _ _ (gamma_pos 4) H). lra.
Qed.
Lemma cseeds i0 i1 i2 r : rng i0 -> i1 = seed1 vs i0 (V i0) -> seed2 vs i0 i1 (V i0) (V i1) = (i2, r) ->
  rng i1 /\
  ((r = @infinity B64 /\ on_a_line pts) \/
   (feq B64 r infinity = false /\ rng i2 /\ ar (PP i0) (PP i1) (PP i2) <> 0 /\ diametral pts (PP i0) (PP i1) /\
    forall v, rng v -> 0 <= ar (PP i0) (PP i1) (PP i2) * incirc (PP i0) (PP i1) (PP i2) (PP v))).
Proof.
  intros R0 E1 E2. destruct (cseed1 i0 R0) as [R1 D]. rewrite <- E1 in *. split; auto.
  unfold seed2 in E2. apply argmin_b64 in E2. destruct E2 as [A B].
  assert (A' : forall j, rng j -> j <> i0 -> j <> i1 -> flt B64 (circumradius (V i0) (V i1) (V j)) r = false).
  { intros j Hj N0 N1. apply (A (Z.to_nat j)); auto. apply V_nth; auto. rewrite Z2Nat.id, Z.add_0_l by lia.
    apply orb_false_iff. split; apply Z.eqb_neq; auto. }
  destruct D as [D|(N10 & G)].
  { left. assert (C : forall j, rng j -> circumradius (V i0) (V i1) (V j) = @infinity B64).
    { intros j Hj. apply crad_inf; auto. unfold ccw. destruct (D i1 R1) as [Q1 Q2]. rewrite Q1, Q2. ring. }
    split.
    - destruct B as [[_ ->]|(k & q & B1 & B2 & B3 & B4 & B5 & B6)]; auto.
      apply V_nth_inv in B1. destruct B1 as [Rk ->]. rewrite B5, C; auto.
    - apply (line_same pts (PP i0)). intros b Hb. destruct (In_PP pts b Hb) as (j & Hj & <-). auto. }
  pose proof G as (S01 & Gd). pose proof (ct_radii _ Hc _ _ (Pin i0 R0) (Pin i1 R1) G) as Hr.
  assert (CF : forall j, rng j -> ccw (PP i0) (PP i1) (PP j) <> 0 -> let x := circumradius (V i0) (V i1) (V j) in
    is_finite (x : b64) = true /\ Rabs (B2R (x : b64) - radius2 (PP i0) (PP i1) (PP j)) <= radius_err (PP i0) (PP i1) (PP j)).
  { intros j Hj Q. destruct (Hr _ _ (Pin j Hj) (Pin j Hj) Q Q) as (M & L & _). apply crad_fin; auto. }
  destruct B as [[_ ->]|(k & q & B1 & B2 & B3 & B4 & B5 & B6)].
  - left. split; auto. apply (line_two pts (PP i0) (PP i1)); auto.
    intros c Ic. destruct (In_PP pts c Ic) as (j & Hj & <-).
    destruct (Z.eq_dec j i0) as [->|N0]; [apply ar_aba|]. destruct (Z.eq_dec j i1) as [->|N1]; [apply ar_baa|].
    specialize (A' j Hj N0 N1). unfold ar. destruct (Req_dec (ccw (PP i0) (PP i1) (PP j)) 0) as [Q|Q]; [lra|]. exfalso.
    destruct (fin_inf _ (proj1 (CF j Hj Q))) as (Q1 & _). unfold infinity in *. congruence.
  - right. apply V_nth_inv in B1. destruct B1 as [Rk ->]. rewrite Z.add_0_l in B2. rewrite <- B2 in *.
    destruct (Req_dec (ccw (PP i0) (PP i1) (PP i2)) 0) as [Q|Q].
    { exfalso. rewrite crad_inf in B5, B6 by auto. subst r. rewrite blt_irrefl in B6. discriminate. }
    split; [rewrite B5; apply (fin_inf _ (proj1 (CF i2 Rk Q)))|]. split; auto.
    assert (Ar : ar (PP i0) (PP i1) (PP i2) <> 0) by (unfold ar; lra). split; auto. split; auto.
    intros v Rv. apply seed_empty; auto; [apply (Gd _ (Pin i2 Rk))|apply (Gd _ (Pin v Rv))|]. intros Nv. assert (Nv' : ccw (PP i0) (PP i1) (PP v) <> 0) by (unfold ar in Nv; lra).
    rewrite !radius2_circ by auto.
    destruct (Z.eq_dec v i0) as [->|N0]; [exfalso; apply Nv, ar_aba|].
    destruct (Z.eq_dec v i1) as [->|N1]; [exfalso; apply Nv, ar_baa|].
    specialize (A' v Rv N0 N1). rewrite B5 in A'. destruct (CF v Rv Nv') as (Fv & Ev), (CF i2 Rk Q) as (F2 & E2). rewrite fin_lt in A' by auto. apply Rltb_false in A'.
    destruct (Hr _ _ (Pin i2 Rk) (Pin v Rv) Q Nv') as (_ & _ & [->|Gap]); [lra|]. apply Rabs_le_inv in Ev, E2. apply Rnot_lt_le. intros L. rewrite Rabs_pos_eq in Gap by lra. lra.
Qed.

(** the center and the order *)
Section Center.
Variables a b c : Z.
Hypothesis Ra : rng a.
Hypothesis Rb : rng b.
Hypothesis Rc : rng c.
Hypothesis Mi : mild (PP a) (PP b) (PP c).
Hypothesis CC : clear_center pts (PP a) (PP b) (PP c).
Hypothesis Out : forall v, rng v -> 0 <= ar (PP a) (PP b) (PP c) * incirc (PP a) (PP b) (PP c) (PP v).
Notation ctr := (circumcenter (V a) (V b) (V c)).
Notation o := (exact_center (V a) (V b) (V c)).
Notation r2 := (exact_r2 (V a) (V b) (V c)).
Notation ce := (center_err (PP a) (PP b) (PP c)).
Definition co : rv := rvec ctr.
Lemma Mi' : mild (rvec (V a)) (rvec (V b)) (rvec (V c)). Proof. rewrite <- !PP_V. exact Mi. Qed.
Lemma Circ : circle3 o r2 (PP a) (PP b) (PP c). Proof. rewrite !PP_V. apply exact_circle, Mi'. Qed.
Lemma sq_nn x : 0 <= x * x. Proof. pose proof (Rle_0_sqr x). auto. Qed.
Lemma out_o v : rng v -> r2 <= dist2xy (PP v) o.
Proof.
  intros Rv. pose proof (Out v Rv) as Q. rewrite (incirc_identity _ _ _ _ _ _ Circ) in Q. unfold ar in Q. destruct Mi as (N & _). set (w := ccw _ _ _) in *.
  assert (W : 0 < w * w) by (apply Rsqr_pos_lt in N; exact N). apply Rnot_lt_le. intros L. assert (0 < w * w * (r2 - dist2xy (PP v) o)) by (apply Rmult_lt_0_compat; lra). lra.
Qed.
Lemma clr p q : rng p -> rng q -> samexy (PP p) (PP q) \/ (4 * (ce * ce) < dd p q /\ / 2 ^ 48 * (dist2xy (PP p) o + dist2xy (PP q) o + rz (PP p) * rz (PP p)) < dd p q).
Proof. intros Rp Rq. apply (CC o r2 Circ); auto using Pin. intros v Iv. destruct (In_PP pts v Iv) as (j & Hj & <-). apply out_o; auto. Qed.
Lemma ctr_ok : is_finite (vx ctr : b64) = true /\ is_finite (vy ctr : b64) = true /\ vz ctr = fofZ B64 0 /\ Rabs (rx co - rx o) + Rabs (ry co - ry o) <= ce.
Proof. destruct (ctr_err _ _ _ (Vxy a Ra) (Vxy b Rb) (Vxy c Rc) Mi') as (F1 & F2 & E & _). rewrite !PP_V. unfold co. rewrite circ_eq. split; [exact F1|]. split; [exact F2|]. split; [reflexivity|exact E]. Qed.
Lemma ctr_bd : Rabs (rx co) <= bp 402 /\ Rabs (ry co) <= bp 402.
Proof.
  destruct (ctr_err _ _ _ (Vxy a Ra) (Vxy b Rb) (Vxy c Rc) Mi') as (_ & _ & _ & E). unfold co. rewrite circ_eq. fold (ctr_ (V a) (V b) (V c)). set (q := rvec (ctr_ _ _ _)) in *.
  destruct (Vxy a Ra) as ((_ & _ & Bx) & (_ & _ & By)). change (B2R (vx (V a) : b64)) with (rx (rvec (V a))) in Bx. change (B2R (vy (V a) : b64)) with (ry (rvec (V a))) in By.
  destruct Mi' as (_ & _ & T). assert (E4 : 2 ^ 400 = bp 400). { rewrite bpow_powerRZ. change (IZR radix2) with 2. reflexivity. } rewrite E4 in T.
  assert (E2 : bp 402 = 4 * bp 400) by (change 402%Z with (2 + 400)%Z; rewrite bpow_plus; reflexivity). assert (L : bp 200 <= / 8 * bp 400).
  { replace (/ 8 * bp 400) with (bp 397) by (change (/ 8) with (bp (-3)); rewrite bpadd; reflexivity). apply bpow_le. lia. }
  pose proof u0 as U. set (m := Rabs (rx (rvec (V a))) + Rabs (ry (rvec (V a)))) in *. assert (M0 : 0 <= m) by (unfold m; apply Rplus_le_le_0_compat; apply Rabs_pos).
  assert (Um : u53 * m <= 1 * m) by (apply Rmult_le_compat_r; [exact M0|rewrite u53v; simpl; lra]). pose proof (bpow_ge_0 radix2 400) as B0.
  assert (G : forall x y s, Rabs (x - y) <= s -> Rabs x <= s + Rabs y). { intros x y s Hs. replace x with ((x - y) + y) by ring. eapply Rle_trans; [apply Rabs_triang|]. lra. }
  pose proof (Rabs_pos (rx q - rx (rvec (V a)))). pose proof (Rabs_pos (ry q - ry (rvec (V a)))).
  assert (M1 : m <= 2 * bp 200) by (unfold m; lra). split; [eapply Rle_trans; [apply (G _ (rx (rvec (V a))) _ (Rle_refl _))|]|eapply Rle_trans; [apply (G _ (ry (rvec (V a))) _ (Rle_refl _))|]]; lra.
Qed.
Lemma l1_sq x y s : Rabs x + Rabs y <= s -> x * x + y * y <= s * s.
Proof.
  intros Hs. pose proof (Rabs_pos x) as X. pose proof (Rabs_pos y) as Y. replace (x * x) with (Rabs x * Rabs x) by (rewrite <- Rabs_mult; apply Rabs_pos_eq, sq_nn). replace (y * y) with (Rabs y * Rabs y) by (rewrite <- Rabs_mult; apply Rabs_pos_eq, sq_nn).
  assert (0 <= Rabs x * Rabs y) by (apply Rmult_le_pos; auto). assert ((Rabs x + Rabs y) * (Rabs x + Rabs y) <= s * s) by (apply Rmult_le_compat; lra). lra.
Qed.
Lemma co_near : dist2xy co o <= ce * ce. Proof. apply l1_sq, ctr_ok. Qed.
Lemma co_far v : dist2xy (PP v) co <= 2 * dist2xy (PP v) o + 2 * (ce * ce).
Proof.
  pose proof co_near as N. unfold dist2xy in *. pose proof (sq_nn (rx (PP v) - rx o + (rx co - rx o))). pose proof (sq_nn (ry (PP v) - ry o + (ry co - ry o))). lra.
Qed.
(* a seed comes before every point *)
Lemma cfirst j i : In j [a; b; c] -> rng i -> before pts co j i.
Proof.
  intros Hj Hi. assert (Rj : rng j) by (destruct Hj as [<-|[<-|[<-|[]]]]; auto). unfold before. destruct (clr j i Rj Hi) as [Q|(Q & _)]; [left; destruct Q; split; auto|right].
  pose proof (out_o i Hi) as O. assert (Oj : dist2xy (PP j) o = r2) by (destruct Circ as (C1 & C2 & C3); destruct Hj as [<-|[<-|[<-|[]]]]; auto). rewrite <- Oj in O.
  pose proof co_near as N. set (dx := rx (PP i) - rx (PP j)). set (dy := ry (PP i) - ry (PP j)). set (ux := rx co - rx o) in *. set (uy := ry co - ry o) in *.
  assert (E : dist2xy (PP j) co - dist2xy (PP i) co = dist2xy (PP j) o - dist2xy (PP i) o + 2 * (dx * ux + dy * uy)) by (unfold dist2xy, dx, dy, ux, uy; ring).
  assert (Ed : dd j i = dx * dx + dy * dy) by (unfold dist2xy, dx, dy; ring). assert (Eu : dist2xy co o = ux * ux + uy * uy) by (unfold dist2xy, ux, uy; ring).
  (* 4 (d . u) <= d^2 + 4 u^2 *)
  pose proof (sq_nn (dx - 2 * ux)) as S1. pose proof (sq_nn (dy - 2 * uy)) as S2. rewrite Ed in *. lra.
Qed.
(* hash keys *)
Lemma sub_fin (x y : b64) : tame x -> is_finite y = true -> Rabs (B2R y) <= bp 402 -> is_finite (fsub B64 x y : b64) = true /\ B2R (fsub B64 x y : b64) = rndF (B2R x - B2R y) /\ Rabs (B2R x - B2R y) <= bp 403.
Proof.
  intros (Fx & _ & Bx) Fy By. assert (B : Rabs (B2R x - B2R y) <= bp 403).
  { unfold Rminus. eapply Rle_trans; [apply Rabs_triang|]. rewrite Rabs_Ropp. change 403%Z with (1 + 402)%Z. rewrite bpow_plus. change (bpow radix2 1) with 2. assert (bp 200 <= bp 402) by (apply bpow_le; lia). lra. }
  destruct (fsub_val x y Fx Fy) as (F & E); [eapply Rle_trans; [exact B|apply bpow_le; lia]|]. auto.
Qed.
Lemma r2_ab : dist2xy (PP a) (PP b) <= 4 * r2. Proof. rewrite !PP_V. apply r2_lower, Mi'. Qed.
Lemma chash hs v : (0 < hs <= 2 ^ 53)%Z -> rng v -> (0 <= hashKey ctr hs (V v) < hs)%Z.
Proof.
  intros Hh Rv. destruct ctr_ok as (F1 & F2 & _ & _), ctr_bd as (B1 & B2). destruct (Vxy v Rv) as (Tx & Ty).
  apply hashKey_b64; auto; try apply Tx; try apply Ty; [apply (sub_fin _ _ Tx F1 B1)|apply (sub_fin _ _ Ty F2 B2)|].
  destruct (Req_dec (B2R (vx (V v) : b64)) (B2R (vx ctr : b64))) as [Q1|]; auto. destruct (Req_dec (B2R (vy (V v) : b64)) (B2R (vy ctr : b64))) as [Q2|]; auto. exfalso.
  pose proof (out_o v Rv) as O. pose proof co_near as N. assert (E : dist2xy (PP v) o = dist2xy co o). { rewrite PP_V. unfold dist2xy, co, rvec. cbn [rx ry]. rewrite Q1, Q2. reflexivity. }
  pose proof r2_ab as L. destruct (clr a b Ra Rb) as [(X & Y)|(Q & _)]; [|lra]. destruct Mi as (W & _). apply W. unfold ccw. rewrite X, Y. ring.
Qed.
(* squared distances to the center *)
Lemma sqf (x y : b64) : tame x -> is_finite y = true -> Rabs (B2R y) <= bp 402 -> let d := B2R x - B2R y in let s := fmul B64 (fsub B64 x y) (fsub B64 x y) in
  is_finite (s : b64) = true /\ Rabs (B2R (s : b64) - d * d) <= 4 * u53 * (d * d) + eta /\ 0 <= d * d <= bp 806.
Proof.
  intros Tx Fy By d s. destruct (sub_fin x y Tx Fy By) as (F & E & B). fold d in E, B. pose proof u0 as U. assert (U1 : u53 <= / 1000) by (rewrite u53v; lra).
  set (g := fsub B64 x y) in *. assert (R1 : Rabs (B2R (g : b64) - d) <= u53 * Rabs d). { rewrite E. unfold d, Rminus. apply rnd_sum; [apply fmt_B|apply generic_format_opp, fmt_B]. }
  assert (S0 : 0 <= d * d <= bp 806). { split; [apply sq_nn|]. change 806%Z with (403 + 403)%Z. rewrite bpow_plus. apply sq_abs. exact B. }
  set (h := B2R (g : b64)) in *. assert (Ed : Rabs d * Rabs d = d * d) by (rewrite <- Rabs_mult; apply Rabs_pos_eq, sq_nn).
  assert (H1 : Rabs (h * h - d * d) <= 5 / 2 * u53 * (d * d)).
  { replace (h * h - d * d) with ((h - d) * (h + d)) by ring. rewrite Rabs_mult. assert (Q : Rabs (h + d) <= (2 + u53) * Rabs d). { replace (h + d) with ((h - d) + 2 * d) by ring. eapply Rle_trans; [apply Rabs_triang|]. rewrite (Rabs_mult 2), (Rabs_pos_eq 2) by lra. lra. }
    apply Rle_trans with (u53 * Rabs d * ((2 + u53) * Rabs d)); [apply Rmult_le_compat; auto using Rabs_pos|]. replace (u53 * Rabs d * ((2 + u53) * Rabs d)) with (u53 * (2 + u53) * (Rabs d * Rabs d)) by ring. rewrite Ed. apply Rmult_le_compat_r; [apply S0|].
    assert (u53 * (2 + u53) <= u53 * (5 / 2)) by (apply Rmult_le_compat_l; lra). lra. }
  assert (UD : u53 * (d * d) <= / 1000 * (d * d)) by (apply Rmult_le_compat_r; lra). assert (UD0 : 0 <= u53 * (d * d)) by (apply Rmult_le_pos; lra).
  replace (5 / 2 * u53 * (d * d)) with (5 / 2 * (u53 * (d * d))) in H1 by ring. assert (H2 : 0 <= h * h <= 11 / 10 * (d * d)). { split; [apply sq_nn|]. apply Rabs_le_inv in H1. lra. }
  destruct (fmul_val g g F F) as (F2 & E2).
  { fold h. rewrite Rabs_pos_eq by apply H2. apply Rle_trans with (bp 1 * bp 806); [change (bp 1) with 2; lra|rewrite bpadd; apply bpow_le; lia]. }
  split; [exact F2|]. split; [|exact S0]. unfold s. rewrite E2. fold h. pose proof (rnd_any (h * h)) as R. rewrite (Rabs_pos_eq (h * h)) in R by apply H2.
  replace (rndF (h * h) - d * d) with ((rndF (h * h) - h * h) + (h * h - d * d)) by ring. eapply Rle_trans; [apply Rabs_triang|].
  assert (u53 * (h * h) <= u53 * (11 / 10 * (d * d))) by (apply Rmult_le_compat_l; lra). replace (4 * u53 * (d * d)) with (4 * (u53 * (d * d))) by ring. replace (u53 * (11 / 10 * (d * d))) with (11 / 10 * (u53 * (d * d))) in * by ring. lra.
Qed.
Lemma sum_sq (x y : b64) s t k : is_finite x = true -> is_finite y = true -> 0 <= s <= bp 808 -> 0 <= t <= bp 808 -> 0 <= k <= 10 ->
  Rabs (B2R x - s) <= (4 + k) * u53 * s + (1 + k) * eta -> Rabs (B2R y - t) <= 4 * u53 * t + eta ->
  is_finite (fadd B64 x y : b64) = true /\ Rabs (B2R (fadd B64 x y : b64) - (s + t)) <= (4 + (k + 2)) * u53 * (s + t) + (1 + (k + 2)) * eta.
Proof.
  intros Fx Fy S T K Ex Ey. pose proof u0 as U. assert (U1 : u53 <= / 1000) by (rewrite u53v; lra). pose proof eta_pos as E0. set (X := B2R x) in *. set (Y := B2R y) in *.
  assert (us : 0 <= u53 * s <= / 1000 * s) by (split; [apply Rmult_le_pos; lra|apply Rmult_le_compat_r; lra]). assert (ut : 0 <= u53 * t <= / 1000 * t) by (split; [apply Rmult_le_pos; lra|apply Rmult_le_compat_r; lra]).
  replace ((4 + k) * u53 * s) with ((4 + k) * (u53 * s)) in Ex by ring. replace (4 * u53 * t) with (4 * (u53 * t)) in Ey by ring.
  assert (Ks : (4 + k) * (u53 * s) <= 14 * (u53 * s)) by (apply Rmult_le_compat_r; lra). assert (Kt : 4 * (u53 * t) <= (4 + k) * (u53 * t)) by (apply Rmult_le_compat_r; lra). assert (Ke : (1 + k) * eta <= 11 * eta) by (apply Rmult_le_compat_r; lra). assert (Ke0 : 0 <= k * eta) by (apply Rmult_le_pos; lra).
  assert (B : Rabs (X + Y - (s + t)) <= (4 + k) * (u53 * s) + (4 + k) * (u53 * t) + (2 + k) * eta). { replace (X + Y - (s + t)) with ((X - s) + (Y - t)) by ring. eapply Rle_trans; [apply Rabs_triang|]. lra. }
  assert (A : Rabs (X + Y) <= 102 / 100 * (s + t) + 12 * eta).
  { replace (X + Y) with ((X - s) + (Y - t) + (s + t)) by ring. eapply Rle_trans; [apply Rabs_triang|]. rewrite (Rabs_pos_eq (s + t)) by lra. pose proof (Rabs_triang (X - s) (Y - t)). lra. }
  assert (E8 : eta <= bp 808) by (apply bpow_le; lia). destruct (fadd_val x y Fx Fy) as (F & E).
  { fold X Y. apply Rle_trans with (bp 4 * bp 808); [change (bp 4) with 16; lra|rewrite bpadd; apply bpow_le; lia]. }
  split; [exact F|]. rewrite E. fold X Y. pose proof (rnd_sum X Y (fmt_B _) (fmt_B _)) as R.
  replace (rndF (X + Y) - (s + t)) with ((rndF (X + Y) - (X + Y)) + (X + Y - (s + t))) by ring. eapply Rle_trans; [apply Rabs_triang|].
  assert (Q : u53 * Rabs (X + Y) <= u53 * (102 / 100 * (s + t) + 12 * eta)) by (apply Rmult_le_compat_l; lra).
  assert (V2 : u53 * eta <= / 1000 * eta) by (apply Rmult_le_compat_r; lra).
  replace (u53 * (102 / 100 * (s + t) + 12 * eta)) with (102 / 100 * (u53 * s) + 102 / 100 * (u53 * t) + 12 * (u53 * eta)) in Q by field.
  replace ((4 + (k + 2)) * u53 * (s + t)) with ((4 + k) * (u53 * s) + (4 + k) * (u53 * t) + 2 * (u53 * s) + 2 * (u53 * t)) by ring. replace ((1 + (k + 2)) * eta) with ((2 + k) * eta + eta) by ring. lra.
Qed.
Notation sqd v := (SquaredDistance (V v) ctr).
Notation zz v := (rz (PP v) * rz (PP v)).
Lemma sqd_val v : rng v -> is_finite (sqd v : b64) = true /\ Rabs (B2R (sqd v : b64) - (dist2xy (PP v) co + zz v)) <= 8 * u53 * (dist2xy (PP v) co + zz v) + 5 * eta.
Proof.
  intros Rv. destruct ctr_ok as (F1 & F2 & Ez & _), ctr_bd as (B1 & B2). destruct (Vt v Rv) as (Tx & Ty & Tz). destruct zeroF as (Fz & Z0).
  destruct (sqf _ _ Tx F1 B1) as (FX & EX & SX), (sqf _ _ Ty F2 B2) as (FY & EY & SY). destruct (sqf _ (fofZ B64 0) Tz Fz) as (FZ & EZ & SZ); [rewrite Z0, Rabs_R0; apply bpow_ge_0|].
  assert (L : bp 806 <= / 2 * bp 808). { replace (/ 2 * bp 808) with (bp 807) by (change (/ 2) with (bp (-1)); rewrite bpadd; reflexivity). apply bpow_le. lia. } pose proof (bpow_ge_0 radix2 808) as L0.
  unfold SquaredDistance, Norm2, Dot, Sub. cbn [vx vy vz]. rewrite Ez. set (X := fmul B64 _ _) in *. set (Y := fmul B64 (fsub B64 (vy (V v)) _) _) in *. set (Z := fmul B64 (fsub B64 (vz (V v)) _) _) in *.
  set (dx := B2R (vx (V v) : b64) - _) in *. set (dy := B2R (vy (V v) : b64) - _) in *. set (dz := B2R (vz (V v) : b64) - _) in *.
  destruct (sum_sq X Y (dx * dx) (dy * dy) 0 FX FY) as (F & E); try lra.
  destruct (sum_sq (fadd B64 X Y) Z (dx * dx + dy * dy) (dz * dz) 2 F FZ) as (F' & E'); try lra.
  split; [exact F'|]. replace (dist2xy (PP v) co + zz v) with (dx * dx + dy * dy + dz * dz). { lra. }
  rewrite PP_V. unfold dist2xy, co, rvec, dx, dy, dz. cbn [rx ry rz]. rewrite Z0. ring.
Qed.
Lemma dd_lower p q : rng p -> rng q -> dd p q <> 0 -> bp (-361) <= dd p q.
Proof.
  intros Rp Rq N. pose proof (dd_acc p q Rp Rq) as Q. destruct (dd_val p q Rp Rq) as (F & L & U). pose proof (dd_pos p q) as P0. destruct Q as ((_ & _ & Gl & _) & _).
  assert (Nz : B2R (SquaredDistance (V p) (V q) : b64) <> 0). { assert (0 < (1 - 6 / 2 ^ 53) * dd p q) by (apply Rmult_lt_0_compat; lra). lra. }
  pose proof (fix_lower _ _ Gl Nz) as LL. rewrite Rabs_pos_eq in LL by (assert (0 <= (1 - 6 / 2 ^ 53) * dd p q) by (apply Rmult_le_pos; lra); lra).
  replace (bp (-361)) with (bp (- (1)) * bp (-360)) by (rewrite bpadd; reflexivity). change (bp (- (1))) with (/ 2). change (bp (- (360))) with (bp (-360)) in LL. lra.
Qed.
Lemma sqd_before p q : rng p -> rng q -> B2R (sqd p : b64) <= B2R (sqd q : b64) -> before pts co p q.
Proof.
  intros Rp Rq L. unfold before. destruct (clr p q Rp Rq) as [Q|(Q1 & Q2)]; [left; destruct Q; split; auto|right].
  destruct (sqd_val p Rp) as (_ & Ep), (sqd_val q Rq) as (_ & Eq). pose proof (ct_planar _ Hc _ _ (Pin p Rp) (Pin q Rq)) as Z. rewrite <- Z in Eq.
  pose proof (co_far p) as Cp. pose proof (co_far q) as Cq. set (z := zz p) in *. assert (z0 : 0 <= z) by apply sq_nn. set (Dp := dist2xy (PP p) co) in *. set (Dq := dist2xy (PP q) co) in *. set (Op := dist2xy (PP p) o) in *. set (Oq := dist2xy (PP q) o) in *.
  apply Rabs_le_inv in Ep, Eq. pose proof u0 as U. assert (u16 : / 2 ^ 48 = 32 * u53) by (rewrite u53v; field). rewrite u16 in Q2.
  assert (N : dd p q <> 0). { assert (0 <= ce * ce) by apply sq_nn. lra. } pose proof (dd_lower p q Rp Rq N) as Lw. assert (Et : eta <= / 1000 * bp (-361)). { apply Rle_trans with (bp (-10) * bp (-361)); [rewrite bpadd; apply bpow_le; lia|]. apply Rmult_le_compat_r; [apply bpow_ge_0|]. change (bp (-10)) with (/ 1024). lra. }
  assert (B : 8 * u53 * (Dp + z) + 8 * u53 * (Dq + z) <= / 2 * (32 * u53 * (Op + Oq + z)) + 8 * u53 * dd p q).
  { replace (8 * u53 * (Dp + z) + 8 * u53 * (Dq + z)) with (u53 * (8 * (Dp + Dq + 2 * z))) by ring. replace (/ 2 * (32 * u53 * (Op + Oq + z)) + 8 * u53 * dd p q) with (u53 * (16 * (Op + Oq + z) + 8 * dd p q)) by field. apply Rmult_le_compat_l; lra. }
  assert (B2 : u53 * dd p q <= / 1000 * dd p q) by (apply Rmult_le_compat_r; [apply dd_pos|rewrite u53v; lra]). replace (8 * u53 * dd p q) with (8 * (u53 * dd p q)) in B by ring. lra.
Qed.
Notation sq := (map (fun p => SquaredDistance p ctr) vs).
Lemma cnth_D i : rng i -> nth (Z.to_nat i) sq (fofZ B64 0) = SquaredDistance (V i) ctr.
Proof. intros H. apply nth_error_nth. rewrite (map_nth_error _ _ _ (V_nth vs i H)). reflexivity. Qed.
Definition ckey (i j : Z) : Prop :=
  B2R (sqd i : b64) < B2R (sqd j : b64) \/ (B2R (sqd i : b64) = B2R (sqd j : b64) /\ (rx (PP i) < rx (PP j) \/ (rx (PP i) = rx (PP j) /\ ry (PP i) < ry (PP j)))).
Lemma clessId i j : rng i -> rng j -> (@lessId B64 vs sq i j = true <-> ckey i j).
Proof.
  intros Hi Hj. unfold lessId. rewrite !nth_V, !cnth_D by auto. unfold ckey. rewrite !PP_V. cbn [rx ry rvec].
  destruct (sqd_val i Hi) as (Fi & _), (sqd_val j Hj) as (Fj & _). destruct (Vt i Hi) as ((Xi & _) & (Yi & _) & _), (Vt j Hj) as ((Xj & _) & (Yj & _) & _).
  rewrite !fin_eq, !fin_lt by auto. set (p := B2R _). set (q := B2R (SquaredDistance (V j) ctr)).
  destruct (Reqb_spec p q) as [E|E]; cbn.
  - destruct (Reqb_spec (B2R (vx (V i) : b64)) (B2R (vx (V j) : b64))) as [E2|E2]; cbn; rewrite Rltb_true; split; intros; lra.
  - rewrite Rltb_true. split; intros; lra.
Qed.
Lemma clessId_false i j : rng i -> rng j -> (@lessId B64 vs sq i j = false <-> ~ ckey i j).
Proof. intros Hi Hj. rewrite <- clessId by auto. destruct (lessId vs sq i j); split; intros; congruence. Qed.
Lemma csorted srt : good_sort srt ->
  let ids := srt (@lessId B64 vs sq) (allIds (length vs)) in
  NoDup ids /\ (forall i, In i ids <-> rng i) /\ StronglySorted (before pts co) ids.
Proof.
  intros GS. cbv zeta. destruct (GS (@lessId B64 vs sq) (allIds (length vs))) as [PM ST]; rewrite (len_gpts vs) in *.
  - intros i j Hi Hj L. apply In_allIds in Hi. apply In_allIds in Hj. apply clessId in L; auto. apply clessId_false; auto.
    unfold ckey in *. lra.
  - intros i j k Hi Hj Hk L1 L2. apply In_allIds in Hi. apply In_allIds in Hj. apply In_allIds in Hk.
    apply clessId_false in L1; auto. apply clessId_false in L2; auto. apply clessId_false; auto. unfold ckey in *. lra.
  - set (ids := srt _ _) in *. assert (I : forall i, In i ids <-> rng i).
    { intros i. rewrite <- In_allIds. split; apply Permutation_in; auto. apply Permutation_sym; auto. }
    split; [apply (Permutation_NoDup PM), allIds_NoDup|]. split; auto.
    assert (I' : forall i, In i ids -> rng i) by (intros i; apply I). clear PM I.
    induction ST as [|x l ST IH F]; constructor.
    + apply IH. intros i Hi. apply I'. right; auto.
    + rewrite Forall_forall in *. intros j Hj. specialize (F j Hj). apply clessId_false in F; [|apply I'; simpl; auto|apply I'; simpl; auto].
      unfold ckey in F. apply sqd_before; [apply I'; simpl; auto|apply I'; simpl; auto|lra].
Qed.
End Center.
(* near-duplicates *)
Lemma cnear0 i : rng i -> flt B64 (SquaredDistance (V i) (mkvec infinity infinity (fofZ B64 0))) eps = false.
Proof.
  intros Hi. unfold SquaredDistance, Norm2, Dot, Sub. cbn [vx vy vz].
  assert (S : forall x : b64, is_finite x = true -> fsub B64 x infinity = B754_infinity true).
  { intros x F. destruct x as [s|s| |s m ex B]; try discriminate F; reflexivity. }
  destruct (Vt i Hi) as ((Fx & _) & (Fy & _) & Tz). rewrite !S; [|exact Fy|exact Fx]. destruct zeroF as (Fz & Z0).
  destruct (sqf _ (fofZ B64 0) Tz Fz) as (F & _); [rewrite Z0, Rabs_R0; apply bpow_ge_0|].
  change (fadd B64 (fmul B64 (B754_infinity true : B64) (B754_infinity true : B64)) (fmul B64 (B754_infinity true : B64) (B754_infinity true : B64))) with (B754_infinity false : B64).
  set (w := fmul B64 (fsub B64 (vz (V i)) _) _) in *. assert (Q : fadd B64 (B754_infinity false : B64) w = B754_infinity false).
  { clearbody w. destruct (w : b64) as [s|s| |s m ex B]; try discriminate F; reflexivity. }
  rewrite Q. reflexivity.
Qed.
Lemma cnear i j : rng i -> rng j -> flt B64 (SquaredDistance (V i) (V j)) eps = true -> rdist2 (PP i) (PP j) < epsR.
Proof.
  intros Hi Hj H. rewrite (clear_near vs Hv (ct_points _ Hc) _ _ (V_In vs i Hi) (V_In vs j Hj)), Rltb_true in H. rewrite !PP_V. exact H.
Qed.
End ClearTri.

(** swapping the last two corners *)
Lemma cross_terms_swap a b c : cross_terms a c b = cross_terms a b c. Proof. unfold cross_terms. ring. Qed.
Lemma ccw_swap_abs a b c : Rabs (ccw a c b) = Rabs (ccw a b c).
Proof. replace (ccw a c b) with (- ccw a b c) by (unfold ccw; ring). apply Rabs_Ropp. Qed.
Lemma cond_swap a b c : cond a c b = cond a b c. Proof. unfold cond. rewrite cross_terms_swap, ccw_swap_abs. reflexivity. Qed.
Lemma circ_terms_swap a b c : circ_terms a c b = circ_terms a b c.
Proof. unfold circ_terms, circ_x, circ_y. rewrite ccw_swap_abs. f_equal; f_equal; ring. Qed.
Lemma mild_swap a b c : mild a b c -> mild a c b.
Proof. intros (N & C & T). unfold mild. rewrite cond_swap, circ_terms_swap. split; auto. intros Q. apply N. replace (ccw a b c) with (- ccw a c b) by (unfold ccw; ring). rewrite Q. ring. Qed.
Lemma clear_center_swap l a b c : clear_center l a b c -> clear_center l a c b.
Proof.
  intros H o r2 (C1 & C2 & C3) Em p q Ip Iq. assert (E : center_err a c b = center_err a b c) by (unfold center_err; rewrite cond_swap, circ_terms_swap; reflexivity).
  rewrite E. apply (H o r2); auto. split; auto.
Qed.

(** ** Triangulate *)
Theorem triangulate_clear srt vs : good_sort srt -> (forall v, In v vs -> tame_vec v) -> clear_triangulation (gpts vs) ->
  length vs <> 1%nat -> (Ln vs < 2 ^ 63)%Z ->
  (vs = [] /\ triangulate srt vs = Ok (emptyTri, false)) \/
  ((2 <= Ln vs)%Z /\ on_a_line (gpts vs) /\ triangulate srt vs = Ok (emptyTri, true)) \/
  (~ on_a_line (gpts vs) /\ exists s V R i0 i1 i2 hs, triangulate srt vs = Ok (cut s, false) /\
     rest (gpts vs) i0 i1 i2 hs s V R /\
     forall i, (0 <= i < Ln vs)%Z -> exists v, In v V /\ rdist2 (PP (gpts vs) i) (PP (gpts vs) v) < epsR).
Proof.
  intros GS Hv Hc L1 Big. destruct (Nat.eq_dec (length vs) 0) as [E|NE].
  { left. destruct vs; [|discriminate]. split; reflexivity. }
  right. assert (N2 : (2 <= Ln vs)%Z) by lia.
  rewrite triangulate_eq by (intros Q; apply NE; destruct vs; [reflexivity|discriminate]). cbv zeta.
  pose proof (len_gpts vs) as LG. set (pts := gpts vs) in *. set (n := Ln pts).
  unfold bounds. rewrite (V_zget vs 0), (V_zget vs 1) by (fold pts; lia). cbn [rbind]. destruct (fold_left _ _ _) as [[[x0 y0] x1] y1].
  set (m := @mkvec B64 _ _ _). pose proof (gseed0 vs N2 m) as R0. fold pts in R0. rewrite (V_zget vs (seed0 _ m)) by auto. cbn [rbind].
  set (i0 := seed0 vs m) in *. destruct (cseed1 vs Hv Hc N2 i0 R0) as [R1 _]. fold pts in R1. rewrite (V_zget vs (seed1 _ _ _)) by auto. cbn [rbind].
  destruct (seed2 _ _ _ _ _) as [i2 r] eqn:E2.
  destruct (cseeds vs Hv Hc N2 i0 _ i2 r R0 eq_refl E2) as (_ & D). fold pts in D.
  set (i1 := seed1 vs i0 (vat vs i0)) in *.
  destruct D as [[-> Line]|(Ef & R2 & Ar & Gb & Emp)].
  { left. split; [lia|]. auto. }
  right. assert (NL : ~ on_a_line pts).
  { intros Ln. apply Ar. apply (line_ar pts _ _ _ Ln); apply PP_In; auto. }
  split; auto. rewrite Ef. rewrite (V_zget vs i2) by auto. cbn [rbind].
  rewrite (ex_lt _ _ (cexact vs Hv Hc) i0 i1 i2) by auto. fold pts.
  assert (Nc : ccw (PP pts i0) (PP pts i1) (PP pts i2) <> 0) by (unfold ar in Ar; lra).
  assert (I : forall j, (0 <= j < n)%Z -> In (PP pts j) pts) by (intros j Hj; apply PP_In; auto).
  destruct (ct_radii _ Hc _ _ (I _ R0) (I _ R1) Gb _ _ (I _ R2) (I _ R2) Nc Nc) as (Mi & _ & _).
  pose proof (ct_center _ Hc _ _ _ (I _ R0) (I _ R1) (I _ R2) Gb Nc) as CC.
  assert (Gen : forall j1 j2, (0 <= j1 < n)%Z -> (0 <= j2 < n)%Z -> 0 < ar (PP pts i0) (PP pts j1) (PP pts j2) ->
    mild (PP pts i0) (PP pts j1) (PP pts j2) -> clear_center pts (PP pts i0) (PP pts j1) (PP pts j2) ->
    (forall v, (0 <= v < n)%Z -> 0 <= incirc (PP pts i0) (PP pts j1) (PP pts j2) (PP pts v)) ->
    exists s V R a0 a1 a2 hs,
     (let! v1 := zget vs j1 in
      let! v2 := zget vs j2 in
      let! s := initTri vs (circumcenter (vat vs i0) v1 v2) i0 j1 j2 in
      let! s := insertAll vs (circumcenter (vat vs i0) v1 v2) i0 j1 j2
         (srt (lessId vs (map (fun p => SquaredDistance p (circumcenter (vat vs i0) v1 v2)) vs)) (allIds (length vs)))
         (mkvec infinity infinity (fofZ B64 0)) s in
      Ok (cut s, false)) = Ok (cut s, false) /\
     rest pts a0 a1 a2 hs s V R /\
     forall i, (0 <= i < Ln vs)%Z -> exists v, In v V /\ rdist2 (PP pts i) (PP pts v) < epsR).
  { intros j1 j2 Rj1 Rj2 Or M2 C2 Hs. rewrite !V_zget by auto. cbn [rbind].
    assert (Out : forall v, (0 <= v < n)%Z -> 0 <= ar (PP pts i0) (PP pts j1) (PP pts j2) * incirc (PP pts i0) (PP pts j1) (PP pts j2) (PP pts v)).
    { intros v Hi. apply Rmult_le_pos; [lra|auto]. }
    pose proof (csorted vs Hv Hc N2 i0 j1 j2 R0 Rj1 Rj2 M2 C2 Out srt GS) as SI. cbv zeta in SI.
    set (ids := srt _ _) in *. destruct SI as (ND & Iids & ST). fold pts in Iids, ST.
    assert (HS : (0 < ftoZ B64 (fceil B64 (fsqrt B64 (fofZ B64 (Ln pts)))) <= 2 ^ 53)%Z) by (apply hsize_b64; lia).
    destruct (run_ok vs pts (cexact vs Hv Hc) i0 j1 j2 (circumcenter (vat vs i0) (vat vs j1) (vat vs j2)) (co vs i0 j1 j2)) with (ids := ids) as (s & V & R & E & RS & Cov); auto.
    - apply (ct_planar _ Hc).
    - lia.
    - intros v Hi. apply (chash vs Hv i0 j1 j2); auto.
    - intros i Hi. apply (cnear0 vs Hv); auto.
    - intros i j Hi Hj. apply (cnear vs Hv Hc); auto.
    - intros j i Hj Hi. apply (cfirst vs Hv i0 j1 j2); auto.
    - exists s, V, R, i0, j1, j2. eexists. split; [exact E|]. split; [exact RS|]. rewrite LG. auto. }
  destruct (Rltb (ar (PP pts i0) (PP pts i1) (PP pts i2)) 0) eqn:B.
  - apply Rltb_true in B. apply Gen; auto using mild_swap, clear_center_swap.
    + rewrite ar_swap23. lra.
    + intros v Hi. specialize (Emp v Hi).
      assert (E : incirc (PP pts i0) (PP pts i2) (PP pts i1) (PP pts v) = - incirc (PP pts i0) (PP pts i1) (PP pts i2) (PP pts v))
        by (unfold incirc; ring).
      rewrite E. apply (Rmult_le_reg_l (- ar (PP pts i0) (PP pts i1) (PP pts i2))); lra.
  - assert (B' : 0 < ar (PP pts i0) (PP pts i1) (PP pts i2)) by (apply Rltb_false in B; lra).
    apply Gen; auto. intros v Hi. specialize (Emp v Hi).
    apply (Rmult_le_reg_l (ar (PP pts i0) (PP pts i1) (PP pts i2))); lra.
Qed.
