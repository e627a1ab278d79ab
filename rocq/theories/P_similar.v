(** Triangulate in exact arithmetic does the same on a moved and scaled input. *)
From Coq Require Import Reals Lra Lia Psatz ZArith QArith Qreals List Bool.
From Verif Require Import Base Arith GoLoop M_r3 M_tri2 M_triangulator Spec_r3 Spec_plane XRvec P_r3 P_tri2 Spec_similar P_same.
Import ListNotations.
Open Scope R_scope.

Lemma Rltb_scale k x y : 0 < k -> Rltb (k * x) (k * y) = Rltb x y.
Proof. intros H. unfold Rltb. destruct (Rlt_dec (k * x) (k * y)), (Rlt_dec x y); try reflexivity; exfalso; nra. Qed.
Lemma Rltb_shift k t x y : 0 < k -> Rltb (k * x + t) (k * y + t) = Rltb x y.
Proof. intros H. unfold Rltb. destruct (Rlt_dec (k * x + t) (k * y + t)), (Rlt_dec x y); try reflexivity; exfalso; nra. Qed.
Lemma Reqb_scale k x y : 0 < k -> Reqb (k * x) (k * y) = Reqb x y.
Proof. intros H. unfold Reqb. destruct (Req_EM_T (k * x) (k * y)), (Req_EM_T x y); try reflexivity; exfalso; [apply n; nra|congruence]. Qed.
Lemma Reqb_shift k t x y : 0 < k -> Reqb (k * x + t) (k * y + t) = Reqb x y.
Proof. intros H. unfold Reqb. destruct (Req_EM_T (k * x + t) (k * y + t)), (Req_EM_T x y); try reflexivity; exfalso; [apply n; nra|congruence]. Qed.

Section Sim.
Variables (k tx ty : R).
Hypothesis Hk : 0 < k.
Variable pts : list rv.
Let S := similar k tx ty.
Hypothesis Hnear : forall p q, In p pts -> In q pts -> (rdist2 p q < Q2R (1 # 4503599627370496) <-> rdist2 (S p) (S q) < Q2R (1 # 4503599627370496)).
Definition PS (a b : vec XR) : Prop := exists p, In p pts /\ a = fv p /\ b = fv (S p).
Notation vs := (map fv pts).
Notation vs' := (map fv (map S pts)).

Lemma PS_list : Forall2 PS vs vs'.
Proof.
  assert (H : forall l, incl l pts -> Forall2 PS (map fv l) (map fv (map S l))); [|apply H, incl_refl].
  induction l as [|p l IH]; intros Hi; cbn [map]; constructor.
  - exists p. split; [apply Hi; left; reflexivity|split; reflexivity].
  - apply IH. intros x Hx. apply Hi. right. exact Hx.
Qed.
Lemma kk : 0 < k * k. Proof. nra. Qed.
Lemma ccw_S a b c : ccw (S a) (S b) (S c) = k * k * ccw a b c.
Proof. unfold ccw, S, similar. cbn [rx ry]. ring. Qed.
Lemma incirc_S a b c d : incirc (S a) (S b) (S c) (S d) = (k * k) * (k * k) * incirc a b c d.
Proof. unfold incirc, S, similar. cbn [rx ry]. ring. Qed.
Lemma rdist2_S a b : rdist2 (S a) (S b) = k * k * rdist2 a b.
Proof. unfold rdist2, rdot, rsub, S, similar. cbn [rx ry rz]. ring. Qed.
Lemma sq_fv a b : SquaredDistance (fv a) (fv b) = Fin (rdist2 a b).
Proof. reflexivity. Qed.
Lemma PS_inC a a' b b' c c' d d' : PS a a' -> PS b b' -> PS c c' -> PS d d' -> inCircle a b c d = inCircle a' b' c' d'.
Proof.
  intros (p & _ & -> & ->) (q & _ & -> & ->) (r & _ & -> & ->) (s & _ & -> & ->). rewrite !inCircle_fv, incirc_S.
  replace 0 with (k * k * (k * k) * 0) at 2 by ring. symmetry. apply Rltb_scale. pose proof kk. nra.
Qed.
Lemma PS_lt a a' b b' c c' : PS a a' -> PS b b' -> PS c c' -> flt XR (area a b c) (fofZ XR 0) = flt XR (area a' b' c') (fofZ XR 0).
Proof.
  intros (p & _ & -> & ->) (q & _ & -> & ->) (r & _ & -> & ->). rewrite !area_fv, ccw_S. cbn [flt fofZ XR xltb].
  replace (- (k * k * ccw p q r)) with (k * k * - ccw p q r) by ring. replace 0 with (k * k * 0) at 2 by ring. symmetry. apply Rltb_scale, kk.
Qed.
Lemma PS_le a a' b b' c c' : PS a a' -> PS b b' -> PS c c' -> fle XR (fofZ XR 0) (area a b c) = fle XR (fofZ XR 0) (area a' b' c').
Proof.
  intros (p & _ & -> & ->) (q & _ & -> & ->) (r & _ & -> & ->). rewrite !area_fv, ccw_S. cbn [fle fofZ XR xleb].
  pose proof kk. unfold Rleb. destruct (Rle_dec 0 (- ccw p q r)), (Rle_dec 0 (- (k * k * ccw p q r))); try reflexivity; exfalso; nra.
Qed.
Lemma PS_near p p' q q' : PS p p' -> PS q q' -> flt XR (SquaredDistance p q) eps = flt XR (SquaredDistance p' q') eps.
Proof.
  intros (a & Ha & -> & ->) (b & Hb & -> & ->). rewrite !sq_fv. unfold eps. cbn [flt fofQ XR xltb]. unfold Rltb.
  pose proof (Hnear a b Ha Hb).
  match goal with |- (if ?x then _ else _) = (if ?y then _ else _) => destruct x, y end; tauto || reflexivity.
Qed.
Lemma inf_far p : flt XR (SquaredDistance (fv p) (mkvec infinity infinity (fofZ XR 0))) eps = false.
Proof. unfold SquaredDistance, Norm2, Dot, Sub, infinity, fv. cbn [vx vy vz fsub fmul fadd finf fofZ XR xsub xadd xneg xmul flt xltb]. destruct (eps : XR); reflexivity. Qed.
Lemma PS_near0 p p' : PS p p' -> flt XR (SquaredDistance p (mkvec infinity infinity (fofZ XR 0))) eps = flt XR (SquaredDistance p' (mkvec infinity infinity (fofZ XR 0))) eps.
Proof. intros (a & _ & -> & ->). rewrite !inf_far. reflexivity. Qed.

(** squared lengths: both finite and scaled by k*k, or both infinite *)
Definition QS (d d' : XR) : Prop := (exists x, d = Fin x /\ d' = Fin (k * k * x)) \/ (d = PInf /\ d' = PInf).
Lemma QS_lt d d' e e' : QS d d' -> QS e e' -> flt XR d e = flt XR d' e'.
Proof. intros [(x & -> & ->)|(-> & ->)] [(y & -> & ->)|(-> & ->)]; cbn [flt XR xltb]; try reflexivity. symmetry. apply Rltb_scale, kk. Qed.
Lemma QS_eq d d' e e' : QS d d' -> QS e e' -> feq XR d e = feq XR d' e'.
Proof. intros [(x & -> & ->)|(-> & ->)] [(y & -> & ->)|(-> & ->)]; cbn [feq XR xeqb]; try reflexivity. symmetry. apply Reqb_scale, kk. Qed.
Lemma QS_inf : QS infinity infinity. Proof. right. split; reflexivity. Qed.
Lemma QS_sq p q : QS (SquaredDistance (fv p) (fv q)) (SquaredDistance (fv (S p)) (fv (S q))).
Proof. left. exists (rdist2 p q). rewrite !sq_fv, rdist2_S. split; reflexivity. Qed.
Lemma rcc_S a b c : ccw a b c <> 0 -> rcircumcenter (S a) (S b) (S c) = S (rcircumcenter a b c).
Proof.
  intros H. unfold rcircumcenter. rewrite ccw_S. unfold S, similar. cbn [rx ry rz]. f_equal; [field|field|ring]; split; try exact H; lra.
Qed.
Lemma dist2xy_S a b : dist2xy (S a) (S b) = k * k * dist2xy a b.
Proof. unfold dist2xy, S, similar. cbn [rx ry]. ring. Qed.
Lemma ccw_S0 a b c : Reqb (ccw (S a) (S b) (S c)) 0 = Reqb (ccw a b c) 0.
Proof. rewrite ccw_S. replace 0 with (k * k * 0) at 1 by ring. apply Reqb_scale, kk. Qed.
Lemma QS_rad a b c : QS (circumradius (fv a) (fv b) (fv c)) (circumradius (fv (S a)) (fv (S b)) (fv (S c))).
Proof.
  rewrite !circumradius_fv, ccw_S0. destruct (Reqb_spec (ccw a b c) 0) as [E|E]; [right; split; reflexivity|].
  left. exists (dist2xy a (rcircumcenter a b c)). split; [reflexivity|]. rewrite rcc_S by exact E. rewrite dist2xy_S. reflexivity.
Qed.
Lemma key_S n a c : hashKey (fv c) n (fv a) = hashKey (fv (S c)) n (fv (S a)).
Proof.
  assert (E : forall dx dy, @pseudoAngle XR (Fin (k * dx)) (Fin (k * dy)) = @pseudoAngle XR (Fin dx) (Fin dy)).
  { intros dx dy. unfold pseudoAngle. cbn [flt fofZ fdiv fabs fadd XR xabs xadd xltb].
    assert (D : xdiv (Fin (k * dx)) (Fin (Rabs (k * dx) + Rabs (k * dy))) = xdiv (Fin dx) (Fin (Rabs dx + Rabs dy))).
    { rewrite !Rabs_mult, (Rabs_right k) by lra. unfold xdiv.
      replace (k * Rabs dx + k * Rabs dy) with (k * (Rabs dx + Rabs dy)) by ring.
      replace (Reqb (k * (Rabs dx + Rabs dy)) 0) with (Reqb (Rabs dx + Rabs dy) 0)
        by (replace 0 with (k * 0) at 2 by ring; symmetry; apply Reqb_scale; exact Hk).
      destruct (Reqb_spec (Rabs dx + Rabs dy) 0) as [Z|Z].
      - pose proof (Rabs_pos dx). pose proof (Rabs_pos dy). assert (dx = 0) by (destruct (Req_dec dx 0) as [|W]; [assumption|apply Rabs_pos_lt in W; lra]). subst dx. rewrite Rmult_0_r. reflexivity.
      - f_equal. field. split; [exact Z|lra]. }
    rewrite D. replace (Rltb 0 (k * dy)) with (Rltb 0 dy) by (replace 0 with (k * 0) at 2 by ring; symmetry; apply Rltb_scale; exact Hk).
    reflexivity. }
  unfold hashKey. rewrite !Sub_fv. unfold fv. cbn [vx vy]. unfold S, similar, rsub. cbn [rx ry].
  replace (k * rx a + tx - (k * rx c + tx)) with (k * (rx a - rx c)) by ring.
  replace (k * ry a + ty - (k * ry c + ty)) with (k * (ry a - ry c)) by ring. rewrite E. reflexivity.
Qed.

Definition Bd (b b' : xr * xr * xr * xr) : Prop := exists x0 y0 x1 y1,
  b = (Fin x0, Fin y0, Fin x1, Fin y1) /\ b' = (Fin (k * x0 + tx), Fin (k * y0 + ty), Fin (k * x1 + tx), Fin (k * y1 + ty)).
Lemma bounds_fold (F := fun '(x0, y0, x1, y1) (p : vec XR) =>
        (if flt XR (vx p) x0 then vx p else x0, if flt XR (vy p) y0 then vy p else y0,
         if flt XR x1 (vx p) then vx p else x1, if flt XR y1 (vy p) then vy p else y1)) l b b' :
  Bd b b' -> Bd (fold_left F (map fv l) b) (fold_left F (map fv (map S l)) b').
Proof.
  revert b b'. induction l as [|p l IH]; intros b b' H; cbn [map fold_left]; [exact H|]. apply IH.
  destruct H as (x0 & y0 & x1 & y1 & -> & ->). unfold F, fv. cbn [vx vy flt XR xltb]. unfold S, similar. cbn [rx ry].
  rewrite !Rltb_shift by exact Hk.
  exists (if Rltb (rx p) x0 then rx p else x0), (if Rltb (ry p) y0 then ry p else y0), (if Rltb x1 (rx p) then rx p else x1), (if Rltb y1 (ry p) then ry p else y1).
  split.
  - destruct (Rltb (rx p) x0), (Rltb (ry p) y0), (Rltb x1 (rx p)), (Rltb y1 (ry p)); reflexivity.
  - destruct (Rltb (rx p) x0), (Rltb (ry p) y0), (Rltb x1 (rx p)), (Rltb y1 (ry p)); reflexivity.
Qed.
Lemma bounds_S : (exists b b', bounds vs = Ok b /\ bounds vs' = Ok b' /\ Bd b b') \/ (bounds vs = Panic /\ bounds vs' = Panic).
Proof.
  unfold bounds. destruct (zget_F2 PS vs vs' 0 PS_list) as [(a & a' & E & E' & H)|(E & E')]; rewrite E, E'; cbn [rbind]; [|right; split; reflexivity].
  destruct (zget_F2 PS vs vs' 1 PS_list) as [(c & c' & E1 & E1' & H1)|(E1 & E1')]; rewrite E1, E1'; cbn [rbind]; [|right; split; reflexivity].
  left. eexists. eexists. split; [reflexivity|]. split; [reflexivity|]. apply bounds_fold.
  destruct H as (p & _ & -> & ->). destruct H1 as (q & _ & -> & ->). exists (rx p), (ry p), (rx q), (ry q). split; reflexivity.
Qed.

Theorem triangulate_S sort : sort_local sort -> triangulate sort vs = triangulate sort vs'.
Proof.
  intros Hsort. destruct pts as [|p0 pl] eqn:Epts; [reflexivity|]. rewrite <- Epts in *. unfold triangulate.
  destruct vs as [|w0 wl] eqn:Ew; [rewrite Epts in Ew; discriminate|]. rewrite <- Ew.
  destruct vs' as [|u0 ul] eqn:Eu; [rewrite Epts in Eu; discriminate|]. rewrite <- Eu. clear w0 wl Ew u0 ul Eu.
  destruct bounds_S as [(b & b' & -> & -> & Hb)|(-> & ->)]; cbn [rbind]; [|reflexivity].
  destruct Hb as (x0 & y0 & x1 & y1 & -> & ->).
  assert (Em : forall u v, fdiv XR (fadd XR (Fin u) (Fin v)) (fofZ XR 2) = Fin ((u + v) / 2)).
  { intros u v. cbn [fdiv fadd fofZ XR xadd xdiv]. destruct (Reqb_spec 2 0); [lra|reflexivity]. }
  rewrite !Em. set (m := RV ((x0 + x1) / 2) ((y0 + y1) / 2) 0).
  replace (@mkvec XR (Fin ((x0 + x1) / 2)) (Fin ((y0 + y1) / 2)) (fofZ XR 0)) with (fv m) by reflexivity.
  replace (@mkvec XR (Fin ((k * x0 + tx + (k * x1 + tx)) / 2)) (Fin ((k * y0 + ty + (k * y1 + ty)) / 2)) (fofZ XR 0)) with (fv (S m))
    by (unfold S, similar, fv, m; cbn [rx ry rz fofZ XR]; f_equal; f_equal; field).
  assert (E0 : seed0 vs (fv m) = seed0 vs' (fv (S m))).
  { unfold seed0. apply (argmin_same PS QS); [|reflexivity|apply QS_lt|apply PS_list|apply QS_inf]. intros p p' (a & _ & -> & ->). apply QS_sq. }
  rewrite <- E0. set (i0 := seed0 vs (fv m)). clearbody i0. clear E0 Em.
  destruct (zget_F2 PS vs vs' i0 PS_list) as [(a & a' & E & E' & Ha)|(E & E')]; rewrite E, E'; cbn [rbind]; [|reflexivity].
  destruct Ha as (v0 & I0 & -> & ->).
  assert (E1 : seed1 vs i0 (fv v0) = seed1 vs' i0 (fv (S v0))).
  { unfold seed1. apply (argmin_same PS QS); [| |apply QS_lt|apply PS_list|apply QS_inf].
    - intros p p' (a & _ & -> & ->). apply QS_sq.
    - intros d d' H. apply (QS_lt (fofZ XR 0) (fofZ XR 0)); [|exact H]. left. exists 0. cbn [fofZ XR]. rewrite Rmult_0_r. split; reflexivity. }
  rewrite <- E1. set (i1 := seed1 vs i0 (fv v0)). clearbody i1. clear E1.
  destruct (zget_F2 PS vs vs' i1 PS_list) as [(a & a' & F1 & F1' & Ha)|(F1 & F1')]; rewrite F1, F1'; cbn [rbind]; [|reflexivity].
  destruct Ha as (v1 & I1 & -> & ->).
  assert (E2 : fst (seed2 vs i0 i1 (fv v0) (fv v1)) = fst (seed2 vs' i0 i1 (fv (S v0)) (fv (S v1))) /\
    QS (snd (seed2 vs i0 i1 (fv v0) (fv v1))) (snd (seed2 vs' i0 i1 (fv (S v0)) (fv (S v1))))).
  { unfold seed2. apply (argmin_same PS QS); [|reflexivity|apply QS_lt|apply PS_list|apply QS_inf]. intros p p' (a & _ & -> & ->). apply QS_rad. }
  assert (Fr : forall i2 r, seed2 vs i0 i1 (fv v0) (fv v1) = (i2, r) -> feq XR r infinity = false ->
     forall v2, zget vs i2 = Ok (fv v2) -> ccw v0 v1 v2 <> 0).
  { intros i2 r. unfold seed2.
    assert (G : forall l pre best m0, vs = pre ++ l -> 
       (m0 = PInf \/ exists w, zget vs best = Ok w /\ m0 = circumradius (fv v0) (fv v1) w) ->
       argmin (fun i => (i =? i0)%Z || (i =? i1)%Z) (fun p => circumradius (fv v0) (fv v1) p) (fun _ => true) (Z.of_nat (length pre)) l best m0 = (i2, r) ->
       r = PInf \/ exists w, zget vs i2 = Ok w /\ r = circumradius (fv v0) (fv v1) w).
    { induction l as [|w l IH]; intros pre best m0 Hp Hm H; cbn [argmin] in H; [injection H as <- <-; exact Hm|].
      assert (Hz : zget vs (Z.of_nat (length pre)) = Ok w).
      { rewrite zget_nat, Hp, nth_error_app2, Nat.sub_diag by lia. reflexivity. }
      assert (Hn : vs = (pre ++ [w]) ++ l) by (rewrite <- app_assoc; exact Hp).
      replace (Z.of_nat (length pre) + 1)%Z with (Z.of_nat (length (pre ++ [w]))) in H by (rewrite app_length; cbn [length]; lia).
      destruct ((Z.of_nat (length pre) =? i0)%Z || (Z.of_nat (length pre) =? i1)%Z); [apply (IH _ _ _ Hn Hm H)|].
      match type of H with (if ?c then _ else _) = _ => destruct c end; [|apply (IH _ _ _ Hn Hm H)].
      apply (IH _ _ _ Hn) in H; [exact H|]. right. exists w. split; [exact Hz|reflexivity]. }
    intros H Hr v2 Hv2. apply (G vs [] 0%Z PInf eq_refl (or_introl eq_refl)) in H. destruct H as [->|(w & Hw & ->)]; [discriminate Hr|].
    rewrite Hv2 in Hw. injection Hw as <-. intros Z. rewrite circumradius_fv in Hr. destruct (Reqb_spec (ccw v0 v1 v2) 0); [discriminate Hr|contradiction]. }
  destruct (seed2 vs i0 i1 (fv v0) (fv v1)) as [i2 r]. destruct (seed2 vs' i0 i1 (fv (S v0)) (fv (S v1))) as [i2' r']. cbn [fst snd] in E2.
  destruct E2 as (<- & Hr). rewrite <- (QS_eq _ _ _ _ Hr QS_inf). destruct (feq XR r infinity) eqn:Er; [reflexivity|].
  destruct (zget_F2 PS vs vs' i2 PS_list) as [(a & a' & F2 & F2' & Ha)|(F2 & F2')]; rewrite F2, F2'; cbn [rbind]; [|reflexivity].
  destruct Ha as (v2 & I2 & -> & ->). specialize (Fr i2 r eq_refl Er v2 F2).
  assert (PP : forall v, In v pts -> PS (fv v) (fv (S v))) by (intros v Hv; exists v; split; [exact Hv|split; reflexivity]).
  rewrite <- (PS_lt _ _ _ _ _ _ (PP v0 I0) (PP v1 I1) (PP v2 I2)).
  assert (Fin2 : forall j1 j2 u1 u2, In u1 pts -> In u2 pts -> zget vs j1 = Ok (fv u1) -> zget vs' j1 = Ok (fv (S u1)) -> zget vs j2 = Ok (fv u2) -> zget vs' j2 = Ok (fv (S u2)) ->
    ccw v0 u1 u2 <> 0 ->
    (let! v1 := zget vs j1 in let! v2 := zget vs j2 in
     let center := circumcenter (fv v0) v1 v2 in
     let sq := map (fun p => SquaredDistance p center) vs in
     let ids := sort (lessId vs sq) (allIds (length vs)) in
     let! s := initTri vs center i0 j1 j2 in
     let! s := insertAll vs center i0 j1 j2 ids (mkvec infinity infinity (fofZ XR 0)) s in
     let L := Z.to_nat (trianglesLen s) in
     Ok (withHalfedges (firstn L (halfedges s)) (withTriangles (firstn L (triangles s)) s), false))%res =
    (let! v1 := zget vs' j1 in let! v2 := zget vs' j2 in
     let center := circumcenter (fv (S v0)) v1 v2 in
     let sq := map (fun p => SquaredDistance p center) vs' in
     let ids := sort (lessId vs' sq) (allIds (length vs')) in
     let! s := initTri vs' center i0 j1 j2 in
     let! s := insertAll vs' center i0 j1 j2 ids (mkvec infinity infinity (fofZ XR 0)) s in
     let L := Z.to_nat (trianglesLen s) in
     Ok (withHalfedges (firstn L (halfedges s)) (withTriangles (firstn L (triangles s)) s), false))%res).
  { intros j1 j2 u1 u2 U1 U2 G1 G1' G2 G2' Hc. rewrite G1, G1', G2, G2'. cbn [rbind]. cbv zeta.
    assert (Hc' : ccw (S v0) (S u1) (S u2) <> 0) by (rewrite ccw_S; pose proof kk; intros Z; apply Rmult_integral in Z; destruct Z; [lra|contradiction]).
    rewrite (circumcenter_fv _ _ _ Hc), (circumcenter_fv _ _ _ Hc').
    rewrite rcc_S by exact Hc. set (c := rcircumcenter v0 u1 u2). clearbody c.
    assert (HK : forall n p p', PS p p' -> hashKey (fv c) n p = hashKey (fv (S c)) n p') by (intros n p p' (a & _ & -> & ->); apply key_S).
    assert (HS : sort (lessId vs (map (fun p => SquaredDistance p (fv c)) vs)) (allIds (length vs)) =
                 sort (lessId vs' (map (fun p => SquaredDistance p (fv (S c))) vs')) (allIds (length vs'))).
    { rewrite <- (length_F2 _ _ _ PS_list). apply Hsort. intros a b Ia Ib.
      assert (Ri : forall z, In z (allIds (length vs)) -> (Z.to_nat z < length vs)%nat).
      { intros z Hz. apply in_map_iff in Hz. destruct Hz as (n & <- & Hn). apply in_seq in Hn. rewrite Nat2Z.id. lia. }
      apply (lessId_same PS vs vs' PS_list (fv c) (fv (S c)) QS); try (apply Ri; assumption).
      - intros p p' (q & _ & -> & ->). apply QS_sq.
      - apply QS_lt.
      - apply QS_eq.
      - intros p p' q q' (u & _ & -> & ->) (w & _ & -> & ->). cbn [vx fv S similar rx flt XR xltb]. symmetry. apply Rltb_shift. exact Hk.
      - intros p p' q q' (u & _ & -> & ->) (w & _ & -> & ->). cbn [vx fv S similar rx feq XR xeqb]. symmetry. apply Reqb_shift. exact Hk.
      - intros p p' q q' (u & _ & -> & ->) (w & _ & -> & ->). cbn [vy fv S similar ry flt XR xltb]. symmetry. apply Rltb_shift. exact Hk. }
    rewrite <- HS. rewrite <- (initTri_same PS vs vs' PS_list (fv c) (fv (S c)) HK (fun n => eq_refl)).
    destruct (initTri vs (fv c) i0 j1 j2) as [s| |]; cbn [rbind]; try reflexivity.
    rewrite <- (insertAll_same PS vs vs' PS_list PS_inC PS_lt PS_le (fv c) (fv (S c)) HK PS_near i0 j1 j2 _ (mkvec infinity infinity (fofZ XR 0)) (mkvec infinity infinity (fofZ XR 0)) s PS_near0).
    reflexivity. }
  destruct (flt XR (area (fv v0) (fv v1) (fv v2)) (fofZ XR 0)).
  - apply (Fin2 i2 i1 v2 v1 I2 I1 F2 F2' F1 F1'). intros Z. apply Fr. unfold ccw in *. lra.
  - apply (Fin2 i1 i2 v1 v2 I1 I2 F1 F1' F2 F2' Fr).
Qed.
Theorem Triangulate_S sort : sort_local sort ->
  match Triangulate sort vs, Triangulate sort vs' with
  | Ok (t, e), Ok (t', e') => tTriangles t' = tTriangles t /\ tHalfedges t' = tHalfedges t /\ e' = e /\
      exists h, tConvexHull t = map fv h /\ tConvexHull t' = map fv (map S h)
  | Panic, Panic => True | Diverge, Diverge => True | _, _ => False end.
Proof.
  intros Hsort. unfold Triangulate. rewrite <- (triangulate_S sort Hsort). destruct (triangulate sort vs) as [(s, e)| |]; cbn [rbind]; try exact I.
  pose proof (convexHull_same PS vs vs' PS_list s) as H. destruct (convexHull vs s) as [h| |], (convexHull vs' s) as [h'| |]; try contradiction; cbn [rbind]; try exact I.
  cbn [tTriangles tHalfedges tConvexHull]. repeat split.
  clear - H. induction H as [|a b l l' Hab H IH]; [exists []; split; reflexivity|]. destruct IH as (h & -> & ->). destruct Hab as (p & _ & -> & ->). exists (p :: h). split; reflexivity.
Qed.
End Sim.
