(** Proofs about triangulate2/util.go (C13, C14, C15, C32) and Validate (C31). *)
From Coq Require Import Reals Lra Lia ZArith QArith Qreals Bool List Permutation.
From Flocq Require Import Core.
From Verif Require Import Base Arith M_r3 M_tri2 Spec_r3 Spec_plane XRvec P_r3.
Import ListNotations.
Open Scope R_scope.

Lemma sq_sum_zero x y : x * x + y * y = 0 -> x = 0 /\ y = 0.
Proof.
  intros H. pose proof (Rle_0_sqr x). pose proof (Rle_0_sqr y). unfold Rsqr in *.
  split; apply Rsqr_0_uniq; unfold Rsqr; lra.
Qed.
(** ** area, inCircle (C13) *)
Lemma area_fv a b c : area (fv a) (fv b) (fv c) = Fin (- ccw a b c).
Proof. unfold area, ccw; simpl. f_equal. ring. Qed.
Lemma cross2D_fv a b c : cross2D (fv a) (fv b) (fv c) = Fin (ccw a b c).
Proof. reflexivity. Qed.

Lemma ccw_zero_collinear a b c : ccw a b c = 0 <-> collinear2 a b c.
Proof.
  unfold ccw, collinear2. split.
  - intros H.
    assert (D : (rx b - rx a = 0 /\ ry b - ry a = 0) \/ (ry b - ry a <> 0 \/ - (rx b - rx a) <> 0)).
    { destruct (Req_dec (rx b - rx a) 0); destruct (Req_dec (ry b - ry a) 0); [left|right|right|right]; lra. }
    destruct D as [[Hx Hy]|D].
    + replace (rx b) with (rx a) by lra. replace (ry b) with (ry a) by lra.
      destruct (Req_dec (rx c - rx a) 0) as [Hcx|Hcx].
      * replace (rx c) with (rx a) by lra. exists 1, 0, (rx a). split; [left; lra|]. repeat split; ring.
      * exists (ry c - ry a), (- (rx c - rx a)), ((ry c - ry a) * rx a - (rx c - rx a) * ry a).
        split; [right; lra|]. repeat split; ring.
    + exists (ry b - ry a), (- (rx b - rx a)), ((ry b - ry a) * rx a - (rx b - rx a) * ry a).
      split; [exact D|]. repeat split; [ring|ring|].
      transitivity ((ry b - ry a) * rx a - (rx b - rx a) * ry a
        - ((rx b - rx a) * (ry c - ry a) - (ry b - ry a) * (rx c - rx a))); [ring|]. rewrite H; ring.
  - intros (nx & ny & k & Hn & Ha & Hb & Hc).
    assert (Eb : nx * (rx b - rx a) + ny * (ry b - ry a) = 0) by lra.
    assert (Ec : nx * (rx c - rx a) + ny * (ry c - ry a) = 0) by lra.
    destruct Hn as [Hn|Hn].
    + apply Rmult_eq_reg_l with nx; auto.
      transitivity ((nx * (rx b - rx a) + ny * (ry b - ry a)) * (ry c - ry a)
                    - (ry b - ry a) * (nx * (rx c - rx a) + ny * (ry c - ry a))); [ring|].
      rewrite Eb, Ec; ring.
    + apply Rmult_eq_reg_l with ny; auto.
      transitivity ((nx * (rx c - rx a) + ny * (ry c - ry a)) * (rx b - rx a)
                    - (rx c - rx a) * (nx * (rx b - rx a) + ny * (ry b - ry a))); [ring|].
      rewrite Eb, Ec; ring.
Qed.

Lemma area_laws a b c :
  exists s, area (fv a) (fv b) (fv c) = Fin s /\
    (s = 0 <-> collinear2 a b c) /\
    area (fv b) (fv a) (fv c) = Fin (- s) /\ area (fv a) (fv c) (fv b) = Fin (- s) /\
    area (fv b) (fv c) (fv a) = Fin s /\
    s = - ccw a b c.
Proof.
  exists (- ccw a b c). rewrite !area_fv. split; [reflexivity|].
  split; [rewrite <- ccw_zero_collinear; lra|].
  repeat split; f_equal; unfold ccw; ring.
Qed.

(** the in-circle polynomial as computed *)
Definition incirc (a b c p : rv) : R :=
  let dx := rx a - rx p in let dy := ry a - ry p in
  let ex := rx b - rx p in let ey := ry b - ry p in
  let fx := rx c - rx p in let fy := ry c - ry p in
  let ap := dx * dx + dy * dy in let bp := ex * ex + ey * ey in let cp := fx * fx + fy * fy in
  dx * (ey * cp - bp * fy) - dy * (ex * cp - bp * fx) + ap * (ex * fy - ey * fx).
Lemma inCircle_fv a b c p : inCircle (fv a) (fv b) (fv c) (fv p) = Rltb (incirc a b c p) 0.
Proof. reflexivity. Qed.

Lemma incirc_identity a b c p o r2 :
  circle3 o r2 a b c -> incirc a b c p = ccw a b c * (r2 - dist2xy p o).
Proof.
  intros (Ha & Hb & Hc).
  assert (L : forall q, dist2xy q o = r2 ->
     (rx q - rx p) * (rx q - rx p) + (ry q - ry p) * (ry q - ry p)
     = (r2 - dist2xy p o) + 2 * ((rx q - rx p) * (rx o - rx p) + (ry q - ry p) * (ry o - ry p))).
  { intros q Hq. rewrite <- Hq. unfold dist2xy. ring. }
  unfold incirc. cbv zeta. rewrite (L a Ha), (L b Hb), (L c Hc).
  generalize (r2 - dist2xy p o). intros K. unfold ccw. ring.
Qed.
Lemma inCircle_correct a b c p o r2 :
  circle3 o r2 a b c ->
  (ccw a b c < 0 -> (inCircle (fv a) (fv b) (fv c) (fv p) = true <-> dist2xy p o < r2)) /\
  (ccw a b c > 0 -> (inCircle (fv a) (fv b) (fv c) (fv p) = true <-> dist2xy p o > r2)).
Proof.
  intros H. rewrite inCircle_fv, Rltb_true, (incirc_identity _ _ _ _ _ _ H).
  split; intros Hc; split; intros G; nra.
Qed.

(** ** circumcenter, circumradius (C14) *)
Definition rcircumcenter (a b c : rv) : rv :=
  let dx := rx b - rx a in let dy := ry b - ry a in
  let ex := rx c - rx a in let ey := ry c - ry a in
  let bl := dx * dx + dy * dy in let cl := ex * ex + ey * ey in
  RV (rx a + (ey * bl - dy * cl) * / 2 / ccw a b c) (ry a + (dx * cl - ex * bl) * / 2 / ccw a b c) 0.

Lemma half_Q : Q2R (1 # 2) = / 2.
Proof. unfold Q2R; simpl; lra. Qed.

Lemma circumcenter_fv a b c :
  ccw a b c <> 0 -> circumcenter (fv a) (fv b) (fv c) = fv (rcircumcenter a b c).
Proof.
  intros H. unfold circumcenter, fv, rcircumcenter. cbn [vx vy vz rx ry rz].
  xr_cbn. rewrite half_Q. fold (ccw a b c).
  unfold xdiv. destruct (Reqb_spec (ccw a b c) 0) as [E|E]; [contradiction|].
  reflexivity.
Qed.
Lemma rcircumcenter_circle a b c :
  ccw a b c <> 0 -> circle3 (rcircumcenter a b c) (dist2xy a (rcircumcenter a b c)) a b c.
Proof.
  intros H. unfold circle3, dist2xy, rcircumcenter; cbn [rx ry].
  split; [reflexivity|].
  split; unfold ccw in *; field; exact H.
Qed.
Lemma circle3_unique a b c o r2 :
  ccw a b c <> 0 -> circle3 o r2 a b c ->
  rx o = rx (rcircumcenter a b c) /\ ry o = ry (rcircumcenter a b c) /\
  r2 = dist2xy a (rcircumcenter a b c).
Proof.
  intros H (Ha & Hb & Hc).
  assert (E1 : 2 * ((rx b - rx a) * (rx o - rx a) + (ry b - ry a) * (ry o - ry a))
               = (rx b - rx a) * (rx b - rx a) + (ry b - ry a) * (ry b - ry a))
    by (unfold dist2xy in *; lra).
  assert (E2 : 2 * ((rx c - rx a) * (rx o - rx a) + (ry c - ry a) * (ry o - ry a))
               = (rx c - rx a) * (rx c - rx a) + (ry c - ry a) * (ry c - ry a))
    by (unfold dist2xy in *; lra).
  assert (X : rx o = rx (rcircumcenter a b c)).
  { unfold rcircumcenter; cbn [rx]. rewrite <- E1, <- E2. unfold ccw in *. field. exact H. }
  assert (Y : ry o = ry (rcircumcenter a b c)).
  { unfold rcircumcenter; cbn [ry]. rewrite <- E1, <- E2. unfold ccw in *. field. exact H. }
  repeat split; auto. rewrite <- Ha. unfold dist2xy. rewrite X, Y. reflexivity.
Qed.

Lemma circumradius_fv a b c :
  circumradius (fv a) (fv b) (fv c) =
  if Reqb (ccw a b c) 0 then PInf else Fin (dist2xy a (rcircumcenter a b c)).
Proof.
  unfold circumradius, fv. cbn [vx vy vz]. xr_cbn. rewrite half_Q. fold (ccw a b c).
  destruct (Reqb_spec (ccw a b c) 0) as [E|E].
  - unfold infinity; xr_cbn. rewrite !orb_true_r. reflexivity.
  - unfold xdiv. destruct (Reqb_spec (ccw a b c) 0) as [?|_]; [contradiction|]. xr_cbn.
    set (bl := (rx b - rx a) * (rx b - rx a) + (ry b - ry a) * (ry b - ry a)).
    set (cl := (rx c - rx a) * (rx c - rx a) + (ry c - ry a) * (ry c - ry a)).
    assert (Hr : dist2xy a (rcircumcenter a b c) =
       ((ry c - ry a) * bl - (ry b - ry a) * cl) * / 2 / ccw a b c
         * (((ry c - ry a) * bl - (ry b - ry a) * cl) * / 2 / ccw a b c)
       + ((rx b - rx a) * cl - (rx c - rx a) * bl) * / 2 / ccw a b c
         * (((rx b - rx a) * cl - (rx c - rx a) * bl) * / 2 / ccw a b c)).
    { unfold dist2xy, rcircumcenter. cbn [rx ry]. fold bl cl. ring. }
    rewrite <- Hr.
    destruct (rcircumcenter_circle a b c E) as (_ & Hb & Hc).
    assert (Hbl : bl <> 0).
    { intros Z. apply E. unfold ccw. unfold bl in Z.
      apply sq_sum_zero in Z. destruct Z as [-> ->]. ring. }
    assert (Hcl : cl <> 0).
    { intros Z. apply E. unfold ccw. unfold cl in Z.
      apply sq_sum_zero in Z. destruct Z as [-> ->]. ring. }
    assert (Hd : dist2xy a (rcircumcenter a b c) <> 0).
    { intros Z. apply Hbl. rewrite Z in Hb. unfold dist2xy in Z, Hb. unfold bl.
      apply sq_sum_zero in Z, Hb.
      replace (rx b - rx a) with 0 by lra. replace (ry b - ry a) with 0 by lra. ring. }
    destruct (Reqb_spec bl 0); [contradiction|]. destruct (Reqb_spec cl 0); [contradiction|].
    destruct (Reqb_spec (dist2xy a (rcircumcenter a b c)) 0); [contradiction|]. reflexivity.
Qed.
Lemma circum_correct a b c :
  (~ collinear2 a b c -> exists o r2,
     circumcenter (fv a) (fv b) (fv c) = fv o /\ rz o = 0 /\
     circumradius (fv a) (fv b) (fv c) = Fin r2 /\ circle3 o r2 a b c /\ 0 < r2) /\
  (collinear2 a b c <-> circumradius (fv a) (fv b) (fv c) = PInf).
Proof.
  rewrite <- ccw_zero_collinear. rewrite circumradius_fv. split.
  - intros H. exists (rcircumcenter a b c), (dist2xy a (rcircumcenter a b c)).
    rewrite circumcenter_fv by auto. destruct (Reqb_spec (ccw a b c) 0); [contradiction|].
    repeat (split; [reflexivity|]). pose proof (rcircumcenter_circle a b c H) as C.
    split; [exact C|]. destruct C as (_ & Hb & _).
    destruct (Rle_lt_or_eq_dec 0 (dist2xy a (rcircumcenter a b c))) as [|E]; auto.
    { unfold dist2xy. pose proof (Rle_0_sqr (rx a - rx (rcircumcenter a b c))).
      pose proof (Rle_0_sqr (ry a - ry (rcircumcenter a b c))). unfold Rsqr in *. lra. }
    exfalso. apply H. rewrite <- E in Hb. symmetry in E. unfold dist2xy in E, Hb. unfold ccw.
    apply sq_sum_zero in E, Hb.
    replace (rx b - rx a) with 0 by lra. replace (ry b - ry a) with 0 by lra. ring.
  - destruct (Reqb_spec (ccw a b c) 0); split; intros; auto; [contradiction|discriminate].
Qed.

(** ** pseudoAngle, hashKey (C15) *)
Lemma eps_fin : eps (A:=XR) = Fin epsR.
Proof. unfold eps, epsR. cbn. f_equal. unfold Q2R; cbn [Qnum Qden]. lra. Qed.
Lemma epsR_pos : 0 < epsR < 1.
Proof. unfold epsR. lra. Qed.

Definition pslope (dx dy : R) : R := dx / (Rabs dx + Rabs dy).
Definition praw (dx dy : R) : R :=
  if Rltb 0 dy then (3 - pslope dx dy) / 4 else (1 + pslope dx dy) / 4.
Definition pangle (dx dy : R) : R := Rmax 0 (Rmin (1 - epsR) (praw dx dy)).

Lemma abs_sum_pos dx dy : dx <> 0 \/ dy <> 0 -> 0 < Rabs dx + Rabs dy.
Proof.
  intros [H|H]; [pose proof (Rabs_pos_lt dx H); pose proof (Rabs_pos dy)
                |pose proof (Rabs_pos_lt dy H); pose proof (Rabs_pos dx)]; lra.
Qed.
Lemma pslope_range dx dy : dx <> 0 \/ dy <> 0 -> -1 <= pslope dx dy <= 1.
Proof.
  intros H. pose proof (abs_sum_pos dx dy H) as P. unfold pslope.
  pose proof (Rle_abs dx). pose proof (Rle_abs (- dx)) as Q. rewrite Rabs_Ropp in Q.
  pose proof (Rabs_pos dy).
  split.
  - apply Rmult_le_reg_r with (Rabs dx + Rabs dy); auto. unfold Rdiv.
    rewrite Rmult_assoc, Rinv_l by lra. lra.
  - apply Rmult_le_reg_r with (Rabs dx + Rabs dy); auto. unfold Rdiv.
    rewrite Rmult_assoc, Rinv_l by lra. lra.
Qed.
Lemma xmax_fin a b : xmax (Fin a) (Fin b) = Fin (Rmax a b).
Proof.
  unfold xmax, xltb. destruct (Rltb_spec b a); unfold Rmax; destruct Rle_dec; auto; f_equal; lra.
Qed.
Lemma xmin_fin a b : xmin (Fin a) (Fin b) = Fin (Rmin a b).
Proof.
  unfold xmin, xltb. destruct (Rltb_spec a b); unfold Rmin; destruct Rle_dec; auto; f_equal; lra.
Qed.
Lemma pseudoAngle_fin dx dy :
  dx <> 0 \/ dy <> 0 -> pseudoAngle (A:=XR) (Fin dx) (Fin dy) = Fin (pangle dx dy).
Proof.
  intros H. pose proof (abs_sum_pos dx dy H) as P.
  unfold pseudoAngle. rewrite eps_fin. xr_cbn. unfold xdiv.
  destruct (Reqb_spec (Rabs dx + Rabs dy) 0); [lra|]. fold (pslope dx dy).
  unfold pangle, praw. destruct (Rltb 0 dy); cbn [xsub xadd];
    (destruct (Reqb_spec 4 0); [lra|]); rewrite xmin_fin, xmax_fin; reflexivity.
Qed.
Lemma pangle_range dx dy : 0 <= pangle dx dy <= 1 - epsR.
Proof.
  pose proof epsR_pos. unfold pangle. split; [apply Rmax_l|].
  apply Rmax_lub; [lra|apply Rmin_l].
Qed.
Lemma Ztrunc_range x n : 0 <= x < IZR n -> (0 <= Ztrunc x < n)%Z.
Proof.
  intros [H1 H2]. rewrite Ztrunc_floor by auto. split.
  - apply Zfloor_lub. simpl. auto.
  - apply lt_IZR. apply Rle_lt_trans with x; auto. apply Zfloor_lb.
Qed.
Lemma hashKey_range (center v : rv) (n : Z) :
  ~ samexy center v -> (0 < n < 2 ^ 63)%Z ->
  (0 <= hashKey (A:=XR) (fv center) n (fv v) < n)%Z.
Proof.
  intros Hne Hn. unfold hashKey. rewrite Sub_fv. cbn [vx vy fv].
  rewrite pseudoAngle_fin.
  2:{ unfold samexy in Hne. simpl. destruct (Req_dec (rx v - rx center) 0); [|auto].
      right. intros E. apply Hne. split; lra. }
  set (p := pangle _ _). pose proof (pangle_range (rx (rsub v center)) (ry (rsub v center))) as R.
  fold p in R. cbn [ftoZ XR xtoZ fmul xmul fofZ].
  assert (T : (0 <= Ztrunc (p * IZR n) < n)%Z).
  { apply Ztrunc_range. assert (0 < IZR n) by (apply IZR_lt; lia).
    pose proof epsR_pos. split; [apply Rmult_le_pos; lra|].
    rewrite <- (Rmult_1_l (IZR n)) at 2. apply Rmult_lt_compat_r; lra. }
  unfold int64_fits. replace ((- 2 ^ 63 <=? Ztrunc (p * IZR n)) && (Ztrunc (p * IZR n) <? 2 ^ 63))%Z with true.
  - exact T.
  - symmetry. apply andb_true_intro. split; [apply Z.leb_le|apply Z.ltb_lt]; lia.
Qed.

Lemma pslope_mono c1 s1 c2 s2 :
  (c1 <> 0 \/ s1 <> 0) -> (c2 <> 0 \/ s2 <> 0) ->
  c1 <= c2 -> c1 * Rabs s2 <= c2 * Rabs s1 -> pslope c1 s1 <= pslope c2 s2.
Proof.
  intros H1 H2 Hc H. pose proof (abs_sum_pos _ _ H1) as P1. pose proof (abs_sum_pos _ _ H2) as P2.
  unfold pslope.
  apply Rmult_le_reg_r with ((Rabs c1 + Rabs s1) * (Rabs c2 + Rabs s2)).
  { apply Rmult_lt_0_compat; auto. }
  replace (c1 / (Rabs c1 + Rabs s1) * ((Rabs c1 + Rabs s1) * (Rabs c2 + Rabs s2)))
    with (c1 * (Rabs c2 + Rabs s2)) by (field; lra).
  replace (c2 / (Rabs c2 + Rabs s2) * ((Rabs c1 + Rabs s1) * (Rabs c2 + Rabs s2)))
    with (c2 * (Rabs c1 + Rabs s1)) by (field; lra).
  assert (c1 * Rabs c2 <= c2 * Rabs c1); [|lra].
  unfold Rabs; destruct (Rcase_abs c1), (Rcase_abs c2); nra.
Qed.
Lemma unit_nonzero t : cos t <> 0 \/ sin t <> 0.
Proof.
  destruct (Req_dec (cos t) 0) as [E|E]; [right|auto]. intros G.
  pose proof (sin2_cos2 t) as H. rewrite E, G in H. unfold Rsqr in H. lra.
Qed.
Lemma praw_mono t1 t2 :
  - PI <= t1 -> t1 <= t2 -> t2 < PI ->
  praw (cos t1) (sin t1) <= praw (cos t2) (sin t2).
Proof.
  intros H1 H12 H2. pose proof PI_RGT_0 as HPI.
  pose proof (unit_nonzero t1) as U1. pose proof (unit_nonzero t2) as U2.
  pose proof (pslope_range _ _ U1) as R1. pose proof (pslope_range _ _ U2) as R2.
  unfold praw.
  assert (S : forall t, - PI <= t < PI -> (0 < sin t <-> 0 < t)).
  { intros t Ht. split; intros G.
    - destruct (Rlt_dec 0 t); auto. exfalso.
      assert (sin t <= 0); [|lra].
      replace t with (- (- t)) by ring. rewrite sin_neg.
      assert (0 <= sin (- t)) by (apply sin_ge_0; lra). lra.
    - apply sin_gt_0; lra. }
  assert (D : 0 <= t2 - t1 -> t2 - t1 <= PI -> 0 <= sin (t2 - t1)) by (intros; apply sin_ge_0; lra).
  rewrite sin_minus in D.
  destruct (Rltb_spec 0 (sin t1)) as [P1|P1]; destruct (Rltb_spec 0 (sin t2)) as [P2|P2].
  - (* both in the upper half: slope decreasing *)
    pose proof (proj1 (S t1 ltac:(lra)) P1) as Q1. pose proof (proj1 (S t2 ltac:(lra)) P2) as Q2.
    assert (pslope (cos t2) (sin t2) <= pslope (cos t1) (sin t1)); [|lra].
    apply pslope_mono; auto.
    + destruct (Req_dec t1 t2) as [->|]; [lra|]. left. apply cos_decreasing_1; lra.
    + rewrite !Rabs_pos_eq by lra. specialize (D ltac:(lra) ltac:(lra)). lra.
  - exfalso. pose proof (proj1 (S t1 ltac:(lra)) P1). assert (0 < sin t2) by (apply S; lra). lra.
  - lra.
  - assert (Q1 : t1 <= 0). { destruct (Rle_dec t1 0); auto. assert (0 < sin t1) by (apply S; lra). lra. }
    assert (Q2 : t2 <= 0). { destruct (Rle_dec t2 0); auto. assert (0 < sin t2) by (apply S; lra). lra. }
    assert (pslope (cos t1) (sin t1) <= pslope (cos t2) (sin t2)); [|lra].
    apply pslope_mono; auto.
    + destruct (Req_dec t1 t2) as [->|]; [lra|]. left.
      rewrite <- (cos_neg t1), <- (cos_neg t2). apply cos_decreasing_1; lra.
    + rewrite <- (Rabs_Ropp (sin t1)), <- (Rabs_Ropp (sin t2)), !Rabs_pos_eq by lra.
      specialize (D ltac:(lra) ltac:(lra)). lra.
Qed.
Lemma pslope_scale r c s : 0 < r -> pslope (r * c) (r * s) = pslope c s.
Proof.
  intros H. unfold pslope. rewrite !Rabs_mult, (Rabs_pos_eq r) by lra.
  destruct (Req_dec (Rabs c + Rabs s) 0) as [E|E].
  - replace (r * Rabs c + r * Rabs s) with (r * (Rabs c + Rabs s)) by ring. rewrite E.
    assert (Rabs c = 0) by (pose proof (Rabs_pos c); pose proof (Rabs_pos s); lra).
    assert (c = 0) as -> by (destruct (Req_dec c 0); auto; pose proof (Rabs_pos_lt c ltac:(auto)); lra).
    rewrite Rmult_0_r. unfold Rdiv; ring.
  - replace (r * Rabs c + r * Rabs s) with (r * (Rabs c + Rabs s)) by ring.
    set (X := Rabs c + Rabs s) in *. field. split; [exact E|lra].
Qed.
Lemma pseudoAngle_monotone r1 t1 r2 t2 :
  0 < r1 -> 0 < r2 -> - PI <= t1 -> t1 <= t2 -> t2 < PI ->
  exists p1 p2,
    pseudoAngle (A:=XR) (Fin (r1 * cos t1)) (Fin (r1 * sin t1)) = Fin p1 /\
    pseudoAngle (A:=XR) (Fin (r2 * cos t2)) (Fin (r2 * sin t2)) = Fin p2 /\ p1 <= p2.
Proof.
  intros Hr1 Hr2 H1 H12 H2.
  assert (N : forall r t, 0 < r -> r * cos t <> 0 \/ r * sin t <> 0).
  { intros r t Hr. destruct (unit_nonzero t); [left|right]; apply Rmult_integral_contrapositive; split; lra. }
  rewrite !pseudoAngle_fin by (apply N; auto).
  do 2 eexists. split; [reflexivity|]. split; [reflexivity|].
  assert (E : forall r t, 0 < r -> praw (r * cos t) (r * sin t) = praw (cos t) (sin t)).
  { intros r t Hr. unfold praw. rewrite pslope_scale by auto.
    replace (Rltb 0 (r * sin t)) with (Rltb 0 (sin t)); auto.
    destruct (Rltb_spec 0 (sin t)), (Rltb_spec 0 (r * sin t)); auto; exfalso; nra. }
  unfold pangle. rewrite !E by auto.
  apply Rle_max_compat_l. apply Rle_min_compat_l. apply praw_mono; auto.
Qed.

(** ** Validate (C31) *)
Lemma validate_loop_sound (hs : list Z) (l : list Z) :
  forall i ok, (exists pre, hs = pre ++ l /\ i = Z.of_nat (length pre)) ->
  range_loop i l ok (fun i1 i2 ok =>
    if negb ok then Ok false
    else
      rbind (zget hs i1) (fun h1 =>
      if negb (i1 =? -1)%Z && negb (h1 =? i2)%Z then Ok false
      else if negb (i2 =? -1)%Z then
        rbind (zget hs i2) (fun h2 =>
        if negb (h2 =? i1)%Z then Ok false else Ok true)
      else Ok true)) = Ok true ->
  ok = true /\
  forall k h, nth_error l k = Some h -> h <> (-1)%Z -> zget hs h = Ok (i + Z.of_nat k)%Z.
Proof.
  induction l as [|x l IH]; intros i ok (pre & Hp & Hi) H; simpl in H.
  - injection H as ->. split; auto. intros [|k] h Hk; discriminate.
  - destruct ok; simpl in H.
    2:{ exfalso. apply IH in H; [destruct H; discriminate|].
        exists (pre ++ [x]). rewrite <- app_assoc. split; auto.
        rewrite app_length; simpl; lia. }
    assert (Hx : zget hs i = Ok x).
    { subst i. rewrite zget_nat, Hp, nth_error_app2, Nat.sub_diag by lia. reflexivity. }
    rewrite Hx in H. simpl in H.
    rewrite Z.eqb_refl in H. simpl in H. rewrite andb_false_r in H.
    split; auto.
    assert (Hnext : exists pre0, hs = pre0 ++ l /\ (i + 1)%Z = Z.of_nat (length pre0)).
    { exists (pre ++ [x]). rewrite <- app_assoc. split; auto. rewrite app_length; simpl; lia. }
    destruct (Z.eqb_spec x (-1)) as [Ex|Ex]; simpl in H.
    + apply IH in H; auto. destruct H as [_ H].
      intros [|k] h Hk Hh; simpl in Hk.
      * injection Hk as <-. contradiction.
      * rewrite (H k h Hk Hh). f_equal. lia.
    + destruct (zget hs x) as [h2| |] eqn:E2; simpl in H; try discriminate.
      destruct (Z.eqb_spec h2 i) as [E3|E3]; simpl in H.
      * apply IH in H; auto. destruct H as [_ H].
        intros [|k] h Hk Hh; simpl in Hk.
        -- injection Hk as <-. rewrite E2. f_equal. lia.
        -- rewrite (H k h Hk Hh). f_equal. lia.
      * apply IH in H; auto. destruct H; discriminate.
Qed.
Lemma validate_sound {A : Arith} srt (t : Triangulation A) :
  Validate srt t = Ok true ->
  forall (k : nat) (h : Z), nth_error (tHalfedges t) k = Some h -> h <> (-1)%Z ->
    (0 <= h)%Z /\ nth_error (tHalfedges t) (Z.to_nat h) = Some (Z.of_nat k).
Proof.
  unfold Validate. intros H k h Hk Hh.
  destruct (validate_halfedges (tHalfedges t)) as [ok| |] eqn:E; simpl in H; try discriminate.
  destruct ok; simpl in H; [|discriminate].
  unfold validate_halfedges in E.
  apply (validate_loop_sound (tHalfedges t) (tHalfedges t) 0 true) in E.
  - destruct E as [_ E]. specialize (E k h Hk Hh). apply zget_ok in E. simpl in E. exact E.
  - exists []. split; reflexivity.
Qed.
