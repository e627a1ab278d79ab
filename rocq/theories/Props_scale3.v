(** Property theorems C172: neither the hull nor the tetrahedral mesh depends on the unit of length or on the place of the origin. *)
From Coq Require Import Reals Lra Lia Psatz ZArith QArith Qreals List Bool.
From Flocq Require Import Core BinarySingleNaN.
From Verif Require Import Base Arith GoMap M_r3 M_tri2 M_predicates M_meshing Spec_r3 Spec_plane Spec_acc64 Spec_mesh XRvec P_r3 P_tri2 P_predicates P_insphere_err P_insphere_b64 P_acc64 P_b64hash P_b64hull
  P_meshgeom P_b64grid3 Spec_similar Spec_scale64 P_same P_same3 P_similar P_scale64 Props_acc64 Props_clearhull Props_similar.
Import ListNotations.
Open Scope R_scope.

(** ** exact arithmetic *)
Definition same_list {A : Arith} (f : vec A -> vec A) (r r' : res (list (vec A))) : Prop :=
  match r, r' with Ok h, Ok h' => h' = map f h | Panic, Panic => True | _, _ => False end.
(** ConvexHull, for a sort that treats the moved points as the points *)
Theorem C172_hull srt k tx ty pts : 0 < k -> srt (map (movev k tx ty) (map fv pts)) = map (movev k tx ty) (srt (map fv pts)) -> incl (srt (map fv pts)) (map fv pts) ->
  (forall p q, In p pts -> In q pts -> (rdist2 p q < epsR <-> k * k * rdist2 p q < epsR)) ->
  same_list (movev k tx ty) (ConvexHull srt (map fv pts)) (ConvexHull srt (map fv (map (similar k tx ty) pts))).
Proof.
  intros Hk Hs Hi Hn. assert (EM : map fv (map (similar k tx ty) pts) = map (movev k tx ty) (map fv pts)) by (rewrite !map_map; reflexivity).
  set (P := fun v v' : vec XR => exists p, In p pts /\ v = fv p /\ v' = fv (similar k tx ty p)).
  assert (F : Forall2 P (srt (map fv pts)) (srt (map fv (map (similar k tx ty) pts)))).
  { rewrite EM, Hs. revert Hi. generalize (srt (map fv pts)) as l. induction l as [|v l IH]; intros Hi; cbn [map]; constructor; [|apply IH; intros x Hx; apply Hi; right; exact Hx].
    destruct (proj1 (in_map_iff _ _ _) (Hi v (or_introl eq_refl))) as (p & <- & Hp). exists p. split; [exact Hp|]. split; reflexivity. }
  assert (Cr : forall a b c, cross2D (fv (similar k tx ty a)) (fv (similar k tx ty b)) (fv (similar k tx ty c)) = Fin (k * k * ((rx b - rx a) * (ry c - ry a) - (ry b - ry a) * (rx c - rx a)))).
  { intros a b c. unfold cross2D. cbn [vx vy fv similar rx ry fsub fmul XR xsub xmul]. f_equal. ring. }
  assert (K : 0 < k * k) by nra.
  assert (Z : fofZ XR 0 = Fin (k * k * 0)) by (cbn; f_equal; ring).
  pose proof (ConvexHull_same P) as T. unfold same_list.
  assert (T' : match ConvexHull srt (map fv pts), ConvexHull srt (map fv (map (similar k tx ty) pts)) with Ok h, Ok h' => Forall2 P h h' | Panic, Panic => True | _, _ => False end).
  { apply T; [| | |exact F].
    - intros a a' b b' c c' (p & _ & -> & ->) (q & _ & -> & ->) (r & _ & -> & ->). unfold testU. rewrite Cr, Z. change (fofZ XR 0) with (Fin 0). 
      change (cross2D (fv p) (fv q) (fv r)) with (Fin ((rx q - rx p) * (ry r - ry p) - (ry q - ry p) * (rx r - rx p))). cbn [flt XR xltb]. rewrite Rltb_scale by exact K. f_equal. ring.
    - intros a a' b b' c c' (p & _ & -> & ->) (q & _ & -> & ->) (r & _ & -> & ->). unfold testL. rewrite Cr, Z.
      change (cross2D (fv p) (fv q) (fv r)) with (Fin ((rx q - rx p) * (ry r - ry p) - (ry q - ry p) * (rx r - rx p))). cbn [flt XR xltb]. rewrite Rltb_scale by exact K. f_equal. ring.
    - intros a a' b b' (p & Ip & -> & ->) (q & Iq & -> & ->). rewrite !sq_fv, (rdist2_S k tx ty). unfold eps. cbn [fofQ XR flt xltb]. rewrite eps_Q. apply eq_true_iff_eq. rewrite !Rltb_true. apply Hn; assumption. }
  destruct (ConvexHull srt (map fv pts)) as [h| |], (ConvexHull srt (map fv (map (similar k tx ty) pts))) as [h'| |]; try contradiction; [|exact I].
  clear - T'. induction T' as [|a b l l' (p & _ & -> & ->) H IH]; [reflexivity|]. cbn [map]. rewrite IH. reflexivity.
Qed.
Print Assumptions C172_hull.

Theorem C172_mesh ordT ordF ordE k t pts : 0 < k -> (forall p, In p pts -> in_range p) -> (forall p, In p pts -> in_range (similar3 k t p)) ->
  bowyerWatson ordT ordF ordE (map fv (map (similar3 k t) pts)) = bowyerWatson ordT ordF ordE (map fv pts).
Proof.
  intros Hk Hr Hr'. symmetry.
  set (tt := fun i : nat => match i with 0%nat => rx t | 1%nat => ry t | _ => rz t end).
  set (C := fun (i : nat) (x x' : XR) => exists r, x = Fin r /\ x' = Fin (k * r + tt i) /\ Rabs r <= maxfloat /\ Rabs (k * r + tt i) <= maxfloat).
  set (C' := fun (i : nat) (x x' : XR) => exists r, x = Fin r /\ x' = Fin (k * r + tt i)).
  apply (bowyerWatson_same C C').
  - intros i x x' (r & E & E' & _). exists r. split; assumption.
  - intros i x x' y y' (r & -> & -> & _) (s & -> & -> & _). cbn [flt XR xltb]. symmetry. apply Rltb_shift. exact Hk.
  - assert (U : forall r, Rabs r <= maxfloat -> @updMin XR MaxFloat64 (Fin r) = Fin r).
    { intros r B. unfold updMin, MaxFloat64. cbn [fofQ XR flt xltb]. rewrite Q2R_maxfloat. destruct (Rltb r maxfloat) eqn:E; [reflexivity|]. f_equal.
      assert (~ r < maxfloat) by (intros L; apply Rltb_true in L; congruence). apply Rabs_le_inv in B. lra. }
    intros i x x' (r & -> & -> & B & B'). rewrite !U by assumption. exists r. auto.
  - assert (U : forall r, Rabs r <= maxfloat -> @updMax XR negMaxFloat64 (Fin r) = Fin r).
    { intros r B. unfold updMax, negMaxFloat64. cbn [fofQ XR flt xltb]. rewrite Q2R_negmaxfloat. destruct (Rltb (- maxfloat) r) eqn:E; [reflexivity|]. f_equal.
      assert (~ - maxfloat < r) by (intros L; apply Rltb_true in L; congruence). apply Rabs_le_inv in B. lra. }
    intros i x x' (r & -> & -> & B & B'). rewrite !U by assumption. exists r. auto.
  - intros i lo lo' hi hi' (r & -> & -> & _) (s & -> & -> & _). exists (r + 3 * (s - r)). cbn [fadd fmul fsub fofZ XR xadd xmul xsub]. split; [reflexivity|]. f_equal. ring.
  - assert (VV : forall v v', V C' v v' -> exists p, v = fv p /\ v' = fv (similar3 k t p)).
    { intros (x, y, z) (x', y', z') ((a & E1 & E1') & (b & E2 & E2') & (c & E3 & E3')). cbn [vx vy vz] in *. subst. exists (RV a b c). split; reflexivity. }
    intros a a' b b' c c' d d' e e' Ha Hb Hc Hd He.
    destruct (VV _ _ Ha) as (pa & -> & ->), (VV _ _ Hb) as (pb & -> & ->), (VV _ _ Hc) as (pc & -> & ->), (VV _ _ Hd) as (pd & -> & ->).
    assert (He' : V C' e e') by (destruct He as ((x1 & ? & ? & _) & (x2 & ? & ? & _) & (x3 & ? & ? & _)); split; [exists x1|split; [exists x2|exists x3]]; auto).
    destruct (VV _ _ He') as (pe & -> & ->). clear - Hk. destruct pa as [a1 a2 a3], pb as [b1 b2 b3], pc as [c1 c2 c3], pd as [d1 d2 d3], pe as [e1 e2 e3], t as [t1 t2 t3].
    unfold InSphereFast, similar3. cbv zeta. cbn [vx vy vz fv Spec_r3.rx Spec_r3.ry Spec_r3.rz fsub fmul fadd fofZ XR xsub xmul xadd fle xleb].
    assert (K5 : 0 < k * k * (k * k) * k) by (repeat apply Rmult_lt_0_compat; assumption).
    match goal with |- Rleb _ ?r = Rleb _ ?r' => assert (E : r' = k * k * (k * k) * k * r) by ring; rewrite E; generalize r; intros w end.
    unfold Rleb. destruct (Rle_dec 0 w), (Rle_dec 0 (k * k * (k * k) * k * w)); try reflexivity; exfalso; nra.
  - assert (G : forall l, (forall p, In p l -> In p pts) -> Forall2 (V C) (map fv l) (map fv (map (similar3 k t) l))); [|apply G; auto].
    induction l as [|p l IH]; intros Hl; cbn [map]; constructor; [|apply IH; intros q Hq; apply Hl; right; exact Hq].
    destruct (Hr p (Hl p (or_introl eq_refl))) as (R1 & R2 & R3), (Hr' p (Hl p (or_introl eq_refl))) as (S1 & S2 & S3). cbn [similar3 rx ry rz] in *.
    split; [exists (rx p)|split; [exists (ry p)|exists (rz p)]]; repeat split; assumption.
Qed.
Print Assumptions C172_mesh.

(** ** binary64, multiplication by a power of two *)
Lemma cross_PT e a a' b b' c c' : PT e a a' -> PT e b b' -> PT e c c' -> sc e 2 180 183 (cross2D a b c) (cross2D a' b' c').
Proof. intros (Ax & Ay & _) (Bx & By & _) (Cx & Cy & _). unfold cross2D. apply dif2; apply prod2; apply sub_PT; assumption. Qed.
Lemma list_PT e vs : Forall (scalable_vec e) vs -> Forall2 (PT e) vs (map (scale64 e) vs).
Proof. induction 1; cbn [map]; constructor; [apply scale_PT; assumption|assumption]. Qed.
Theorem C172_hull64 srt e vs : Forall (scalable_vec e) vs -> srt (map (scale64 e) vs) = map (scale64 e) (srt vs) -> incl (srt vs) vs ->
  (forall p q, In p vs -> In q vs -> same_side (rdist2 (rvec p) (rvec q)) (bpow radix2 (2 * e) * rdist2 (rvec p) (rvec q))) ->
  same_list (scale64 e) (ConvexHull srt vs) (ConvexHull srt (map (scale64 e) vs)).
Proof.
  intros Hv Hs Hi Hn. rewrite Forall_forall in Hv.
  set (P := fun v v' : vec B64 => In v vs /\ v' = scale64 e v).
  assert (PP : forall v v', P v v' -> PT e v v') by (intros v v' (Iv & ->); apply scale_PT, Hv, Iv).
  assert (F : Forall2 P (srt vs) (srt (map (scale64 e) vs))).
  { rewrite Hs. revert Hi. generalize (srt vs) as l. induction l as [|v l IH]; intros Hi; cbn [map]; constructor; [|apply IH; intros x Hx; apply Hi; right; exact Hx].
    split; [apply Hi; left; reflexivity|reflexivity]. }
  assert (T1 : forall x, P_insphere_b64.rel x (B2R x) 90 90 -> tame x) by (intros x (Fx & _ & G & B); apply grid90_tame; [exact Fx|split; assumption]).
  assert (TP : forall v v', PT e v v' -> tame_vec v /\ tame_vec v').
  { intros v v' ((X1 & X2 & _) & (Y1 & Y2 & _) & (Z1 & Z2 & _)). split; (split; [|split]); apply T1; assumption. }
  assert (RP : forall p p' q q', PT e p p' -> PT e q q' -> rdist2 (rvec p') (rvec q') = bpow radix2 (2 * e) * rdist2 (rvec p) (rvec q)).
  { intros p p' q q' ((_ & _ & X) & (_ & _ & Y) & (_ & _ & Z)) ((_ & _ & X') & (_ & _ & Y') & (_ & _ & Z')). unfold rdist2, rdot, rsub, rvec. cbn [rx ry rz].
    rewrite X, Y, Z, X', Y', Z'. replace (2 * e)%Z with (1 * e + 1 * e)%Z by ring. rewrite bpow_plus. ring. }
  assert (T' : match ConvexHull srt vs, ConvexHull srt (map (scale64 e) vs) with Ok h, Ok h' => Forall2 P h h' | Panic, Panic => True | _, _ => False end).
  { apply (ConvexHull_same P); [| | |exact F].
    - intros a a' b b' c c' Ha Hb Hc. apply PP in Ha, Hb, Hc. unfold testU. apply (sc_lt e 2 0 0 180 183); [apply sc_zero; lia|apply cross_PT; assumption].
    - intros a a' b b' c c' Ha Hb Hc. apply PP in Ha, Hb, Hc. unfold testL. apply (sc_lt e 2 180 183 0 0); [apply cross_PT; assumption|apply sc_zero; lia].
    - intros p p' q q' Hp Hq. pose proof (proj1 Hp) as Ip. pose proof (proj1 Hq) as Iq. apply PP in Hp, Hq. destruct (TP _ _ Hp) as (Tp & Tp'), (TP _ _ Hq) as (Tq & Tq').
      destruct (near_acc p q _ Tp Tq eq_refl) as (F1 & C1). destruct (near_acc p' q' _ Tp' Tq' eq_refl) as (F2 & C2). rewrite (RP _ _ _ _ Hp Hq) in F2, C2.
      destruct (Hn p q Ip Iq) as [(H & H')|(H & H')]; [rewrite (F1 H), (F2 H')|rewrite (C1 H), (C2 H')]; reflexivity. }
  unfold same_list. destruct (ConvexHull srt vs) as [h| |], (ConvexHull srt (map (scale64 e) vs)) as [h'| |]; try contradiction; [|exact I].
  clear - T'. induction T' as [|a b l l' (_ & ->) H IH]; [reflexivity|]. cbn [map]. rewrite IH. reflexivity.
Qed.
Print Assumptions C172_hull64.

Lemma big_max x : P_insphere_b64.rel x (B2R x) 90 90 -> @updMin B64 MaxFloat64 x = x /\ @updMax B64 negMaxFloat64 x = x.
Proof.
  intros (F & _ & _ & B). destruct frel_max as (F1 & _). destruct frel_negmax as (F2 & _).
  assert (M : bpow radix2 90 < maxfloat).
  { assert (Q : bpow radix2 90 < bpow radix2 1024 - bpow radix2 971).
    { assert (bpow radix2 90 < bpow radix2 971) by (apply bpow_lt; lia). assert (E : bpow radix2 1024 = bpow radix2 53 * bpow radix2 971) by (rewrite <- bpow_plus; reflexivity).
      rewrite E. assert (2 <= bpow radix2 53) by (apply Rle_trans with (bpow radix2 1); [cbn; lra|apply bpow_le; lia]). pose proof (bpow_gt_0 radix2 971). nra. }
    unfold maxfloat. rewrite <- !IZR_Zpower in Q by lia. rewrite !pow_IZR. exact Q. }
  apply Rabs_le_inv in B. unfold updMin, updMax. change (@flt B64) with (@Bltb 53 1024).
  rewrite (Bltb_correct _ _ x _ F F1), (Bltb_correct _ _ _ x F2 F).
  rewrite B2R_maxfloat, B2R_negmaxfloat. rewrite !Rlt_bool_true by lra. split; reflexivity.
Qed.
Theorem C172_mesh64 ordT ordF ordE e vs : Forall (scalable_vec e) vs ->
  bowyerWatson ordT ordF ordE (map (scale64 e) vs) = bowyerWatson ordT ordF ordE vs.
Proof.
  intros Hv. symmetry. apply (@bowyerWatson_same B64 (fun _ => sc e 1 90 90) (fun _ => sc e 1 90 94)).
  - intros _ x x' H. apply (sc_weak e 1 90 90); [lia|lia|exact H].
  - intros _ x x' y y' X Y. apply (sc_lt e 1 90 90 90 90); assumption.
  - intros _ x x' X. destruct (big_max x (proj1 X)) as (-> & _). destruct (big_max x' (proj1 (proj2 X))) as (-> & _). exact X.
  - intros _ x x' X. destruct (big_max x (proj1 X)) as (_ & ->). destruct (big_max x' (proj1 (proj2 X))) as (_ & ->). exact X.
  - intros _ lo lo' hi hi' L H. apply (sc_add e 1 90 93); try lia; [apply (sc_weak e 1 90 90); [lia|lia|exact L]|].
    apply (sc_mul e 0 1 1 0 2 90 91); try lia; [|apply sub_PT; assumption]. apply sc_same.
    assert (E : B2R (fofZ B64 3 : b64) = 3) by (cbn; unfold F2R; cbn; lra). rewrite E. split; [reflexivity|]. split; [exact E|].
    split; [exists 3%Z; change (bpow radix2 (- 0)) with 1; lra|]. rewrite Rabs_pos_eq by lra. cbn; lra.
  - intros a a' b b' c c' d d' p p' (Ax & Ay & Az) (Bx & By & Bz) (Cx & Cy & Cz) (Dx & Dy & Dz) (Ex & Ey & Ez).
    assert (Sb : forall x x' y y', sc e 1 90 94 x x' -> sc e 1 90 90 y y' -> sc e 1 90 95 (fsub B64 x y) (fsub B64 x' y')).
    { intros x x' y y' X Y. apply (sc_sub e 1 90 94); try lia; [exact X|]. apply (sc_weak e 1 90 90); [lia|lia|exact Y]. }
    assert (M2 : forall x x' y y', sc e 1 90 95 x x' -> sc e 1 90 95 y y' -> sc e 2 180 190 (fmul B64 x y) (fmul B64 x' y')) by (intros; apply (sc_mul e 1 1 2 90 95 90 95); try lia; assumption).
    assert (D2 : forall x x' y y', sc e 2 180 190 x x' -> sc e 2 180 190 y y' -> sc e 2 180 191 (fsub B64 x y) (fsub B64 x' y')) by (intros; apply (sc_sub e 2 180 190); try lia; assumption).
    assert (M3 : forall x x' y y', sc e 1 90 95 x x' -> sc e 2 180 191 y y' -> sc e 3 270 286 (fmul B64 x y) (fmul B64 x' y')) by (intros; apply (sc_mul e 1 2 3 90 95 180 191); try lia; assumption).
    assert (A3 : forall x x' y y', sc e 3 270 286 x x' -> sc e 3 270 286 y y' -> sc e 3 270 287 (fadd B64 x y) (fadd B64 x' y')) by (intros; apply (sc_add e 3 270 286); try lia; assumption).
    assert (S3 : forall x x' y y', sc e 3 270 286 x x' -> sc e 3 270 286 y y' -> sc e 3 270 287 (fsub B64 x y) (fsub B64 x' y')) by (intros; apply (sc_sub e 3 270 286); try lia; assumption).
    assert (B3 : forall x x' y y', sc e 3 270 287 x x' -> sc e 3 270 286 y y' -> sc e 3 270 288 (fadd B64 x y) (fadd B64 x' y')).
    { intros x x' y y' X Y. apply (sc_add e 3 270 287); try lia; [exact X|]. apply (sc_weak e 3 270 286); [lia|lia|exact Y]. }
    assert (L2 : forall x x' y y' z z', sc e 1 90 95 x x' -> sc e 1 90 95 y y' -> sc e 1 90 95 z z' ->
      sc e 2 180 192 (fadd B64 (fadd B64 (fmul B64 x x) (fmul B64 y y)) (fmul B64 z z)) (fadd B64 (fadd B64 (fmul B64 x' x') (fmul B64 y' y')) (fmul B64 z' z'))).
    { intros x x' y y' z z' X Y Z. apply (sc_add e 2 180 191); try lia; [apply (sc_add e 2 180 190); try lia; apply M2; assumption|]. apply (sc_weak e 2 180 190); [lia|lia|apply M2; assumption]. }
    assert (M5 : forall x x' y y', sc e 2 180 192 x x' -> sc e 3 270 288 y y' -> sc e 5 450 480 (fmul B64 x y) (fmul B64 x' y')) by (intros; apply (sc_mul e 2 3 5 180 192 270 288); try lia; assumption).
    assert (S5 : forall x x' y y', sc e 5 450 480 x x' -> sc e 5 450 480 y y' -> sc e 5 450 481 (fsub B64 x y) (fsub B64 x' y')) by (intros; apply (sc_sub e 5 450 480); try lia; assumption).
    pose proof (Sb _ _ _ _ Ax Ex) as ax. pose proof (Sb _ _ _ _ Bx Ex) as bx. pose proof (Sb _ _ _ _ Cx Ex) as cx. pose proof (Sb _ _ _ _ Dx Ex) as dx.
    pose proof (Sb _ _ _ _ Ay Ey) as ay. pose proof (Sb _ _ _ _ By Ey) as by'. pose proof (Sb _ _ _ _ Cy Ey) as cy. pose proof (Sb _ _ _ _ Dy Ey) as dy.
    pose proof (Sb _ _ _ _ Az Ez) as az. pose proof (Sb _ _ _ _ Bz Ez) as bz. pose proof (Sb _ _ _ _ Cz Ez) as cz. pose proof (Sb _ _ _ _ Dz Ez) as dz.
    apply (sc_le e 5 0 0 450 482); [apply sc_zero; lia|]. unfold InSphereFast. cbv zeta. apply (sc_add e 5 450 481); try lia; apply S5; apply M5; try (apply L2; assumption); apply B3; try (apply M3; [assumption|apply D2; apply M2; assumption]); (apply A3 || apply S3); apply M3; try assumption; apply D2; apply M2; assumption.
  - induction Hv; cbn [map]; constructor; [apply scale_PT; assumption|assumption].
Qed.
Print Assumptions C172_mesh64.

(** ** a sort that treats moved points alike, the five points of C171 and five points in space *)
Lemma ins_map {T} (less : T -> T -> bool) (f : T -> T) x l : (forall a b, In a (x :: l) -> In b (x :: l) -> less (f a) (f b) = less a b) -> P_flipterm.ins less (f x) (map f l) = map f (P_flipterm.ins less x l).
Proof.
  induction l as [|y l IH]; intros H; cbn [map P_flipterm.ins]; [reflexivity|]. rewrite (H y x) by (cbn; auto). destruct (less y x); [|reflexivity]. cbn [map]. f_equal. apply IH.
  intros a b Ha Hb. apply H; cbn in *; tauto.
Qed.
Lemma isort_map {T} (less : T -> T -> bool) (f : T -> T) l : (forall a b, In a l -> In b l -> less (f a) (f b) = less a b) -> P_flipterm.isort less (map f l) = map f (P_flipterm.isort less l).
Proof.
  unfold P_flipterm.isort. induction l as [|x l IH]; intros H; [reflexivity|]. cbn [map fold_right]. rewrite IH by (intros a b Ha Hb; apply H; right; assumption). apply ins_map.
  assert (I : forall z, In z (x :: fold_right (P_flipterm.ins less) [] l) -> In z (x :: l)).
  { intros z [->|Hz]; [left; reflexivity|right]. eapply Permutation.Permutation_in; [apply Permutation.Permutation_sym, (P_flipterm.isort_perm less l)|exact Hz]. }
  intros a b Ha Hb. apply H; apply I; assumption.
Qed.
Definition sorted_xy {A : Arith} (l : list (vec A)) : list (vec A) := P_flipterm.isort lessXY l.
Lemma sorted_incl {A : Arith} (l : list (vec A)) : incl (sorted_xy l) l.
Proof. intros v Hv. eapply Permutation.Permutation_in; [apply Permutation.Permutation_sym, P_flipterm.isort_perm|exact Hv]. Qed.
(** insertion sort by X and Y meets the hypotheses of the two hull theorems on every input *)
Theorem C172_sort_exact k tx ty pts : 0 < k -> sorted_xy (map (movev k tx ty) (map fv pts)) = map (movev k tx ty) (sorted_xy (map fv pts)) /\ incl (sorted_xy (map fv pts)) (map fv pts).
Proof.
  intros Hk. split; [|apply sorted_incl]. apply isort_map. intros a b Ha Hb. apply in_map_iff in Ha, Hb. destruct Ha as (p & <- & _), Hb as (q & <- & _).
  unfold lessXY. rewrite !movev_fv. cbn [vx vy fv similar rx ry feq flt XR xeqb xltb]. rewrite Reqb_shift, !Rltb_shift by exact Hk. reflexivity.
Qed.
Print Assumptions C172_sort_exact.
Theorem C172_sort64 e vs : Forall (scalable_vec e) vs -> sorted_xy (map (scale64 e) vs) = map (scale64 e) (sorted_xy vs) /\ incl (sorted_xy vs) vs.
Proof.
  intros Hv. rewrite Forall_forall in Hv. split; [|apply sorted_incl]. apply isort_map. intros a b Ha Hb. apply Hv, scale_PT in Ha. apply Hv, scale_PT in Hb. destruct Ha as (Ax & Ay & _), Hb as (Bx & By & _).
  unfold lessXY. rewrite <- (sc_eq e 1 90 90 90 90 _ _ _ _ Ax Bx), <- (sc_lt e 1 90 90 90 90 _ _ _ _ Ax Bx), <- (sc_lt e 1 90 90 90 90 _ _ _ _ Ay By). reflexivity.
Qed.
Print Assumptions C172_sort64.
Definition ex172 : list zpt := [(0, 0, 0); (4, 0, 0); (0, 4, 0); (0, 0, 4); (1, 1, 1)]%Z.
Definition identity {T} (m : gomap T) : gomap T := m.
Definition count_faces (r : res (list Z)) : option nat := match r with Ok l => Some (length l) | _ => None end.
Example C172_nonvacuous : Forall (scalable_vec (- 20)) (map zv ex172) /\
  count_faces (bowyerWatson (fun _ => identity) (fun _ => identity) identity (map (scale64 (- 20)) (map zv ex172))) = Some 72%nat /\
  match ConvexHull sorted_xy (map (scale64 (- 20)) (map zv ex171)) with Ok h => length h = 4%nat | _ => False end.
Proof.
  split; [|split]; [|vm_compute; reflexivity|vm_compute; reflexivity].
  unfold ex172. cbn [map]. repeat apply Forall_cons; try apply Forall_nil; (split; [|split]); apply scalable_small; cbn; lia.
Qed.
