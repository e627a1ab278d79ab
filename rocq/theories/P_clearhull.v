(** ConvexHull in binary64 on inputs clear of rounding errors follows the exact run (C158). *)
From Coq Require Import Reals Lra Lia ZArith Bool List Permutation Sorted.
From Flocq Require Import Core BinarySingleNaN.
From Verif Require Import Base Arith M_r3 M_tri2 Spec_r3 Spec_plane Spec_acc64 Spec_clear XRvec P_tri2 P_hull P_insphere_err P_insphere_b64 P_b64laws P_b64hull P_acc64.
Import ListNotations.
Open Scope R_scope.

Lemma rel_z : rel (fofZ B64 0) 0 0 0.
Proof. split; [reflexivity|]. split; [reflexivity|]. split; [exists 0%Z; simpl; ring|]. rewrite Rabs_R0. apply bpow_ge_0. Qed.
(* with b and c at the same place the two rounded products are equal *)
Lemma cross_same (a b c : vec B64) : tame_xy a -> tame_xy b -> tame_xy c -> B2R (vx b : b64) = B2R (vx c : b64) -> B2R (vy b : b64) = B2R (vy c : b64) -> B2R (cross2D a b c) = 0.
Proof.
  intros (Ax & Ay) (Bx & By) (Cx & Cy) Ex Ey.
  pose proof (rel_diff _ _ _ _ (tame_rel _ Bx) (tame_rel _ Ax)) as D1. pose proof (rel_diff _ _ _ _ (tame_rel _ Cy) (tame_rel _ Ay)) as D2.
  pose proof (rel_diff _ _ _ _ (tame_rel _ By) (tame_rel _ Ay)) as D3. pose proof (rel_diff _ _ _ _ (tame_rel _ Cx) (tame_rel _ Ax)) as D4.
  pose proof (rel_mul _ _ _ _ 180 201 180 201 ltac:(lia) ltac:(lia) D1 D2) as M1. pose proof (rel_mul _ _ _ _ 180 201 180 201 ltac:(lia) ltac:(lia) D3 D4) as M2.
  pose proof (rel_sub _ _ _ _ (180 + 180) (201 + 201) ltac:(lia) ltac:(lia) M1 M2) as (_ & E & _). unfold cross2D. rewrite E, Ex, Ey. rewrite (Rmult_comm (rndX (B2R (vx c : b64) - _))), Rminus_eq_0.
  unfold rndX. apply round_0. typeclasses eauto.
Qed.
Lemma clear_sign (a b c : vec B64) : tame_xy a -> tame_xy b -> tame_xy c -> clear_orient (rvec a) (rvec b) (rvec c) ->
  let w := ccw (rvec a) (rvec b) (rvec c) in (0 < B2R (cross2D a b c) <-> 0 < w) /\ (B2R (cross2D a b c) < 0 <-> w < 0).
Proof.
  intros Ha Hb Hc H w. pose proof (cross_acc a b c Ha Hb Hc) as Q. destruct H as [H|[H|(H1 & H2)]].
  - exact (acc_sign _ _ _ _ _ _ Q H).
  - rewrite H in Q. destruct (acc_bound _ _ _ _ _ _ Q) as (_ & B). fold w in B. rewrite Rmult_0_r in B. pose proof (Rabs_pos (B2R (cross2D a b c) - w)) as P.
    assert (E : B2R (cross2D a b c) - w = 0) by (apply Rabs_le_inv in B; lra). split; split; lra.
  - cbn [rx ry rvec] in H1, H2. rewrite (cross_same a b c Ha Hb Hc H1 H2). unfold w, ccw. cbn [rx ry rvec]. rewrite H1, H2. match goal with |- (_ <-> 0 < ?t) /\ _ => replace t with 0 by ring end. split; split; auto.
Qed.
Section Clear.
Variable vs : list (vec B64).
Hypothesis Hv : forall v, In v vs -> tame_vec v.
Hypothesis Hc : clear_points (map rvec vs).
Notation P := (fun v => In v vs).
Lemma clear_cross a b c : P a -> P b -> P c ->
  testU a b c = Rltb (-1 * ccw (rvec a) (rvec b) (rvec c)) 0 /\ testL a b c = Rltb (1 * ccw (rvec a) (rvec b) (rvec c)) 0.
Proof.
  intros Ia Ib Ic. destruct Hc as (Ho & _). pose proof (Ho _ _ _ (in_map rvec _ _ Ia) (in_map rvec _ _ Ib) (in_map rvec _ _ Ic)) as O.
  pose proof (tame_vec_xy _ (Hv _ Ia)) as Ta. pose proof (tame_vec_xy _ (Hv _ Ib)) as Tb. pose proof (tame_vec_xy _ (Hv _ Ic)) as Tc.
  destruct (clear_sign a b c Ta Tb Tc O) as (S1 & S2). pose proof (proj1 (cross_acc a b c Ta Tb Tc)) as R1. unfold testU, testL.
  rewrite (rel_lt _ _ _ _ _ _ _ _ rel_z R1), (rel_lt _ _ _ _ _ _ _ _ R1 rel_z). split; apply eq_true_iff_eq; rewrite !Rltb_true; [rewrite S1|rewrite S2]; split; lra.
Qed.
Lemma clear_near a b : P a -> P b -> flt B64 (SquaredDistance a b) eps = Rltb (rdist2 (rvec a) (rvec b)) epsR.
Proof.
  intros Ia Ib. destruct Hc as (_ & Hd). pose proof (Hd _ _ (in_map rvec _ _ Ia) (in_map rvec _ _ Ib)) as D. unfold clear_dist in D.
  pose proof (sqdist_acc a b (Hv _ Ia) (Hv _ Ib)) as Q. destruct (acc_bound _ _ _ _ _ _ Q) as (F & B). destruct eps_b64 as (Fe & Ee).
  rewrite (fin_lt _ _ F Fe), Ee. apply Rabs_le_inv in B. apply eq_true_iff_eq. rewrite !Rltb_true. unfold Rabs in D. destruct (Rcase_abs _) in D; split; lra.
Qed.
Lemma clear_less a b : P a -> P b -> lessXY a b = lessXY (fv (rvec a)) (fv (rvec b)).
Proof.
  intros Ia Ib. destruct (Hv _ Ia) as ((A1 & _) & (A2 & _) & _), (Hv _ Ib) as ((B1 & _) & (B2 & _) & _).
  unfold lessXY. rewrite fin_eq, !fin_lt by auto. reflexivity.
Qed.
Lemma hull_clear srt : sorts lessXY vs (srt vs) -> exists h srtX,
  ConvexHull srt vs = Ok h /\ incl h vs /\ sorts lessXY (map fv (map rvec vs)) (srtX (map fv (map rvec vs))) /\
  ConvexHull srtX (map fv (map rvec vs)) = Ok (map fv (map rvec h)).
Proof.
  intros Hs. destruct (hull_sim P clear_cross clear_near clear_less srt vs (fun v H => H) Hs) as (h & ss & E & I & Eh & So).
  exists h, (fun _ => map fv ss). split; [auto|]. split; [auto|]. split; [auto|]. rewrite Eh. apply ConvexHull_fv. reflexivity.
Qed.
End Clear.
