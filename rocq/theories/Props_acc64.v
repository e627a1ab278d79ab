(** Property theorem C157: accuracy and sign of the float64 determinants of the packages r3, predicates, triangulate2 and
    triangulate3. *)
From Coq Require Import Reals Lra Lia ZArith Bool List.
From Flocq Require Import Core BinarySingleNaN.
From Verif Require Import Base Arith M_r3 M_predicates M_tri2 M_tri3 Spec_r3 Spec_plane Spec_sphere Spec_acc64 XRvec P_tri2 P_predicates P_insphere_err P_insphere_b64 P_b64hash P_acc64.
Import ListNotations.
Open Scope R_scope.

(** ** C157: the bounds, relative to the sum of the absolute values of the terms; k roundings cost at most (k+1)/2^53 *)
Definition accurate (x : b64) (exact terms : R) (k : nat) : Prop :=
  is_finite x = true /\ Rabs (B2R x - exact) <= gamma k * terms /\
  (gamma k * terms < Rabs exact -> (0 < B2R x <-> 0 < exact) /\ (B2R x < 0 <-> exact < 0)).
Lemma acc_accurate x e p k m M : acc x e p k m M -> accurate x e p k.
Proof. intros H. destruct (acc_bound _ _ _ _ _ _ H) as (F & B). split; [exact F|]. split; [exact B|]. exact (acc_sign _ _ _ _ _ _ H). Qed.
Theorem C157_gamma k : (Z.of_nat k <= 2 ^ 26)%Z -> gamma k <= (INR k + 1) / 2 ^ 53.
Proof. exact (gamma_lin k). Qed.
Print Assumptions C157_gamma.
Theorem C157_orient2d (a b c : vec B64) : tame_xy a -> tame_xy b -> tame_xy c ->
  accurate (area a b c) (- ccw (rvec a) (rvec b) (rvec c)) (area_terms (rvec a) (rvec b) (rvec c)) 4 /\
  accurate (cross2D a b c) (ccw (rvec a) (rvec b) (rvec c)) (cross_terms (rvec a) (rvec b) (rvec c)) 4.
Proof. intros Ha Hb Hc. split; eapply acc_accurate; [apply area_acc|apply cross_acc]; auto. Qed.
Print Assumptions C157_orient2d.
Lemma inCircle_sign (a b c p : vec B64) : tame_xy a -> tame_xy b -> tame_xy c -> tame_xy p ->
  let det := incircle_det (rvec a) (rvec b) (rvec c) (rvec p) in
  gamma 11 * incircle_terms (rvec a) (rvec b) (rvec c) (rvec p) < Rabs det ->
  inCircle a b c p = inCircle (fv (rvec a)) (fv (rvec b)) (fv (rvec c)) (fv (rvec p)).
Proof.
  intros Ha Hb Hc Hp det L. pose proof (incircle_acc a b c p Ha Hb Hc Hp) as Q. destruct (acc_sign _ _ _ _ _ _ Q L) as (_ & S). destruct Q as (Hr & _).
  assert (R0 : rel (fofZ B64 0) 0 0 0).
  { split; [reflexivity|]. split; [reflexivity|]. split; [exists 0%Z; simpl; ring|]. rewrite Rabs_R0. apply bpow_ge_0. }
  rewrite inCircle_val, (rel_lt _ _ _ _ _ _ _ _ Hr R0), inCircle_fv. replace (incirc (rvec a) (rvec b) (rvec c) (rvec p)) with det by (unfold det, incircle_det, incirc, dist2xy; ring).
  apply eq_true_iff_eq. rewrite !Rltb_true. exact S.
Qed.
(* a clearly inside or clearly outside point is classified as in the plane *)
Theorem C157_inCircle (a b c p : vec B64) o r2 : tame_xy a -> tame_xy b -> tame_xy c -> tame_xy p ->
  circle3 o r2 (rvec a) (rvec b) (rvec c) ->
  gamma 11 * incircle_terms (rvec a) (rvec b) (rvec c) (rvec p) < Rabs (incircle_det (rvec a) (rvec b) (rvec c) (rvec p)) ->
  (ccw (rvec a) (rvec b) (rvec c) < 0 -> (inCircle a b c p = true <-> dist2xy (rvec p) o < r2)) /\
  (ccw (rvec a) (rvec b) (rvec c) > 0 -> (inCircle a b c p = true <-> dist2xy (rvec p) o > r2)).
Proof. intros Ha Hb Hc Hp Hc3 L. rewrite (inCircle_sign a b c p Ha Hb Hc Hp L). exact (inCircle_correct _ _ _ _ _ _ Hc3). Qed.
Print Assumptions C157_inCircle.
Theorem C157_orient3d (a b c d : vec B64) : tame_vec a -> tame_vec b -> tame_vec c -> tame_vec d ->
  let A := rvec a in let B := rvec b in let C := rvec c in let D := rvec d in
  accurate (orient3dfast a b c d) (signed_volume A B C D) (perm3 (rsub A D) (rsub B D) (rsub C D)) 8 /\
  accurate (Get3Ddist a b c d) (rdet3 (rsub B A) (rsub C A) (rsub D A)) (perm3 (rsub B A) (rsub C A) (rsub D A)) 8.
Proof. intros Ha Hb Hc Hd. split; eapply acc_accurate; [apply orient3d_acc|apply get3d_acc]; auto. Qed.
Print Assumptions C157_orient3d.
Theorem C157_inSphere (a b c d e : vec B64) : tame_vec a -> tame_vec b -> tame_vec c -> tame_vec d -> tame_vec e ->
  let A := rvec a in let B := rvec b in let C := rvec c in let D := rvec d in let E := rvec e in
  accurate (InSphereFast a b c d e) (insphere_det A B C D E) (permanent5 A B C D E) 16.
Proof. intros Ha Hb Hc Hd He. eapply acc_accurate, insphere_acc; auto. Qed.
Print Assumptions C157_inSphere.
Theorem C157_products (a b c : vec B64) : tame_vec a -> tame_vec b -> tame_vec c ->
  let A := rvec a in let B := rvec b in let C := rvec c in
  accurate (Dot a b) (rdot A B) (dot_terms A B) 3 /\
  (accurate (vx (Cross a b)) (rx (cross3 A B)) (rx (cross3_terms A B)) 2 /\
   accurate (vy (Cross a b)) (ry (cross3 A B)) (ry (cross3_terms A B)) 2 /\
   accurate (vz (Cross a b)) (rz (cross3 A B)) (rz (cross3_terms A B)) 2) /\
  accurate (SquaredDistance a b) (rdist2 A B) (rdist2 A B) 5 /\
  accurate (Get2Ddist a b c) (rnorm2 (cross3 (rsub B A) (rsub C A))) (rnorm2 (cross3_terms (rsub B A) (rsub C A))) 11.
Proof.
  intros Ha Hb Hc. destruct (cross3_acc a b Ha Hb) as (X & Y & Z). split; [eapply acc_accurate, dot_acc; auto|].
  split; [split; [eapply acc_accurate, X|split; [eapply acc_accurate, Y|eapply acc_accurate, Z]]|]. split; [eapply acc_accurate, sqdist_acc; auto|eapply acc_accurate, get2d_acc; auto].
Qed.
Print Assumptions C157_products.

(** a decision procedure for tameness, and the cases *)
Definition tame_chk (x : b64) : bool := match x with
  | B754_zero _ => true | B754_finite _ m e _ => ((-180 <=? e) && (e <=? 140))%Z | _ => false end.
Lemma tame_chk_ok x : tame_chk x = true -> tame x.
Proof.
  destruct x as [s|s| |s m e E]; try discriminate; intros H.
  - split; [reflexivity|]. split; [exists 0%Z; simpl; ring|]. simpl. rewrite Rabs_R0. lra.
  - simpl in H. apply andb_true_iff in H. destruct H as (H1 & H2). apply Z.leb_le in H1, H2. split; [reflexivity|]. split.
    + exists (SpecFloat.cond_Zopp s (Zpos m) * 2 ^ (e + 180))%Z. cbn [B2R]. unfold F2R. cbn [Fnum Fexp]. rewrite mult_IZR. change 2%Z with (radix_val radix2). rewrite (IZR_Zpower radix2) by lia. rewrite Rmult_assoc, <- bpow_plus. do 2 f_equal. lia.
    + cbn [B2R]. rewrite <- F2R_Zabs, abs_cond_Zopp. cbn [Z.abs]. unfold F2R. cbn [Fnum Fexp].
      assert (B : (Zpos m < 2 ^ 53)%Z).
      { unfold SpecFloat.bounded in E. apply andb_true_iff in E. destruct E as (E & _). unfold SpecFloat.canonical_mantissa in E. apply Zeq_bool_eq in E. rewrite Digits.Zpos_digits2_pos in E.
        unfold SpecFloat.fexp in E. assert (D : (Digits.Zdigits radix2 (Z.pos m) <= 53)%Z) by lia. apply Digits.Zpower_gt_Zdigits in D. cbn [Z.abs] in D. exact D. }
      apply Rle_trans with (bpow radix2 53 * bpow radix2 140); [|rewrite <- bpow_plus; apply bpow_le; lia].
      apply Rmult_le_compat; [apply IZR_le; lia|apply bpow_ge_0| |apply bpow_le; lia]. rewrite <- (IZR_Zpower radix2 53) by lia. apply IZR_le. simpl radix_val. lia.
Qed.
Definition iv (x y z : Z) : vec B64 := mkvec (fofZ B64 x) (fofZ B64 y) (fofZ B64 z).
Lemma iv_R x y z : (Z.abs x <= 2 ^ 53)%Z -> (Z.abs y <= 2 ^ 53)%Z -> (Z.abs z <= 2 ^ 53)%Z -> rvec (iv x y z) = RV (IZR x) (IZR y) (IZR z).
Proof. intros Hx Hy Hz. destruct (fr_ofZ x Hx) as (_ & X), (fr_ofZ y Hy) as (_ & Y), (fr_ofZ z Hz) as (_ & Z). unfold rvec, iv. cbn [vx vy vz]. rewrite X, Y, Z. reflexivity. Qed.
(* the bound is not vacuous: two products of about 2^54 cancel, the exact value is 1 and the float value is 0 *)
Example C157_cancellation : let n := (2 ^ 27)%Z in let a := iv 0 0 0 in let b := iv (n + 1) n 0 in let c := iv (2 * n + 3) (2 * n + 1) 0 in
  tame_vec a /\ tame_vec b /\ tame_vec c /\ sf (area a b c) = sf (fofZ B64 0) /\ ccw (rvec a) (rvec b) (rvec c) = 1.
Proof.
  cbv zeta. split; [|split; [|split; [|split]]].
  1-3: split; [|split]; apply tame_chk_ok; vm_compute; reflexivity.
  - vm_compute. reflexivity.
  - rewrite !iv_R by (vm_compute; discriminate). unfold ccw. cbn [rx ry]. rewrite <- !minus_IZR, <- !mult_IZR, <- minus_IZR. f_equal.
Qed.
(* and it is reached: the point (2,1) is clearly inside the circle of three points *)
Example C157_nonvacuous : let a := iv 0 0 0 in let b := iv 1 4 0 in let c := iv 4 0 0 in let p := iv 2 1 0 in
  tame_xy a /\ tame_xy b /\ tame_xy c /\ tame_xy p /\ ccw (rvec a) (rvec b) (rvec c) < 0 /\ inCircle a b c p = true /\
  gamma 11 * incircle_terms (rvec a) (rvec b) (rvec c) (rvec p) < Rabs (incircle_det (rvec a) (rvec b) (rvec c) (rvec p)).
Proof.
  cbv zeta. split; [|split; [|split; [|split; [|split; [|split]]]]].
  1-4: split; apply tame_chk_ok; vm_compute; reflexivity.
  - rewrite !iv_R by (vm_compute; discriminate). unfold ccw. cbn [rx ry]. lra.
  - vm_compute. reflexivity.
  - rewrite !iv_R by (vm_compute; discriminate). unfold incircle_terms, incircle_det, dist2xy. cbn [rx ry]. rewrite <- !minus_IZR, <- !abs_IZR.
    repeat match goal with |- context [Z.abs (?p - ?q)] => let v := eval vm_compute in (Z.abs (p - q)) in change (Z.abs (p - q)) with v end.
    repeat match goal with |- context [(?p - ?q)%Z] => let v := eval vm_compute in (p - q)%Z in change (p - q)%Z with v end. pose proof (gamma_lin 11 ltac:(discriminate)) as G. replace (INR 11) with 11 in G by (simpl; lra).
    assert (G' : gamma 11 <= / 1000) by (eapply Rle_trans; [exact G|]; lra). clear G.
    match goal with |- gamma 11 * ?t < Rabs ?d => apply Rle_lt_trans with (/ 1000 * t); [apply Rmult_le_compat_r; lra|]; replace d with (-(100)) by ring end. rewrite Rabs_Ropp, Rabs_pos_eq; lra.
Qed.
