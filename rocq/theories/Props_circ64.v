(** C160: circumcenter and circumradius in binary64, with an error bound governed by the flatness of the triangle. *)
From Coq Require Import Reals Lra Lia ZArith Bool.
From Flocq Require Import Core BinarySingleNaN.
From Verif Require Import Base Arith M_r3 M_tri2 Spec_r3 Spec_plane Spec_acc64 Spec_circ64 XRvec P_tri2 P_insphere_err P_insphere_b64 P_b64norm P_acc64 P_circ64 Props_acc64.
Open Scope R_scope.

(* the circle is determined by the triangle, whatever the model computes *)
Lemma the_circle a b c o r2 : tame_xy a -> tame_xy b -> tame_xy c -> mild (rvec a) (rvec b) (rvec c) -> circle3 o r2 (rvec a) (rvec b) (rvec c) ->
  rx o = rx (exact_center a b c) /\ ry o = ry (exact_center a b c) /\ r2 = exact_r2 a b c.
Proof.
  intros Ta Tb Tc M H. pose proof (exact_circle a b c M) as Q. destruct (circle3_unique _ _ _ _ _ (proj1 M) H) as (X & Y & Z), (circle3_unique _ _ _ _ _ (proj1 M) Q) as (X' & Y' & Z').
  rewrite X, Y, Z, X', Y', Z'. auto.
Qed.
Theorem C160_circumcenter (a b c : vec B64) (o : rv) (r2 : R) : tame_xy a -> tame_xy b -> tame_xy c ->
  let A := rvec a in let B := rvec b in let C := rvec c in
  mild A B C -> circle3 o r2 A B C ->
  let m := circumcenter a b c in
  is_finite (vx m : b64) = true /\ is_finite (vy m : b64) = true /\ is_finite (vz m : b64) = true /\ rz (rvec m) = 0 /\
  Rabs (rx (rvec m) - rx o) + Rabs (ry (rvec m) - ry o) <= center_err A B C.
Proof.
  intros Ta Tb Tc A B C M H m. destruct (the_circle _ _ _ _ _ Ta Tb Tc M H) as (X & Y & _). destruct (ctr_err a b c Ta Tb Tc M) as (F1 & F2 & E & _).
  unfold m. rewrite circ_eq. fold (ctr_ a b c). rewrite X, Y. split; [exact F1|]. split; [exact F2|]. split; [reflexivity|]. split; [reflexivity|exact E].
Qed.
Print Assumptions C160_circumcenter.
Theorem C160_circumradius (a b c : vec B64) (o : rv) (r2 : R) : tame_xy a -> tame_xy b -> tame_xy c ->
  let A := rvec a in let B := rvec b in let C := rvec c in
  mild A B C -> circle3 o r2 A B C -> radius_err A B C < r2 ->
  let r := circumradius a b c in is_finite (r : b64) = true /\ Rabs (B2R (r : b64) - r2) <= radius_err A B C.
Proof.
  intros Ta Tb Tc A B C M H L r. destruct (the_circle _ _ _ _ _ Ta Tb Tc M H) as (_ & _ & Z). rewrite Z in *. apply (rad_acc a b c Ta Tb Tc M L).
Qed.
Print Assumptions C160_circumradius.
(* triangles the floats see as degenerate get an infinite radius *)
Theorem C160_degenerate (a b c : vec B64) : tame_xy a -> tame_xy b -> tame_xy c ->
  let A := rvec a in let B := rvec b in let C := rvec c in let same p q := rx p = rx q /\ ry p = ry q in
  cross_terms A B C = 0 \/ same B C \/ same A B \/ same A C -> circumradius a b c = infinity.
Proof. intros Ta Tb Tc A B C same. apply (rad_inf a b c Ta Tb Tc). Qed.
Print Assumptions C160_degenerate.
(* the squared radius is the product of the three squared sides over four times the squared determinant *)
Theorem C160_sides (a b c o : rv) (r2 : R) : ccw a b c <> 0 -> circle3 o r2 a b c -> r2 = radius2 a b c.
Proof.
  intros N H. destruct (circle3_unique _ _ _ _ _ N H) as (_ & _ & ->). unfold radius2, dist2xy, rcircumcenter. cbn [rx ry]. unfold ccw in *. field. exact N.
Qed.
Print Assumptions C160_sides.
(* the condition number is never below 1 *)
Theorem C160_cond (a b c : rv) : ccw a b c <> 0 -> 1 <= cond a b c.
Proof.
  intros N. unfold cond. apply Rabs_pos_lt in N as P. apply (Rmult_le_reg_r (Rabs (ccw a b c))); auto. unfold Rdiv. rewrite Rmult_assoc, Rinv_l, Rmult_1_l, Rmult_1_r by lra.
  unfold ccw, cross_terms. eapply Rle_trans; [apply Rabs_triang|]. rewrite Rabs_Ropp, !Rabs_mult. lra.
Qed.
Print Assumptions C160_cond.

(* a mild triangle; its squared radius is 5 and the bound is far below it *)
Example C160_nonvacuous : let a := iv 0 0 0 in let b := iv 4 0 0 in let c := iv 1 3 0 in
  tame_xy a /\ tame_xy b /\ tame_xy c /\ mild (rvec a) (rvec b) (rvec c) /\ circle3 (RV 2 1 0) 5 (rvec a) (rvec b) (rvec c) /\
  radius_err (rvec a) (rvec b) (rvec c) < 5 / 2 ^ 40 /\ center_err (rvec a) (rvec b) (rvec c) < / 2 ^ 40 /\
  sf (circumradius a b c) = sf (fofZ B64 5).
Proof.
  cbv zeta. split; [|split; [|split]].
  1-3: split; apply tame_chk_ok; vm_compute; reflexivity.
  assert (E1 : rvec (iv 0 0 0) = RV 0 0 0) by (apply iv_R; vm_compute; discriminate).
  assert (E2 : rvec (iv 4 0 0) = RV 4 0 0) by (apply iv_R; vm_compute; discriminate).
  assert (E3 : rvec (iv 1 3 0) = RV 1 3 0) by (apply iv_R; vm_compute; discriminate).
  rewrite E1, E2, E3.
  assert (C1 : ccw (RV 0 0 0) (RV 4 0 0) (RV 1 3 0) = 12) by (unfold ccw; cbn [rx ry]; lra).
  assert (A4 : Rabs (4 - 0) = 4) by (rewrite Rabs_pos_eq; lra). assert (A3 : Rabs (3 - 0) = 3) by (rewrite Rabs_pos_eq; lra). assert (A1 : Rabs (1 - 0) = 1) by (rewrite Rabs_pos_eq; lra). assert (A0 : Rabs (0 - 0) = 0) by (rewrite Rminus_eq_0; apply Rabs_R0).
  assert (C2 : cond (RV 0 0 0) (RV 4 0 0) (RV 1 3 0) = 1) by (unfold cond; rewrite C1, (Rabs_pos_eq 12) by lra; unfold cross_terms; cbn [rx ry]; rewrite A4, A3, A1, A0; lra).
  assert (C3 : circ_terms (RV 0 0 0) (RV 4 0 0) (RV 1 3 0) = 13 / 3) by (unfold circ_terms, circ_x, circ_y; rewrite C1, (Rabs_pos_eq 12) by lra; unfold dist2xy; cbn [rx ry]; rewrite A4, A3, A1, A0; lra).
  split; [split; [rewrite C1; lra|split; [rewrite C2; lra|rewrite C3]]|].
  { apply Rle_trans with (2 ^ 3); [lra|]. apply Rle_pow; [lra|lia]. }
  split; [split; [|split]; unfold dist2xy; cbn [rx ry]; lra|].
  split; [unfold radius_err; rewrite C2, C3; lra|]. split; [unfold center_err; rewrite C2, C3; cbn [rx ry]; rewrite Rabs_R0; lra|]. vm_compute. reflexivity.
Qed.
(* flat triangles are excluded for a reason: here the exact determinant is 1, the float one 0, and the radius comes out infinite *)
Example C160_flat : let n := (2 ^ 27)%Z in let a := iv 0 0 0 in let b := iv (n + 1) n 0 in let c := iv (2 * n + 3) (2 * n + 1) 0 in
  tame_xy a /\ tame_xy b /\ tame_xy c /\ ccw (rvec a) (rvec b) (rvec c) = 1 /\ sf (circumradius a b c) = sf (infinity : B64).
Proof.
  cbv zeta. split; [|split; [|split; [|split]]].
  1-3: split; apply tame_chk_ok; vm_compute; reflexivity.
  - rewrite !iv_R by (vm_compute; discriminate). unfold ccw. cbn [rx ry]. rewrite <- !minus_IZR, <- !mult_IZR, <- minus_IZR. f_equal.
  - vm_compute. reflexivity.
Qed.
