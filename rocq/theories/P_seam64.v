(** In binary64 the last column of a sphere or torus mesh is not the first column. *)
From Coq Require Import Reals Lra Lia ZArith QArith Bool List.
From Flocq Require Import Core Relative Plus_error BinarySingleNaN.
From Verif Require Import Base Arith M_r3 Spec_r3 M_shape Spec_shape Spec_shape64 P_shape P_insphere_err P_insphere_b64 P_b64sc P_b64err P_b64hash P_b64rel P_b64norm P_b64clamp P_plane64 P_shape64 P_pi64.
Import ListNotations.
Open Scope R_scope.
Local Instance p53m : Prec_gt_0 53 := eq_refl.
Local Instance vxm : Valid_exp (SpecFloat.fexp 53 1024) := fexp_correct 53 1024 b64_prec.

Lemma sin_half d : 0 <= d <= 1 -> d / 2 <= sin d.
Proof.
  intros H. pose proof PI2_1. pose proof PI_RGT_0. destruct (SIN d ltac:(lra) ltac:(lra)) as [L _].
  unfold sin_lb, sin_approx, sin_term in L. cbn [sum_f_R0 Nat.mul Nat.add fact pow] in L.
  assert (P2 : 0 <= d * d <= 1) by (split; [apply Rmult_le_pos|rewrite <- (Rmult_1_r 1); apply Rmult_le_compat]; lra).
  set (q := d * d) in *.
  assert (P4 : 0 <= q * q <= q) by (split; [apply Rmult_le_pos|rewrite <- (Rmult_1_r q) at 3; apply Rmult_le_compat_l]; lra).
  assert (P6 : q * q * q <= 1) by (rewrite <- (Rmult_1_r 1); apply Rmult_le_compat; lra).
  assert (E : d * (1 - q / 6 + q * q / 120 - q * q * q / 5040) <= sin d).
  { eapply Rle_trans; [|exact L]. right. unfold q. simpl. field. }
  eapply Rle_trans; [|exact E]. unfold Rdiv. apply Rmult_le_compat_l; lra.
Qed.
Lemma sin_half_abs d : Rabs d <= 1 -> Rabs d / 2 <= Rabs (sin d).
Proof.
  intros H. destruct (Rle_lt_dec 0 d) as [P|P].
  - rewrite (Rabs_pos_eq d) in * by auto. pose proof (sin_half d ltac:(lra)). eapply Rle_trans; [eassumption|apply Rle_abs].
  - rewrite (Rabs_left d) in * by auto. pose proof (sin_half (- d) ltac:(lra)) as S. rewrite sin_neg in S.
    eapply Rle_trans; [exact S|]. rewrite <- Rabs_Ropp. apply Rle_abs.
Qed.
(* sin (i pi / n) >= 1 / n for 0 < i < n *)
Lemma sin_frac (i n : Z) : (0 < i < n)%Z -> / IZR n <= sin (IZR i * (PI / IZR n)).
Proof.
  intros H. pose proof PI2_1. pose proof PI_RGT_0. pose proof (pi_bd) as [_ P4].
  assert (Hn : 2 <= IZR n) by (apply (IZR_le 2); lia). assert (Hi : 1 <= IZR i <= IZR n - 1) by (rewrite <- minus_IZR; split; apply IZR_le; lia).
  assert (In : 0 < / IZR n <= / 2) by (split; [apply Rinv_0_lt_compat; lra|apply Rinv_le_contravar; lra]).
  set (d := PI / IZR n). assert (Dn : d * IZR n = PI) by (unfold d; field; lra).
  assert (D : 0 < d <= PI / 2).
  { unfold d, Rdiv. split; [apply Rmult_lt_0_compat; lra|]. apply Rmult_le_compat_l; lra. }
  assert (S : / IZR n <= sin d).
  { assert (D2 : 2 * / IZR n <= d) by (unfold d, Rdiv; apply Rmult_le_compat_r; lra).
    destruct (Rle_lt_dec d 1) as [L|L]; [pose proof (sin_half d ltac:(lra)); lra|].
    pose proof (sin_half 1 ltac:(lra)). assert (sin 1 <= sin d) by (apply sin_incr_1; lra). lra. }
  assert (T : d <= IZR i * d <= PI - d).
  { assert (1 * d <= IZR i * d) by (apply Rmult_le_compat_r; lra). assert (IZR i * d <= (IZR n - 1) * d) by (apply Rmult_le_compat_r; lra). lra. }
  destruct (Rle_lt_dec (IZR i * d) (PI / 2)) as [L|L].
  - assert (sin d <= sin (IZR i * d)) by (apply sin_incr_1; lra). lra.
  - rewrite <- (sin_PI_x (IZR i * d)). assert (sin d <= sin (PI - IZR i * d)) by (apply sin_incr_1; lra). lra.
Qed.

Lemma rnd_ge_bp x k : (-1074 <= k)%Z -> bp k <= Rabs x -> bp k <= Rabs (rndF x).
Proof. intros K H. apply abs_round_ge_generic; auto; try typeclasses eauto. apply fmt_bp; auto. Qed.

Section Seam.
Variables (G : Trig B64) (eps : R).
Hypothesis HT : trig_acc G eps.
Hypothesis He : 0 <= eps <= bp (-40).
Hypothesis HS : sin_rel G.
Lemma eps_small : eps + 50 * u <= bp (-39). 
Proof. change (bp (-40)) with (/ 1099511627776) in He. change (bp (-39)) with (/ 549755813888). rewrite u_val. lra. Qed.
Lemma eps_ok : 0 <= eps <= / 1000.
Proof. change (bp (-40)) with (/ 1099511627776) in He. lra. Qed.

Lemma col_first (xy z : B64) x (sc : Z) : (1 <= sc <= 2 ^ 32)%Z -> fval xy x ->
  fval (vy (gridVertex G xy z (fdiv B64 (tPi2 G) (fofZ B64 sc)) 0)) 0.
Proof.
  intros Hsc Fx. unfold gridVertex. cbn [vy].
  destruct (sector_acc G eps HT 0 sc Hsc ltac:(lia)) as [F0 V0].
  set (th := fmul B64 (fofZ B64 0) (fdiv B64 (tPi2 G) (fofZ B64 sc))) in *.
  assert (Th : fval th 0).
  { assert (Fs : exists s, fval (fdiv B64 (tPi2 G) (fofZ B64 sc)) s).
    { pose proof HT as (_ & H2 & _). pose proof bp1000. pose proof bp1023. pose proof pi_bd. pose proof u_pos. rewrite u8 in H2.
      assert (N : 1 <= IZR sc) by (apply (IZR_le 1); lia).
      destruct (w_div _ (fofZ B64 sc) _ (IZR sc) 8 (8 * u) H2 (fv_ofZ sc ltac:(lia)) ltac:(lra) ltac:(rewrite Rabs_pos_eq; lra)) as [F _].
      - apply Rle_trans with (8 + 8 * u); [|lra]. unfold Rdiv. rewrite <- (Rmult_1_r (8 + 8 * u)) at 2. apply Rmult_le_compat_l; [lra|].
        rewrite <- Rinv_1. apply Rinv_le_contravar; lra.
      - exists (B2R (fdiv B64 (tPi2 G) (fofZ B64 sc) : b64)). split; auto. }
    destruct Fs as (s & Fs). apply (fv_0mul _ _ s); auto. apply (fv_ofZ 0). reflexivity. }
  destruct Th as [Tf Tv]. destruct (proj1 HS th Tf Tv) as [Sf Sv].
  apply (fv_mul0 _ _ x); auto. split; auto. apply Rabs_le_inv in Sv. lra.
Qed.
Lemma col_last (xy z : B64) x (sc : Z) : (1 <= sc <= 2 ^ 32)%Z -> fval xy x -> bp (-900) <= Rabs x <= bp 1001 ->
  exists y, fval (vy (gridVertex G xy z (fdiv B64 (tPi2 G) (fofZ B64 sc)) sc)) y /\ y <> 0.
Proof.
  intros Hsc Fx Hx. unfold gridVertex. cbn [vy]. pose proof u_pos as U.
  pose proof (sector_acc G eps HT sc sc Hsc ltac:(lia)) as [F0 V0].
  set (th := fmul B64 (fofZ B64 sc) (fdiv B64 (tPi2 G) (fofZ B64 sc))) in *.
  replace (IZR sc * (2 * PI / IZR sc)) with (2 * PI) in V0 by (field; apply not_0_IZR; lia).
  pose proof pi_bd. set (t := B2R (th : b64)) in *.
  assert (Ft : fmt t) by (apply generic_format_B2R).
  pose proof (Rabs_le_inv _ _ V0) as V1. pose proof (far_from_2pi t Ft ltac:(lra)) as FAR.
  assert (SE : Rabs (sin t) = Rabs (sin (t - 2 * PI))).
  { f_equal. replace t with ((t - 2 * PI) + 2 * PI) at 1 by ring. rewrite sin_plus, sin_2PI, cos_2PI. ring. }
  pose proof (sin_half_abs (t - 2 * PI) ltac:(lra)) as SH. rewrite <- SE in SH.
  destruct (proj2 HS th F0) as [Sf Sv]. { fold t. lra. }
  fold t in Sv. set (s := B2R (tsin G th : b64)) in *.
  assert (SL : bp (-55) <= Rabs s).
  { change (bp (-55)) with (/ 36028797018963968). change (bp (-53)) with (/ 9007199254740992) in FAR.
    pose proof (Rabs_triang_inv (sin t) s) as TI. rewrite Rabs_minus_sym in TI. lra. }
  assert (SU : Rabs s <= 2).
  { pose proof (abs_sin t). pose proof (abs_near _ _ _ _ Sv (Rle_refl _)). lra. }
  assert (PL : bp (-955) <= Rabs (x * s)).
  { rewrite Rabs_mult. change (-955)%Z with (-900 + -55)%Z. rewrite bpow_plus. apply Rmult_le_compat; try apply bpow_ge_0; lra. }
  assert (PU : Rabs (x * s) <= bp 1023).
  { rewrite Rabs_mult. apply Rle_trans with (bp 1001 * bp 1).
    - apply Rmult_le_compat; try apply Rabs_pos; [lra|]. change (bp 1) with 2. exact SU.
    - rewrite <- bpow_plus. apply bpow_le. lia. }
  exists (rndF (x * s)). split.
  - apply fv_mul; auto; [split; auto|]. apply no_over'. exact PU.
  - intros Z. pose proof (rnd_ge_bp _ (-955) ltac:(lia) PL) as Q. rewrite Z, Rabs_R0 in Q. pose proof (bpow_gt_0 radix2 (-955)). lra.
Qed.
(* the distance of row i of a sphere from the axis *)
Lemma sphere_row (r : B64) rho (i st : Z) : fval r rho -> bp (-800) <= rho <= bp 1000 -> (0 < i < st)%Z -> (st <= 2 ^ 31)%Z ->
  exists x, fval (fmul B64 r (tcos G (fsub B64 (tPiH G) (fmul B64 (fofZ B64 i) (fdiv B64 (tPi G) (fofZ B64 st)))))) x /\ bp (-900) <= Rabs x <= bp 1001.
Proof.
  intros Fr Hr Hi Hst. pose proof HT as (HP & _). rewrite u8 in HP. pose proof pi_bd. pose proof u_pos as U.
  pose proof (stack_acc G eps HT _ _ i st HP ltac:(lra) ltac:(lia) ltac:(lia)) as A.
  destruct (trig_at G eps HT _ _ A (stack_bd PI i st ltac:(lra) ltac:(lia) ltac:(lia))) as [[Cf Cv] _].
  set (c := B2R (tcos G _ : b64)) in *. rewrite cos_shift in Cv.
  pose proof (sin_frac i st Hi) as SF. pose proof eps_small as ES.
  assert (Hn : / IZR st >= bp (-31)).
  { change (bp (-31)) with (/ 2147483648). apply Rle_ge, Rinv_le_contravar; [apply (IZR_lt 0); lia|apply (IZR_le st 2147483648); lia]. }
  pose proof (SIN_bound (IZR i * (PI / IZR st))) as SB. apply Rabs_le_inv in Cv.
  assert (CL : bp (-32) <= c <= 2).
  { change (bp (-32)) with (/ 4294967296). change (bp (-31)) with (/ 2147483648) in Hn. change (bp (-39)) with (/ 549755813888) in ES. lra. }
  assert (PL : bp (-832) <= Rabs (rho * c)).
  { pose proof (bpow_gt_0 radix2 (-800)). pose proof (bpow_gt_0 radix2 (-32)). rewrite Rabs_pos_eq by (apply Rmult_le_pos; lra).
    change (-832)%Z with (-800 + -32)%Z. rewrite bpow_plus. apply Rmult_le_compat; lra. }
  assert (PU : Rabs (rho * c) <= bp 1001).
  { pose proof (bpow_gt_0 radix2 (-800)). pose proof (bpow_gt_0 radix2 (-32)). rewrite Rabs_pos_eq by (apply Rmult_le_pos; lra).
    change 1001%Z with (1000 + 1)%Z. rewrite bpow_plus. apply Rmult_le_compat; try lra. change (bp 1) with 2. lra. }
  exists (rndF (rho * c)). split; [apply fv_mul; [exact Fr|split; auto|apply no_over'; apply Rle_trans with (1 := PU); apply bpow_le; lia]|].
  split; [|apply rnd_bp; [lia|exact PU]]. apply Rle_trans with (bp (-832)); [apply bpow_le; lia|]. apply rnd_ge_bp; [lia|exact PL].
Qed.
Lemma torus_row (R0 r : B64) rho0 rho (i st : Z) : fval R0 rho0 -> fval r rho -> bp (-800) <= rho0 <= bp 999 -> 0 <= 2 * rho <= rho0 -> (0 <= i < st)%Z -> (st <= 2 ^ 31)%Z ->
  exists x, fval (fadd B64 R0 (fmul B64 r (tcos G (fsub B64 (tPiH G) (fmul B64 (fofZ B64 i) (fdiv B64 (tPi2 G) (fofZ B64 st))))))) x /\ bp (-900) <= Rabs x <= bp 1001.
Proof.
  intros FR Fr HR Hr Hi Hst. pose proof HT as (_ & HP & _). rewrite u8 in HP. pose proof pi_bd. pose proof u_pos as U. pose proof eta_u as EU. pose proof bp1000 as B0.
  pose proof (bpow_gt_0 radix2 (-800)) as P8.
  assert (B9 : 2 * bp 999 = bp 1000) by (change 1000%Z with (1 + 999)%Z; rewrite bpow_plus; reflexivity).
  pose proof (stack_acc G eps HT _ _ i st HP ltac:(lra) ltac:(lia) ltac:(lia)) as A.
  destruct (trig_at G eps HT _ _ A (stack_bd (2 * PI) i st ltac:(lra) ltac:(lia) ltac:(lia))) as [C _].
  pose proof eps_ok as EO.
  assert (RP : Rabs rho = rho) by (apply Rabs_pos_eq; lra). assert (RP0 : Rabs rho0 = rho0) by (apply Rabs_pos_eq; lra).
  pose proof (w_scale0 r _ rho _ (eps + 50 * u) Fr C (abs_cos _) ltac:(lra) ltac:(lra)) as X. rewrite RP in X.
  set (an := PI / 2 - _) in *.
  assert (HX : Rabs (rho * cos an) <= rho).
  { rewrite Rabs_mult, RP. rewrite <- (Rmult_1_r rho) at 2. apply Rmult_le_compat_l; [lra|apply abs_cos]. }
  destruct (w_shift _ R0 _ rho0 rho (eps + 50 * u + 2 * u) 1 X FR HX ltac:(lra) ltac:(lra) ltac:(lra) ltac:(lra)) as [_ [Yf Yv]]. rewrite RP0 in Yv.
  apply Rabs_le_inv in HX. apply Rabs_le_inv in Yv.
  set (x := B2R (fadd B64 R0 _ : b64)) in *. exists x. split; [split; auto|].
  assert (ER : (rho + rho0) * (eps + 50 * u + 2 * u + 2 * u) <= (rho + rho0) * / 100) by (apply Rmult_le_compat_l; lra).
  assert (EE : (2 * 1 + 1) * eta <= / 100 * rho0).
  { assert (bp (-1000) <= rho0) by (apply Rle_trans with (bp (-800)); [apply bpow_le; lia|lra]).
    apply Rle_trans with (/ 100 * bp (-1000)); [|apply Rmult_le_compat_l; lra].
    replace (-1074)%Z with (-74 + -1000)%Z by reflexivity. rewrite bpow_plus. pose proof (bpow_gt_0 radix2 (-1000)).
    assert (3 * bp (-74) <= / 100) by (change (bp (-74)) with (/ 18889465931478580854784); lra).
    replace ((2 * 1 + 1) * (bp (-74) * bp (-1000))) with (3 * bp (-74) * bp (-1000)) by ring. apply Rmult_le_compat_r; lra. }
  assert (QL : bp (-800) / 4 <= x <= 2 * rho0) by lra. rewrite Rabs_pos_eq by lra. split.
  - apply Rle_trans with (bp (-802)); [apply bpow_le; lia|]. replace (-802)%Z with (-2 + -800)%Z by reflexivity. rewrite bpow_plus. change (bp (-2)) with (/ 4). lra.
  - apply Rle_trans with (bp 1000); [lra|apply bpow_le; lia].
Qed.
End Seam.
