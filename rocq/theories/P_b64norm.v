(** Norm, Distance, Normalize and IsUnit in binary64. *)
From Coq Require Import Reals Lra Lia ZArith QArith Qreals Bool.
From Flocq Require Import Core Relative Plus_error BinarySingleNaN.
From Verif Require Import Base Arith M_r3 Spec_r3 P_insphere_err P_insphere_b64 P_b64sc P_b64err P_b64hash P_b64rel.
Open Scope R_scope.
Local Instance p53 : Prec_gt_0 53 := eq_refl.
Local Instance vx2 : Valid_exp (SpecFloat.fexp 53 1024) := fexp_correct 53 1024 b64_prec.

(** [na k e t s]: as [nr], with an absolute error e for underflow *)
Definition na (k : nat) (e t s : R) : Prop := (1 - u) ^ k * t - e <= s /\ (1 - u) ^ k * s <= t + e.
Notation eta := (bp (-1074)).
Lemma eta_pos : 0 < eta. Proof. apply bpow_gt_0. Qed.
Lemma pwS k : (1 - u) ^ (k + 1) = (1 - u) * (1 - u) ^ k.
Proof. rewrite Nat.add_1_r. reflexivity. Qed.
Lemma na_add k e f t s t' s' : na k e t s -> na k f t' s' -> na k (e + f) (t + t') (s + s').
Proof. intros [H1 H2] [H3 H4]. unfold na. rewrite !Rmult_plus_distr_l. lra. Qed.
Lemma na_weak k l e f t s : (k <= l)%nat -> e <= f -> 0 <= t -> 0 <= s -> na k e t s -> na l f t s.
Proof.
  intros L E Pt Ps [H1 H2]. replace l with (k + (l - k))%nat by lia. unfold na. rewrite pw_add.
  pose proof (pw k) as Pk. pose proof (pw (l - k)) as Pl.
  assert ((1 - u) ^ k * (1 - u) ^ (l - k) * t <= (1 - u) ^ k * t).
  { apply Rmult_le_compat_r; auto. rewrite <- Rmult_1_r. apply Rmult_le_compat_l; lra. }
  assert ((1 - u) ^ k * (1 - u) ^ (l - k) * s <= (1 - u) ^ k * s).
  { apply Rmult_le_compat_r; auto. rewrite <- Rmult_1_r. apply Rmult_le_compat_l; lra. }
  lra.
Qed.
Lemma na_nr k t s : nr k t s -> na k 0 t s. Proof. intros [H1 H2]; split; lra. Qed.
(* a rounding with relative error u and absolute error d *)
Lemma na_rnd k e d t s r : 0 <= e -> 0 <= d -> 0 <= t -> 0 <= s -> Rabs (r - s) <= u * s + d -> na k e t s -> na (k + 1) (e + d) t r.
Proof.
  intros E D Pt Ps H [H1 H2]. apply Rabs_le_inv in H. pose proof u_pos. pose proof (pw k) as Pk. unfold na. rewrite pwS. split.
  - assert ((1 - u) * ((1 - u) ^ k * t - e) <= (1 - u) * s) by (apply Rmult_le_compat_l; lra). assert (0 <= u * e) by (apply Rmult_le_pos; lra). lra.
  - rewrite (Rmult_comm (1 - u)), Rmult_assoc.
    assert (A : (1 - u) * r <= s + d).
    { apply Rle_trans with ((1 - u) * ((1 + u) * s + d)); [apply Rmult_le_compat_l; lra|].
      assert (0 <= u * u * s) by (repeat apply Rmult_le_pos; lra). assert (0 <= u * d) by (apply Rmult_le_pos; lra). lra. }
    apply Rle_trans with ((1 - u) ^ k * (s + d)); [apply Rmult_le_compat_l; lra|].
    rewrite Rmult_plus_distr_l. assert ((1 - u) ^ k * d <= 1 * d) by (apply Rmult_le_compat_r; lra). lra.
Qed.
(* when the absolute error is negligible *)
Lemma na_to_nr k e t s : (k <= 4000)%nat -> 0 <= s -> e * 4 <= u * t -> na k e t s -> nr (k + 1) t s.
Proof.
  intros K Ps E [H1 H2]. pose proof (pw_half k K) as Pk. pose proof (pw k). pose proof u_pos as U.
  destruct (Rle_lt_dec 0 t) as [Pt|Pt].
  2:{ exfalso. assert (e < 0) by (assert (0 < u * - t) by (apply Rmult_lt_0_compat; lra); lra).
      assert (0 <= (1 - u) ^ k * s) by (apply Rmult_le_pos; lra). lra. }
  assert (0 <= u * t) by (apply Rmult_le_pos; lra).
  assert (A : / 2 * (u * t) <= (1 - u) ^ k * (u * t)) by (apply Rmult_le_compat_r; lra).
  unfold nr. rewrite pwS. split; [lra|].
  rewrite Rmult_assoc. apply Rle_trans with ((1 - u) * (t + e)); [apply Rmult_le_compat_l; lra|].
  assert (u * (u * t) <= / 2 * (u * t)) by (apply Rmult_le_compat_r; lra).
  assert (e <= / 4 * (u * t)) by lra. destruct (Rle_lt_dec 0 e); [assert (0 <= u * e) by (apply Rmult_le_pos; lra); lra|].
  assert ((1 - u) * (t + e) <= (1 - u) * t) by (apply Rmult_le_compat_l; lra). lra.
Qed.
Lemma rnd_any t : Rabs (rndF t - t) <= u * Rabs t + eta.
Proof.
  destruct (Rle_lt_dec (bp (-1022)) (Rabs t)) as [H|H].
  - pose proof (rnd_big t H). pose proof eta_pos. lra.
  - assert (Rabs (rndF t - t) <= / 2 * ulp radix2 (SpecFloat.fexp 53 1024) t) as E by (apply error_le_half_ulp; typeclasses eauto).
    assert (ulp radix2 (SpecFloat.fexp 53 1024) t = eta) as UL.
    { change (SpecFloat.fexp 53 1024) with (FLT_exp (-1074) 53). apply ulp_FLT_small; [typeclasses eauto|].
      apply Rlt_le_trans with (1 := H); apply bpow_le; lia. }
    rewrite UL in E. pose proof eta_pos. assert (0 <= u * Rabs t) by (apply Rmult_le_pos; [pose proof u_pos; lra|apply Rabs_pos]). lra.
Qed.

(** ** sums of squares *)
Lemma fmul_val (x y : b64) : is_finite x = true -> is_finite y = true -> Rabs (B2R x * B2R y) <= bp 1023 ->
  is_finite (fmul B64 x y : b64) = true /\ B2R (fmul B64 x y : b64) = rndF (B2R x * B2R y).
Proof.
  intros Fx Fy H. pose proof (Bmult_correct 53 1024 b64_prec b64_pe mode_NE x y) as C. rewrite no_over in C by auto.
  destruct C as (C1 & C2 & _). rewrite Fx, Fy in C2. auto.
Qed.
Lemma fadd_val (x y : b64) : is_finite x = true -> is_finite y = true -> Rabs (B2R x + B2R y) <= bp 1023 ->
  is_finite (fadd B64 x y : b64) = true /\ B2R (fadd B64 x y : b64) = rndF (B2R x + B2R y).
Proof.
  intros Fx Fy H. pose proof (Bplus_correct 53 1024 b64_prec b64_pe mode_NE x y Fx Fy) as C. rewrite no_over in C by auto.
  destruct C as (C1 & C2 & _). auto.
Qed.
Lemma fsub_val (x y : b64) : is_finite x = true -> is_finite y = true -> Rabs (B2R x - B2R y) <= bp 1023 ->
  is_finite (fsub B64 x y : b64) = true /\ B2R (fsub B64 x y : b64) = rndF (B2R x - B2R y).
Proof.
  intros Fx Fy H. pose proof (Bminus_correct 53 1024 b64_prec b64_pe mode_NE x y Fx Fy) as C. rewrite no_over in C by auto.
  destruct C as (C1 & C2 & _). auto.
Qed.
Lemma rnd_pos t : 0 <= t -> 0 <= rndF t. Proof. intros H. apply rndF_ge; auto. apply generic_format_0. Qed.
Lemma bpadd a b : bp a * bp b = bp (a + b). Proof. symmetry. apply bpow_plus. Qed.
(* the square of x, where |x| is t up to k errors *)
Definition af (k : nat) (e t : R) (x : b64) : Prop := is_finite x = true /\ 0 <= B2R x /\ na k e t (B2R x).
Lemma na_sq k e t s : 0 <= t -> 0 <= e <= 1 -> 0 <= s -> na k e t s -> na (2 * k) (3 * e * (1 + t)) (t * t) (s * s).
Proof.
  intros Pt E Ps [H1 H2]. pose proof (pw k) as Pk. unfold na. replace (2 * k)%nat with (k + k)%nat by lia. rewrite pw_add. set (w := (1 - u) ^ k) in *.
  assert (A0 : 0 <= e * t) by (apply Rmult_le_pos; lra).
  assert (A1 : w * (e * t) <= 1 * (e * t)) by (apply Rmult_le_compat_r; lra).
  assert (A2 : e * e <= e * 1) by (apply Rmult_le_compat_l; lra).
  assert (A3 : 0 <= e * e) by (apply Rmult_le_pos; lra).
  assert (A4 : 0 <= w * t) by (apply Rmult_le_pos; lra). assert (A5 : 0 <= w * s) by (apply Rmult_le_pos; lra). split.
  - destruct (Rle_lt_dec 0 (w * t - e)) as [G|G].
    + assert (B : (w * t - e) * (w * t - e) <= s * s) by (apply Rmult_le_compat; lra). lra.
    + assert (B : (w * t) * (w * t) <= e * e) by (apply Rmult_le_compat; lra). assert (0 <= s * s) by (apply Rmult_le_pos; lra). lra.
  - assert (B : (w * s) * (w * s) <= (t + e) * (t + e)) by (apply Rmult_le_compat; lra). lra.
Qed.
Lemma sq_nonneg (s : R) : 0 <= s * s. Proof. apply Rle_0_sqr. Qed.
Lemma af_sq k e t (x : b64) : is_finite x = true -> 0 <= t -> 0 <= e <= 1 -> na k e t (Rabs (B2R x)) -> Rabs (B2R x) <= bp 500 ->
  af (2 * k + 1) (3 * e * (1 + t) + eta) (t * t) (fmul B64 x x).
Proof.
  intros F Pt E N B. pose proof (sq_nonneg (B2R x)) as S0. pose proof (Rabs_pos (B2R x)) as AP.
  assert (Q : Rabs (B2R x * B2R x) <= bp 1023).
  { rewrite Rabs_mult. apply Rle_trans with (bp 500 * bp 500); [apply Rmult_le_compat; lra|]. rewrite bpadd. apply bpow_le. lia. }
  destruct (fmul_val x x F F Q) as [F' V]. split; auto. split; [rewrite V; apply rnd_pos; auto|]. rewrite V.
  pose proof eta_pos. assert (G : Rabs (B2R x) * Rabs (B2R x) = B2R x * B2R x) by (rewrite <- Rabs_mult; apply Rabs_pos_eq; auto).
  apply na_rnd with (s := B2R x * B2R x); auto; try lra.
  - apply Rmult_le_pos; lra.
  - apply sq_nonneg.
  - rewrite <- (Rabs_pos_eq (B2R x * B2R x)) at 3 by auto. apply rnd_any.
  - rewrite <- G. apply na_sq; auto.
Qed.
Lemma af_add k e f t s (x y : b64) : af k e t x -> af k f s y -> 0 <= e -> 0 <= f -> 0 <= t -> 0 <= s -> B2R x <= bp 1010 -> B2R y <= bp 1010 ->
  af (k + 1) (e + f) (t + s) (fadd B64 x y) /\ B2R (fadd B64 x y : b64) <= 2 * (B2R x + B2R y).
Proof.
  intros (Fx & Px & Nx) (Fy & Py & Ny) E Ff Pt Ps Bx By.
  assert (Q : Rabs (B2R x + B2R y) <= bp 1023).
  { rewrite Rabs_pos_eq by lra. apply Rle_trans with (bp 1010 + bp 1010); [lra|]. replace (bp 1010 + bp 1010) with (2 * bp 1010) by ring.
    change 2 with (bp 1). rewrite bpadd. apply bpow_le. lia. }
  destruct (fadd_val x y Fx Fy Q) as [F' V].
  pose proof (rnd_sum (B2R x) (B2R y) (fmt_B x) (fmt_B y)) as RS. rewrite (Rabs_pos_eq (B2R x + B2R y)) in RS by lra.
  assert (na (k + 1) (e + f) (t + s) (rndF (B2R x + B2R y))) as NN.
  { replace (e + f) with (e + f + 0) by ring. apply (na_rnd k (e + f) 0 (t + s) (B2R x + B2R y)); try lra. apply na_add; auto. }
  split; [split; [auto|split]|].
  - rewrite V. apply rnd_pos. lra.
  - rewrite V. auto.
  - rewrite V. apply Rabs_le_inv in RS. pose proof u_pos.
    assert (u * (B2R x + B2R y) <= 1 * (B2R x + B2R y)) by (apply Rmult_le_compat_r; lra). lra.
Qed.
Lemma sq_le (x : b64) : is_finite x = true -> Rabs (B2R x) <= bp 500 -> B2R (fmul B64 x x : b64) <= bp 1000.
Proof.
  intros F B. pose proof (Rabs_pos (B2R x)).
  assert (G : B2R x * B2R x <= bp 1000).
  { rewrite <- (Rabs_pos_eq (B2R x * B2R x)), Rabs_mult by apply sq_nonneg. change 1000%Z with (500 + 500)%Z. rewrite bpow_plus. apply Rmult_le_compat; lra. }
  destruct (fmul_val x x F F) as [_ ->].
  { rewrite Rabs_pos_eq by apply sq_nonneg. apply Rle_trans with (1 := G). apply bpow_le. lia. }
  apply rndF_le; auto. apply fmt_bp. lia.
Qed.
Lemma norm2_gen k e t1 t2 t3 (v : vec B64) :
  is_finite (vx v : b64) = true -> is_finite (vy v : b64) = true -> is_finite (vz v : b64) = true ->
  0 <= t1 -> 0 <= t2 -> 0 <= t3 -> 0 <= e <= 1 ->
  na k e t1 (Rabs (B2R (vx v : b64))) -> na k e t2 (Rabs (B2R (vy v : b64))) -> na k e t3 (Rabs (B2R (vz v : b64))) ->
  Rabs (B2R (vx v : b64)) <= bp 500 -> Rabs (B2R (vy v : b64)) <= bp 500 -> Rabs (B2R (vz v : b64)) <= bp 500 ->
  af (2 * k + 3) (3 * e * (3 + t1 + t2 + t3) + 3 * eta) (t1 * t1 + t2 * t2 + t3 * t3) (Norm2 v) /\ B2R (Norm2 v : b64) <= bp 1010.
Proof.
  intros F1 F2 F3 P1 P2 P3 E N1 N2 N3 B1 B2 B3. pose proof eta_pos as H.
  pose proof (af_sq k e t1 (vx v) F1 P1 E N1 B1) as A1. pose proof (af_sq k e t2 (vy v) F2 P2 E N2 B2) as A2. pose proof (af_sq k e t3 (vz v) F3 P3 E N3 B3) as A3.
  pose proof (sq_le _ F1 B1) as L1. pose proof (sq_le _ F2 B2) as L2. pose proof (sq_le _ F3 B3) as L3.
  assert (G : forall t, 0 <= t -> 0 <= 3 * e * (1 + t) + eta) by (intros t Ht; apply Rplus_le_le_0_compat; [apply Rmult_le_pos; lra|lra]).
  assert (bp 1000 <= bp 1010) by (apply bpow_le; lia). assert (bp 1002 <= bp 1010) by (apply bpow_le; lia). assert (bp 1004 <= bp 1010) by (apply bpow_le; lia).
  assert (bp 1002 = 4 * bp 1000) by (change 1002%Z with (2 + 1000)%Z; rewrite bpow_plus; change (bp 2) with 4; lra).
  assert (bp 1004 = 16 * bp 1000) by (change 1004%Z with (4 + 1000)%Z; rewrite bpow_plus; change (bp 4) with 16; lra).
  pose proof (bpow_ge_0 radix2 1000).
  destruct (af_add _ _ _ _ _ _ _ A1 A2 (G _ P1) (G _ P2) (sq_nonneg _) (sq_nonneg _) ltac:(lra) ltac:(lra)) as [A4 L4].
  assert (A3' : af (2 * k + 1 + 1) (3 * e * (1 + t3) + eta) (t3 * t3) (fmul B64 (vz v) (vz v))).
  { destruct A3 as (X1 & X2 & X3). split; auto. split; auto. eapply na_weak; [| | | |exact X3]; auto; try lia; try lra. apply sq_nonneg. }
  assert (Q0 : 0 <= t1 * t1 + t2 * t2) by (pose proof (sq_nonneg t1); pose proof (sq_nonneg t2); lra).
  pose proof (G _ P1). pose proof (G _ P2).
  destruct (af_add _ _ _ _ _ _ _ A4 A3' ltac:(lra) (G _ P3) Q0 (sq_nonneg _) ltac:(lra) ltac:(lra)) as [A5 L5].
  unfold Norm2, Dot. split; [|lra].
  replace (2 * k + 3)%nat with (2 * k + 1 + 1 + 1)%nat by lia.
  destruct A5 as (X1 & X2 & X3). split; auto. split; auto. eapply na_weak; [| | | |exact X3]; auto; try lra. pose proof (sq_nonneg t3). lra.
Qed.

(** ** norms and distances *)
Lemma nr_abs k t s : (k <= 1000)%nat -> 0 <= t -> nr k t s -> Rabs (s - t) <= INR (k + 1) * u * t.
Proof.
  intros K Pt N. assert (Ps := nr_pos _ _ _ Pt N). destruct N as [N1 N2]. pose proof (pw_lower k) as L. pose proof u_pos as U.
  apply le_INR in K. assert (EK : INR 1000 = 1000) by (rewrite INR_IZR_INZ; reflexivity). rewrite EK in K. pose proof (pos_INR k) as Pk. clear EK.
  rewrite plus_INR. simpl (INR 1). set (n := INR k) in *. clearbody n.
  assert (A : n * u <= 1000 * u) by (apply Rmult_le_compat_r; lra). assert (A0 : 0 <= n * u) by (apply Rmult_le_pos; lra).
  assert (B1 : (1 - n * u) * t <= s) by (apply Rle_trans with (2 := N1); apply Rmult_le_compat_r; auto).
  assert (B2 : (1 - n * u) * s <= t) by (apply Rle_trans with (2 := N2); apply Rmult_le_compat_r; auto).
  assert (0 <= u * t) by (apply Rmult_le_pos; lra). apply Rabs_le. split; [lra|].
  assert (C : s <= (1 + (n + 1) * u) * t).
  { apply Rmult_le_reg_l with (1 - n * u); [lra|]. apply Rle_trans with (1 := B2).
    assert (D : 1 <= (1 - n * u) * (1 + (n + 1) * u)).
    { assert (G : 0 <= u * (1 - n * ((n + 1) * u))); [|lra].
      apply Rmult_le_pos; [lra|]. assert (n * ((n + 1) * u) <= 1000 * (1001 * u)); [|lra].
      apply Rmult_le_compat; try lra; try (apply Rmult_le_pos; lra); try (apply Rmult_le_compat_r; lra). }
    rewrite <- Rmult_assoc. rewrite <- (Rmult_1_l t) at 1. apply Rmult_le_compat_r; auto. }
  lra.
Qed.
Definition fin_vec (v : vec B64) : Prop :=
  is_finite (vx v : b64) = true /\ is_finite (vy v : b64) = true /\ is_finite (vz v : b64) = true.
Definition mid (t : R) : Prop := bp (-480) <= t <= bp 480.
Lemma comp_le x y z : Rabs x <= sqrt (x * x + y * y + z * z) /\ Rabs y <= sqrt (x * x + y * y + z * z) /\ Rabs z <= sqrt (x * x + y * y + z * z).
Proof.
  pose proof (sq_nonneg x). pose proof (sq_nonneg y). pose proof (sq_nonneg z).
  repeat split; rewrite <- sqrt_Rsqr_abs; apply sqrt_le_1_alt; unfold Rsqr; lra.
Qed.
Lemma mid_sq t : 0 <= t -> mid (sqrt t) -> bp (-960) <= t.
Proof.
  intros P [L _]. rewrite <- (sqrt_sqrt t P). change (-960)%Z with (-480 + -480)%Z. rewrite bpow_plus.
  pose proof (bpow_ge_0 radix2 (-480)). apply Rmult_le_compat; auto.
Qed.
Lemma mid_pos t : mid t -> 0 < t. Proof. intros [L _]. pose proof (bpow_gt_0 radix2 (-480)). lra. Qed.
Lemma mid_rng t : mid t -> rng t.
Proof. intros [L U]. right. split; [apply Rle_trans with (2 := L)|apply Rle_trans with (1 := U)]; apply bpow_le; lia. Qed.
Lemma eta_small t c : bp (-960) <= t -> 0 <= c <= 1000 -> c * eta * 4 <= u * t.
Proof.
  intros H C. assert (eta = bp (-1022) * bp (-52)) by (rewrite bpadd; f_equal). pose proof (bpow_gt_0 radix2 (-1022)) as P.
  assert (u = bp (-53)) by (rewrite u_val; reflexivity).
  assert (bp (-960) = bp 62 * bp (-1022)) by (rewrite bpadd; f_equal). change (bp 62) with 4611686018427387904 in *.
  change (bp (-53)) with (/ 9007199254740992) in *. change (bp (-52)) with (/ 4503599627370496) in *.
  apply Rle_trans with (u * bp (-960)); [|apply Rmult_le_compat_l; [pose proof u_pos; lra|auto]].
  rewrite H0, H1, H2. assert (c * bp (-1022) <= 1000 * bp (-1022)) by (apply Rmult_le_compat_r; lra). lra.
Qed.
(* the squared norm of floats that are the exact components up to k roundings *)
Lemma norm2_mid k t1 t2 t3 (v : vec B64) : (k <= 1000)%nat -> fin_vec v -> 0 <= t1 -> 0 <= t2 -> 0 <= t3 ->
  nr k t1 (Rabs (B2R (vx v : b64))) -> nr k t2 (Rabs (B2R (vy v : b64))) -> nr k t3 (Rabs (B2R (vz v : b64))) ->
  mid (sqrt (t1 * t1 + t2 * t2 + t3 * t3)) -> ap (2 * k + 4) (t1 * t1 + t2 * t2 + t3 * t3) (Norm2 v).
Proof.
  intros K (F1 & F2 & F3) P1 P2 P3 N1 N2 N3 M.
  assert (Q : 0 <= t1 * t1 + t2 * t2 + t3 * t3) by (pose proof (sq_nonneg t1); pose proof (sq_nonneg t2); pose proof (sq_nonneg t3); lra).
  assert (B : forall t s, 0 <= t -> t <= sqrt (t1 * t1 + t2 * t2 + t3 * t3) -> nr k t s -> s <= bp 500).
  { intros t s Pt T N. assert (Ps := nr_pos _ _ _ Pt N). destruct N as [_ N]. destruct M as [_ U]. pose proof (pw_half k ltac:(lia)) as H.
    assert (/ 2 * s <= (1 - u) ^ k * s) by (apply Rmult_le_compat_r; lra).
    assert (bp 481 = 2 * bp 480) by (change 481%Z with (1 + 480)%Z; rewrite bpow_plus; change (bp 1) with 2; lra).
    apply Rle_trans with (bp 481); [lra|]. apply bpow_le. lia. }
  destruct (comp_le t1 t2 t3) as (C1 & C2 & C3). rewrite Rabs_pos_eq in C1, C2, C3 by auto.
  destruct (norm2_gen k 0 t1 t2 t3 v F1 F2 F3 P1 P2 P3 ltac:(lra) (na_nr _ _ _ N1) (na_nr _ _ _ N2) (na_nr _ _ _ N3)) as [(A1 & A2 & A3) _]; eauto.
  split; auto. replace (2 * k + 4)%nat with (2 * k + 3 + 1)%nat by lia.
  apply na_to_nr with (3 * 0 * (3 + t1 + t2 + t3) + 3 * eta); auto; [lia|].
  replace (3 * 0 * (3 + t1 + t2 + t3) + 3 * eta) with (3 * eta) by ring. apply eta_small; [apply mid_sq; auto|lra].
Qed.
Lemma abs2 x : Rabs x * Rabs x = x * x. Proof. rewrite <- Rabs_mult. apply Rabs_pos_eq, sq_nonneg. Qed.
Lemma norm2_acc (v : vec B64) : fin_vec v -> mid (rnorm (rvec v)) -> ap 4 (rdot (rvec v) (rvec v)) (Norm2 v).
Proof.
  intros F M. assert (Rf : forall x, nr 0 (Rabs x) (Rabs x)) by (intros; apply nr_refl, Rabs_pos).
  unfold rnorm, rdot in *. cbn [rvec rx ry rz] in *.
  pose proof (norm2_mid 0 (Rabs (B2R (vx v : b64))) (Rabs (B2R (vy v : b64))) (Rabs (B2R (vz v : b64))) v ltac:(lia) F (Rabs_pos _) (Rabs_pos _) (Rabs_pos _) (Rf _) (Rf _) (Rf _)) as H.
  rewrite !abs2 in H. exact (H M).
Qed.
Lemma norm_acc (v : vec B64) : fin_vec v -> mid (rnorm (rvec v)) -> ap 3 (rnorm (rvec v)) (Norm v).
Proof.
  intros F M. unfold rnorm in *. apply (ap_sqrt 2); try lia; [apply norm2_acc; auto| |apply mid_rng; auto].
  unfold rdot. pose proof (sq_nonneg (rx (rvec v))). pose proof (sq_nonneg (ry (rvec v))). pose proof (sq_nonneg (rz (rvec v))). lra.
Qed.
Lemma sub_nr (x y : b64) : is_finite x = true -> is_finite y = true -> Rabs (B2R x - B2R y) <= bp 480 ->
  is_finite (fsub B64 x y : b64) = true /\ nr 1 (Rabs (B2R x - B2R y)) (Rabs (B2R (fsub B64 x y : b64))).
Proof.
  intros Fx Fy H. destruct (fsub_val x y Fx Fy) as [F V].
  { apply Rle_trans with (1 := H). apply bpow_le. lia. }
  split; auto. rewrite V. pose proof (rnd_sum (B2R x) (- B2R y) (fmt_B x) ltac:(apply generic_format_opp, fmt_B)) as E. fold (B2R x - B2R y) in E.
  set (t := B2R x - B2R y) in *. pose proof u_pos. pose proof (Rabs_pos t) as P.
  assert (Rabs (Rabs (rndF t) - Rabs t) <= u * Rabs t) as E' by (apply Rle_trans with (2 := E); apply Rabs_triang_inv2).
  apply Rabs_le_inv in E'. unfold nr. rewrite pow_1. split; [lra|].
  apply Rle_trans with ((1 - u) * ((1 + u) * Rabs t)); [apply Rmult_le_compat_l; lra|].
  assert (0 <= u * u * Rabs t) by (repeat apply Rmult_le_pos; lra). lra.
Qed.
Lemma dist2_acc (v w : vec B64) : fin_vec v -> fin_vec w -> mid (rdist (rvec v) (rvec w)) -> ap 6 (rdist2 (rvec v) (rvec w)) (SquaredDistance v w).
Proof.
  intros (F1 & F2 & F3) (G1 & G2 & G3) M. unfold rdist, rdist2, rdot in *. cbn [rvec rsub rx ry rz] in *.
  destruct (comp_le (B2R (vx v : b64) - B2R (vx w : b64)) (B2R (vy v : b64) - B2R (vy w : b64)) (B2R (vz v : b64) - B2R (vz w : b64))) as (C1 & C2 & C3).
  assert (U := proj2 M).
  destruct (sub_nr _ _ F1 G1 (Rle_trans _ _ _ C1 U)) as [H1 N1]. destruct (sub_nr _ _ F2 G2 (Rle_trans _ _ _ C2 U)) as [H2 N2].
  destruct (sub_nr _ _ F3 G3 (Rle_trans _ _ _ C3 U)) as [H3 N3].
  pose proof (norm2_mid 1 _ _ _ (Sub v w) ltac:(lia) (conj H1 (conj H2 H3)) (Rabs_pos _) (Rabs_pos _) (Rabs_pos _) N1 N2 N3) as H.
  rewrite !abs2 in H. exact (H M).
Qed.
Lemma dist_acc (v w : vec B64) : fin_vec v -> fin_vec w -> mid (rdist (rvec v) (rvec w)) -> ap 4 (rdist (rvec v) (rvec w)) (Distance v w).
Proof.
  intros F G M. unfold rdist in *. apply (ap_sqrt 3); try lia; [apply dist2_acc; auto| |apply mid_rng; auto].
  unfold rdist2, rdot. set (d := rsub _ _). pose proof (sq_nonneg (rx d)). pose proof (sq_nonneg (ry d)). pose proof (sq_nonneg (rz d)). lra.
Qed.

(** ** Normalize *)
Lemma ap_pos k t (x : b64) : 0 < t -> ap k t x -> is_finite x = true /\ 0 < B2R x.
Proof. intros P [F N]. split; auto. apply nr_pos' with (2 := N). auto. Qed.
Lemma one64 : ap 0 1 (fofZ B64 1).
Proof. split; [reflexivity|]. replace (B2R (fofZ B64 1 : b64)) with 1; [apply nr_refl; lra|]. cbn. unfold Defs.F2R. cbn. lra. Qed.
(* the factor 1 / |v| *)
Definition inv_norm (v : vec B64) : b64 := fdiv B64 (fofZ B64 1) (fsqrt B64 (Norm2 v)).
Lemma inv_norm_acc (v : vec B64) : fin_vec v -> mid (rnorm (rvec v)) -> ap 4 (/ rnorm (rvec v)) (inv_norm v).
Proof.
  intros F M. pose proof (norm_acc v F M) as N. pose proof (mid_pos _ M) as P.
  apply (ap_cast (0 + 3 + 1) 4 (1 / rnorm (rvec v))); [|lia|field; lra].
  apply ap_div; auto; try lia; try lra; [apply one64|]. right. destruct M as [L U]. unfold Rdiv. rewrite Rmult_1_l. split.
  - apply Rle_trans with (/ bp 480); [|apply Rinv_le; auto; apply bpow_gt_0]. rewrite <- bpow_opp. apply bpow_le. lia.
  - apply Rle_trans with (/ bp (-480)); [apply Rinv_le; auto; apply bpow_gt_0|]. rewrite <- bpow_opp. apply bpow_le. lia.
Qed.
Lemma normalize_eq (v : vec B64) : fin_vec v -> mid (rnorm (rvec v)) -> Normalize v = Scaled v (inv_norm v).
Proof.
  intros F M. unfold Normalize. pose proof (norm2_acc v F M) as N.
  assert (0 < rdot (rvec v) (rvec v)).
  { pose proof (mid_pos _ M) as P. unfold rnorm in P. apply Rnot_le_lt. intros G. rewrite sqrt_neg_0 in P; lra. }
  destruct (ap_pos _ _ _ H N) as [Fn Pn].
  replace (feq B64 (Norm2 v) (fofZ B64 0)) with false; [reflexivity|]. symmetry. cbn [feq B64]. rewrite Beqb_correct by auto.
  apply Req_bool_false, Rgt_not_eq. exact Pn.
Qed.
Section Scal.
Variables (f : b64) (n x : R) (X : b64).
Hypotheses (Pn : 0 < n) (Hf : ap 4 (/ n) f) (FX : is_finite X = true) (Ex : B2R X = x) (Lx : Rabs x <= n).
Lemma scal_t : 0 <= Rabs x / n <= 1.
Proof.
  pose proof (Rabs_pos x). split.
  - apply Rmult_le_pos; auto. left. apply Rinv_0_lt_compat; auto.
  - apply Rmult_le_reg_r with n; auto. unfold Rdiv. rewrite Rmult_assoc, Rinv_l by lra. lra.
Qed.
Lemma scal_nr : nr 4 (Rabs x / n) (Rabs (B2R f * B2R X)).
Proof.
  destruct Hf as [Ff Nf]. assert (0 < / n) by (apply Rinv_0_lt_compat; auto). assert (Q := nr_pos' _ _ _ H Nf).
  rewrite Rabs_mult, Ex, (Rabs_pos_eq (B2R f)) by lra. unfold Rdiv. rewrite (Rmult_comm (Rabs x)). change 4%nat with (4 + 0)%nat.
  apply nr_mul; auto; try lra; [apply Rabs_pos|apply nr_refl, Rabs_pos].
Qed.
Lemma scal_le2 : Rabs (B2R f * B2R X) <= 2.
Proof.
  pose proof scal_t as T. pose proof scal_nr as [_ N]. pose proof (pw_half 4 ltac:(lia)) as H. pose proof (Rabs_pos (B2R f * B2R X)) as P.
  assert (/ 2 * Rabs (B2R f * B2R X) <= (1 - u) ^ 4 * Rabs (B2R f * B2R X)) by (apply Rmult_le_compat_r; auto). lra.
Qed.
Lemma scal_val : is_finite (fmul B64 f X : b64) = true /\ B2R (fmul B64 f X : b64) = rndF (B2R f * B2R X).
Proof.
  destruct Hf as [Ff _]. apply fmul_val; auto. pose proof scal_le2. apply Rle_trans with (1 := H). change 2 with (bp 1). apply bpow_le. lia.
Qed.
Lemma scal_na : na 5 eta (Rabs x / n) (Rabs (B2R (fmul B64 f X : b64))).
Proof.
  destruct scal_val as [_ ->]. pose proof eta_pos. replace eta with (0 + eta) by ring. pose proof (Rabs_pos (B2R f * B2R X)).
  apply (na_rnd 4 0 eta (Rabs x / n) (Rabs (B2R f * B2R X))); try lra; [apply scal_t| |apply na_nr, scal_nr].
  apply Rle_trans with (2 := rnd_any (B2R f * B2R X)). apply Rabs_triang_inv2.
Qed.
Lemma scal_acc : Rabs (B2R (fmul B64 f X : b64) - x / n) <= 7 * u * (Rabs x / n) + eta.
Proof.
  destruct scal_val as [_ ->]. destruct Hf as [Ff Nf]. assert (Pi : 0 < / n) by (apply Rinv_0_lt_compat; auto).
  pose proof (nr_abs 4 _ _ ltac:(lia) (Rlt_le _ _ Pi) Nf) as A. change (INR (4 + 1)) with (INR 5) in A. replace (INR 5) with 5 in A by (simpl; lra).
  pose proof (rnd_any (B2R f * B2R X)) as B. pose proof scal_nr as NN.
  pose proof (nr_abs 4 _ _ ltac:(lia) (proj1 scal_t) NN) as C. change (INR (4 + 1)) with (INR 5) in C. replace (INR 5) with 5 in C by (simpl; lra).
  set (p := B2R f * B2R X) in *. apply Rabs_le_inv in C. pose proof u_pos as U. pose proof scal_t as T. set (t := Rabs x / n) in *.
  assert (D : Rabs (p - x / n) <= 5 * u * t).
  { unfold p. rewrite Ex. replace (B2R f * x - x / n) with (x * (B2R f - / n)) by (unfold Rdiv; ring). rewrite Rabs_mult.
    unfold t, Rdiv. replace (5 * u * (Rabs x * / n)) with (Rabs x * (5 * u * / n)) by ring. apply Rmult_le_compat_l; auto. apply Rabs_pos. }
  replace (rndF p - x / n) with ((rndF p - p) + (p - x / n)) by ring. apply Rle_trans with (1 := Rabs_triang _ _).
  assert (0 <= u * t) by (apply Rmult_le_pos; lra).
  assert (u * Rabs p <= u * ((1 + 5 * u) * t)) by (apply Rmult_le_compat_l; lra).
  assert (u * (u * t) <= / 10 * (u * t)) by (apply Rmult_le_compat_r; lra). lra.
Qed.
End Scal.
Lemma normalize_acc (v : vec B64) : fin_vec v -> mid (rnorm (rvec v)) ->
  let n := rnorm (rvec v) in let w := Normalize v in
  fin_vec w /\ Rabs (B2R (vx w : b64) - rx (rvec v) / n) <= 7 * u * (Rabs (rx (rvec v)) / n) + eta /\
  Rabs (B2R (vy w : b64) - ry (rvec v) / n) <= 7 * u * (Rabs (ry (rvec v)) / n) + eta /\
  Rabs (B2R (vz w : b64) - rz (rvec v) / n) <= 7 * u * (Rabs (rz (rvec v)) / n) + eta.
Proof.
  intros F M n w. unfold w. rewrite normalize_eq by auto. pose proof (inv_norm_acc v F M) as A. pose proof (mid_pos _ M) as P.
  destruct F as (F1 & F2 & F3). destruct (comp_le (rx (rvec v)) (ry (rvec v)) (rz (rvec v))) as (C1 & C2 & C3).
  cbn [Scaled vx vy vz]. repeat split; try (eapply scal_val; eauto; reflexivity); eapply scal_acc; eauto; reflexivity.
Qed.
Lemma eps64 : is_finite (fofQ B64 (5 # 100000000000000) : b64) = true /\ / 100000000000000 <= B2R (fofQ B64 (5 # 100000000000000) : b64).
Proof. split; [reflexivity|]. cbn. unfold Defs.F2R. cbn. lra. Qed.
Lemma normalize_isunit (v : vec B64) : fin_vec v -> mid (rnorm (rvec v)) -> IsUnit (Normalize v) = true.
Proof.
  intros F M. destruct (normalize_acc v F M) as (FW & _). cbv zeta in FW. pose proof (inv_norm_acc v F M) as A. pose proof (mid_pos _ M) as P.
  assert (Eq : Normalize v = Scaled v (inv_norm v)) by (apply normalize_eq; auto).
  destruct F as (F1 & F2 & F3). destruct (comp_le (rx (rvec v)) (ry (rvec v)) (rz (rvec v))) as (C1 & C2 & C3).
  set (n := rnorm (rvec v)) in *. pose proof eta_pos as EP. assert (eta <= 1) as E1 by (change 1 with (bp 0); apply bpow_le; lia).
  assert (T : forall x, Rabs x <= n -> 0 <= Rabs x / n <= 1) by (intros; apply scal_t; auto).
  assert (N : forall x (X : b64), is_finite X = true -> B2R X = x -> Rabs x <= n -> na 5 eta (Rabs x / n) (Rabs (B2R (fmul B64 (inv_norm v) X : b64)))) by (intros; eapply scal_na; eauto).
  assert (L : forall x (X : b64), is_finite X = true -> B2R X = x -> Rabs x <= n -> Rabs (B2R (fmul B64 (inv_norm v) X : b64)) <= bp 500).
  { intros x X FX EX LX. destruct (N x X FX EX LX) as [_ H]. pose proof (T x LX). pose proof (pw_half 5 ltac:(lia)). pose proof (Rabs_pos (B2R (fmul B64 (inv_norm v) X : b64))).
    assert (/ 2 * Rabs (B2R (fmul B64 (inv_norm v) X : b64)) <= (1 - u) ^ 5 * Rabs (B2R (fmul B64 (inv_norm v) X : b64))) by (apply Rmult_le_compat_r; auto).
    apply Rle_trans with (bp 2); [change (bp 2) with 4; lra|apply bpow_le; lia]. }
  destruct FW as (W1 & W2 & W3). rewrite Eq in W1, W2, W3. cbn [Scaled vx vy vz] in W1, W2, W3.
  destruct (norm2_gen 5 eta (Rabs (rx (rvec v)) / n) (Rabs (ry (rvec v)) / n) (Rabs (rz (rvec v)) / n) (Scaled v (inv_norm v)) W1 W2 W3
    (proj1 (T _ C1)) (proj1 (T _ C2)) (proj1 (T _ C3)) ltac:(lra)) as [(A1 & A2 & A3) _]; cbn [Scaled vx vy vz]; try (eapply N; eauto; reflexivity); try (eapply L; eauto; reflexivity).
  assert (S1 : Rabs (rx (rvec v)) / n * (Rabs (rx (rvec v)) / n) + Rabs (ry (rvec v)) / n * (Rabs (ry (rvec v)) / n) + Rabs (rz (rvec v)) / n * (Rabs (rz (rvec v)) / n) = 1).
  { replace (Rabs (rx (rvec v)) / n * (Rabs (rx (rvec v)) / n) + Rabs (ry (rvec v)) / n * (Rabs (ry (rvec v)) / n) + Rabs (rz (rvec v)) / n * (Rabs (rz (rvec v)) / n))
      with ((Rabs (rx (rvec v)) * Rabs (rx (rvec v)) + Rabs (ry (rvec v)) * Rabs (ry (rvec v)) + Rabs (rz (rvec v)) * Rabs (rz (rvec v))) / (n * n)) by (field; lra).
    rewrite !abs2. unfold n, rnorm. rewrite sqrt_sqrt.
    - unfold rdot. field. intros G. apply (Rlt_irrefl 0). unfold n, rnorm, rdot in P. rewrite G, sqrt_0 in P. auto.
    - unfold rdot. pose proof (sq_nonneg (rx (rvec v))). pose proof (sq_nonneg (ry (rvec v))). pose proof (sq_nonneg (rz (rvec v))). lra. }
  rewrite S1 in A3. set (E := 3 * eta * (3 + Rabs (rx (rvec v)) / n + Rabs (ry (rvec v)) / n + Rabs (rz (rvec v)) / n) + 3 * eta) in *.
  assert (NR : nr 14 1 (B2R (Norm2 (Scaled v (inv_norm v)) : b64))).
  { apply (na_to_nr 13 E); auto; [lia|]. apply Rle_trans with (21 * eta * 4).
    - pose proof (T _ C1). pose proof (T _ C2). pose proof (T _ C3). apply Rmult_le_compat_r; [lra|]. unfold E.
      assert (3 * eta * (3 + Rabs (rx (rvec v)) / n + Rabs (ry (rvec v)) / n + Rabs (rz (rvec v)) / n) <= 3 * eta * 6) by (apply Rmult_le_compat_l; lra). lra.
    - apply eta_small; [change 1 with (bp 0); apply bpow_le; lia|lra]. }
  apply nr_abs in NR; [|lia|lra]. replace (INR (14 + 1)) with 15 in NR by (simpl; lra). rewrite Rmult_1_r in NR.
  unfold IsUnit. rewrite Eq. set (m := Norm2 (Scaled v (inv_norm v))) in *.
  assert (V1 : B2R (fofZ B64 1 : b64) = 1) by (cbn; unfold Defs.F2R; cbn; lra).
  assert (B : Rabs (B2R (m : b64) - 1) <= bp (-49)) by (change (bp (-49)) with (/ 562949953421312); rewrite u_val in NR; lra).
  destruct (fsub_val m (fofZ B64 1) A1 eq_refl) as [FS VS].
  { rewrite V1. apply Rle_trans with (1 := B). apply bpow_le. lia. }
  destruct eps64 as [FE VE]. cbn [fle B64 fabs]. rewrite Bleb_correct; [|rewrite is_finite_Babs; exact FS|exact FE].
  apply Rle_bool_true. rewrite B2R_Babs. change (B2R (Bminus mode_NE m (fofZ B64 1))) with (B2R (fsub B64 m (fofZ B64 1) : b64)). rewrite VS, V1.
  apply Rle_trans with (bp (-49)).
  - apply abs_round_le_generic; auto; try typeclasses eauto. apply fmt_bp. lia.
  - apply Rle_trans with (2 := VE). change (bp (-49)) with (/ 562949953421312). lra.
Qed.

(** ** IsUnit *)
Lemma fin_add_inv (x y : b64) : is_finite (fadd B64 x y : b64) = true -> is_finite x = true /\ is_finite y = true.
Proof. destruct x as [[]|[]| |[] mx ex Bx], y as [[]|[]| |[] my ey By]; try discriminate; auto. Qed.
Lemma fin_sub_inv (x y : b64) : is_finite (fsub B64 x y : b64) = true -> is_finite x = true /\ is_finite y = true.
Proof. destruct x as [[]|[]| |[] mx ex Bx], y as [[]|[]| |[] my ey By]; try discriminate; auto. Qed.
Lemma fin_mul_inv (x y : b64) : is_finite (fmul B64 x y : b64) = true -> is_finite x = true /\ is_finite y = true.
Proof. destruct x as [[]|[]| |[] mx ex Bx], y as [[]|[]| |[] my ey By]; try discriminate; auto. Qed.
Lemma over_inf s (x : b64) : B2SF x = binary_overflow 53 1024 mode_NE s -> is_finite x = false.
Proof. intros E. destruct x; simpl in E; try discriminate; auto. Qed.
Lemma fin_add_val (x y : b64) : is_finite (fadd B64 x y : b64) = true -> B2R (fadd B64 x y : b64) = rndF (B2R x + B2R y).
Proof.
  intros H. destruct (fin_add_inv x y H) as [Fx Fy]. pose proof (Bplus_correct 53 1024 b64_prec b64_pe mode_NE x y Fx Fy) as C.
  destruct Rlt_bool; [tauto|]. destruct C as [C _]. apply over_inf in C. cbn [fadd B64] in H. congruence.
Qed.
Lemma fin_sub_val (x y : b64) : is_finite (fsub B64 x y : b64) = true -> B2R (fsub B64 x y : b64) = rndF (B2R x - B2R y).
Proof.
  intros H. destruct (fin_sub_inv x y H) as [Fx Fy]. pose proof (Bminus_correct 53 1024 b64_prec b64_pe mode_NE x y Fx Fy) as C.
  destruct Rlt_bool; [tauto|]. destruct C as [C _]. apply over_inf in C. cbn [fsub B64] in H. congruence.
Qed.
Lemma fin_mul_val (x y : b64) : is_finite (fmul B64 x y : b64) = true -> B2R (fmul B64 x y : b64) = rndF (B2R x * B2R y).
Proof.
  intros H. pose proof (Bmult_correct 53 1024 b64_prec b64_pe mode_NE x y) as C.
  destruct Rlt_bool; [tauto|]. apply over_inf in C. cbn [fmul B64] in H. congruence.
Qed.
Lemma eps64' : 49 / 1000000000000000 <= B2R (fofQ B64 (5 # 100000000000000) : b64) <= 501 / 10000000000000000.
Proof. cbn. unfold Defs.F2R. cbn. lra. Qed.
Lemma sq_small (x : b64) : is_finite x = true -> rndF (B2R x * B2R x) <= 2 -> Rabs (B2R x) <= bp 500.
Proof.
  intros F H. apply Rle_trans with 2; [|change 2 with (bp 1); apply bpow_le; lia]. apply Rnot_lt_le. intros G.
  assert (2 * 2 <= Rabs (B2R x) * Rabs (B2R x)) by (apply Rmult_le_compat; lra). rewrite abs2 in H0.
  assert (4 <= rndF (B2R x * B2R x)); [|lra]. apply rndF_ge; [|lra]. change 4 with (bp 2). apply fmt_bp. lia.
Qed.
Lemma isunit_sound (v : vec B64) : IsUnit v = true -> fin_vec v /\ Rabs (rdot (rvec v) (rvec v) - 1) <= 6 / 100000000000000.
Proof.
  unfold IsUnit. intros H. destruct eps64 as [FE _]. pose proof eps64' as [_ VE]. set (ep := fofQ B64 _) in *.
  assert (V1 : B2R (fofZ B64 1 : b64) = 1) by (cbn; unfold Defs.F2R; cbn; lra).
  assert (FD : is_finite (fsub B64 (Norm2 v) (fofZ B64 1) : b64) = true).
  { cbn [fabs fle B64] in H. change (@Bminus 53 1024 b64_prec b64_pe mode_NE) with (fsub B64) in H. destruct (fsub B64 (Norm2 v) (fofZ B64 1)) as [[]|[]| |[] m e B]; auto; exfalso; simpl Babs in H;
      destruct ep as [[]|[]| |[] m' e' B']; try discriminate. }
  pose proof (fin_sub_val _ _ FD) as VD. destruct (fin_sub_inv _ _ FD) as [FN _].
  cbn [fabs fle B64] in H. change (@Bminus 53 1024 b64_prec b64_pe mode_NE (Norm2 v) (b64_of_Z 1)) with (fsub B64 (Norm2 v) (fofZ B64 1)) in H.
  rewrite Bleb_correct in H; [|rewrite is_finite_Babs; exact FD|exact FE]. rewrite B2R_Babs in H.
  assert (HD : Rabs (rndF (B2R (Norm2 v : b64) - 1)) <= 501 / 10000000000000000).
  { rewrite V1 in VD. rewrite <- VD. revert H. case Rle_bool_spec; intros; [lra|discriminate]. }
  clear H FD VD. set (N := B2R (Norm2 v : b64)) in *.
  assert (HN : Rabs (N - 1) <= 502 / 10000000000000000).
  { pose proof (rnd_sum N (- (1)) (fmt_B _) ltac:(apply generic_format_opp; change 1 with (bp 0); apply fmt_bp; lia)) as E. fold (N - 1) in E.
    set (d := N - 1) in *. pose proof u_pos. assert (Rabs d - Rabs (rndF d) <= u * Rabs d).
    { apply Rle_trans with (2 := E). rewrite Rabs_minus_sym. apply Rabs_triang_inv. }
    assert (u * Rabs d <= / 1000000 * Rabs d) by (apply Rmult_le_compat_r; [apply Rabs_pos|lra]). lra. }
  clear HD. apply Rabs_le_inv in HN.
  unfold Norm2, Dot in FN. pose proof (fin_add_val _ _ FN) as V2. destruct (fin_add_inv _ _ FN) as [FA F3].
  pose proof (fin_add_val _ _ FA) as V3. destruct (fin_add_inv _ _ FA) as [F1 F2].
  destruct (fin_mul_inv _ _ F1) as [G1 _]. destruct (fin_mul_inv _ _ F2) as [G2 _]. destruct (fin_mul_inv _ _ F3) as [G3 _].
  change (N = rndF (B2R (fadd B64 (fmul B64 (vx v) (vx v)) (fmul B64 (vy v) (vy v)) : b64) + B2R (fmul B64 (vz v) (vz v) : b64))) in V2.
  assert (P1 : 0 <= B2R (fmul B64 (vx v) (vx v) : b64)) by (rewrite fin_mul_val by auto; apply rnd_pos, sq_nonneg).
  assert (P2 : 0 <= B2R (fmul B64 (vy v) (vy v) : b64)) by (rewrite fin_mul_val by auto; apply rnd_pos, sq_nonneg).
  assert (P3 : 0 <= B2R (fmul B64 (vz v) (vz v) : b64)) by (rewrite fin_mul_val by auto; apply rnd_pos, sq_nonneg).
  set (A := B2R (fadd B64 (fmul B64 (vx v) (vx v)) (fmul B64 (vy v) (vy v)) : b64)) in *.
  assert (L1 : B2R (fmul B64 (vx v) (vx v) : b64) <= A) by (rewrite V3; apply rndF_ge; [apply fmt_B|lra]).
  assert (L2 : B2R (fmul B64 (vy v) (vy v) : b64) <= A) by (rewrite V3; apply rndF_ge; [apply fmt_B|lra]).
  assert (L3 : A <= N) by (rewrite V2; apply rndF_ge; [apply fmt_B|lra]).
  assert (L4 : B2R (fmul B64 (vz v) (vz v) : b64) <= N) by (rewrite V2; apply rndF_ge; [apply fmt_B|lra]).
  rewrite fin_mul_val in L1, L2, L4 by auto.
  assert (B1 := sq_small _ G1 ltac:(lra)). assert (B2 := sq_small _ G2 ltac:(lra)). assert (B3 := sq_small _ G3 ltac:(lra)).
  split; [repeat split; auto|]. unfold rdot. cbn [rvec rx ry rz].
  assert (Rf : forall x, na 0 0 (Rabs x) (Rabs x)) by (intros; apply na_nr, nr_refl, Rabs_pos).
  destruct (norm2_gen 0 0 (Rabs (B2R (vx v : b64))) (Rabs (B2R (vy v : b64))) (Rabs (B2R (vz v : b64))) v) as [(_ & _ & [Q1 Q2]) _]; auto; try apply Rabs_pos; try lra.
  rewrite !abs2 in Q1, Q2. fold N in Q1, Q2. set (t := _ + _ + B2R (vz v : b64) * B2R (vz v : b64)) in *.
  assert (Pt : 0 <= t) by (unfold t; pose proof (sq_nonneg (B2R (vx v : b64))); pose proof (sq_nonneg (B2R (vy v : b64))); pose proof (sq_nonneg (B2R (vz v : b64))); lra).
  match type of Q1 with _ - ?e <= _ => set (E := e) in * end.
  assert (HE : 0 <= E <= / 1000000000000000000).
  { unfold E. rewrite Rmult_0_r, Rmult_0_l, Rplus_0_l. pose proof eta_pos. assert (eta <= bp (-70)) by (apply bpow_le; lia). change (bp (-70)) with (/ 1180591620717411303424) in *. lra. }
  pose proof (pw_lower (2 * 0 + 3)) as PL. replace (INR (2 * 0 + 3)) with 3 in PL by (simpl; lra). pose proof (pw (2 * 0 + 3)) as PW. set (w := (1 - u) ^ (2 * 0 + 3)) in *.
  pose proof u_pos. assert (W1 : (1 - 3 * u) * t <= w * t) by (apply Rmult_le_compat_r; lra). assert (W2 : (1 - 3 * u) * N <= w * N) by (apply Rmult_le_compat_r; lra).
  assert (T2 : t <= 3) by (assert (/ 2 * t <= (1 - 3 * u) * t) by (apply Rmult_le_compat_r; lra); lra).
  assert (u * t <= u * 3) by (apply Rmult_le_compat_l; lra). assert (u * N <= u * 2) by (apply Rmult_le_compat_l; lra).
  assert (3 * u <= / 1000000000000000) by (rewrite u_val; lra). apply Rabs_le. lra.
Qed.
Lemma isunit_complete (v : vec B64) : fin_vec v -> Rabs (rdot (rvec v) (rvec v) - 1) <= 4 / 100000000000000 -> IsUnit v = true.
Proof.
  intros F H. set (t := rdot (rvec v) (rvec v)) in *. apply Rabs_le_inv in H.
  assert (M : mid (rnorm (rvec v))).
  { unfold rnorm. fold t. split.
    - apply Rle_trans with (bp (-1)); [apply bpow_le; lia|]. change (bp (-1)) with (/ 2). rewrite <- (sqrt_square (/ 2)) by lra. apply sqrt_le_1_alt. lra.
    - apply Rle_trans with (bp 1); [|apply bpow_le; lia]. change (bp 1) with 2. rewrite <- (sqrt_square 2) by lra. apply sqrt_le_1_alt. lra. }
  destruct (norm2_acc v F M) as [FN NR]. fold t in NR. apply nr_abs in NR; [|lia|lra]. replace (INR (4 + 1)) with 5 in NR by (simpl; lra). apply Rabs_le_inv in NR.
  assert (u * t <= u * 2) by (apply Rmult_le_compat_l; [pose proof u_pos; lra|lra]).
  assert (U5 : u <= / 9000000000000000) by (rewrite u_val; lra).
  assert (V1 : B2R (fofZ B64 1 : b64) = 1) by (cbn; unfold Defs.F2R; cbn; lra).
  unfold IsUnit. destruct eps64 as [FE _]. pose proof eps64' as [VE _].
  destruct (fsub_val (Norm2 v) (fofZ B64 1) FN eq_refl) as [FS VS].
  { rewrite V1. apply Rle_trans with (bp 0); [change (bp 0) with 1; apply Rabs_le; lra|apply bpow_le; lia]. }
  cbn [fle B64 fabs]. change (@Bminus 53 1024 b64_prec b64_pe mode_NE (Norm2 v) (b64_of_Z 1)) with (fsub B64 (Norm2 v) (fofZ B64 1)).
  rewrite Bleb_correct; [|rewrite is_finite_Babs; exact FS|exact FE]. apply Rle_bool_true. rewrite B2R_Babs, VS, V1.
  set (N := B2R (Norm2 v : b64)) in *. apply Rle_trans with (2 := VE).
  pose proof (rnd_sum N (- (1)) (fmt_B _) ltac:(apply generic_format_opp; change 1 with (bp 0); apply fmt_bp; lia)) as E. fold (N - 1) in E.
  assert (D : Rabs (N - 1) <= 42 / 1000000000000000) by (apply Rabs_le; lra). set (d := N - 1) in *.
  assert (Rabs (rndF d) - Rabs d <= u * Rabs d) by (apply Rle_trans with (2 := E); apply Rabs_triang_inv).
  assert (u * Rabs d <= / 1000000 * Rabs d) by (apply Rmult_le_compat_r; [apply Rabs_pos|pose proof u_pos; lra]). lra.
Qed.
