(** Interpolate, GetInterpolationVector and findCentroid in binary64. *)
From Coq Require Import Reals Lra Lia ZArith QArith Qreals Bool List.
From Flocq Require Import Core Relative Plus_error BinarySingleNaN.
From Verif Require Import Base Arith M_r3 M_meshing Spec_r3 P_insphere_err P_insphere_b64 P_b64sc P_b64err P_b64hash P_b64laws P_b64rel P_b64norm.
Open Scope R_scope.
Local Instance p53i : Prec_gt_0 53 := eq_refl.
Local Instance vxi : Valid_exp (SpecFloat.fexp 53 1024) := fexp_correct 53 1024 b64_prec.

(** ** Interpolate *)
Lemma abs_split x y d : Rabs (x - y) <= d -> Rabs x <= Rabs y + d.
Proof. intros H. replace x with (y + (x - y)) by ring. apply Rle_trans with (1 := Rabs_triang _ _). lra. Qed.
Lemma interp_real (a b t t1 p q r M e : R) : 0 <= e -> Rabs a <= M -> Rabs b <= M -> 0 <= t <= 1 -> Rabs (t1 - (1 - t)) <= u * (1 - t) ->
  Rabs (p - a * t1) <= u * Rabs (a * t1) + e -> Rabs (q - b * t) <= u * Rabs (b * t) + e -> Rabs (r - (p + q)) <= u * Rabs (p + q) ->
  Rabs (r - (a * (1 - t) + b * t)) <= 4 * u * M + 3 * e.
Proof.
  intros He Ha Hb Ht H1 Hp Hq Hr. pose proof u_pos as U. pose proof (Rabs_pos a) as Pa. pose proof (Rabs_pos b) as Pb.
  set (X := Rabs a * (1 - t)). set (Y := Rabs b * t).
  assert (X0 : 0 <= X) by (apply Rmult_le_pos; lra). assert (Y0 : 0 <= Y) by (apply Rmult_le_pos; lra).
  assert (XM : X <= M * (1 - t)) by (apply Rmult_le_compat_r; lra). assert (YM : Y <= M * t) by (apply Rmult_le_compat_r; lra).
  assert (XY : X + Y <= M) by lra.
  assert (EX : Rabs (a * (1 - t)) = X) by (rewrite Rabs_mult, (Rabs_pos_eq (1 - t)) by lra; reflexivity).
  assert (EY : Rabs (b * t) = Y) by (rewrite Rabs_mult, (Rabs_pos_eq t) by lra; reflexivity).
  assert (D1 : Rabs (a * t1 - a * (1 - t)) <= u * X).
  { replace (a * t1 - a * (1 - t)) with (a * (t1 - (1 - t))) by ring. rewrite Rabs_mult.
    apply Rle_trans with (Rabs a * (u * (1 - t))); [apply Rmult_le_compat_l; lra|]. unfold X. right. ring. }
  pose proof (abs_split _ _ _ D1) as A1. rewrite EX in A1. rewrite EY in Hq.
  assert (u * Rabs (a * t1) <= u * (X + u * X)) by (apply Rmult_le_compat_l; lra).
  assert (DP : Rabs (p - a * (1 - t)) <= u * X + u * (X + u * X) + e).
  { replace (p - a * (1 - t)) with ((p - a * t1) + (a * t1 - a * (1 - t))) by ring. apply Rle_trans with (1 := Rabs_triang _ _). lra. }
  assert (u * (u * X) <= / 1000 * (u * X)).
  { apply Rmult_le_compat_r; [apply Rmult_le_pos; lra|lra]. }
  assert (0 <= u * X) by (apply Rmult_le_pos; lra). assert (0 <= u * Y) by (apply Rmult_le_pos; lra).
  assert (DS : Rabs ((p + q) - (a * (1 - t) + b * t)) <= 3 * (u * X) + u * Y + 2 * e - / 2 * (u * X)).
  { replace ((p + q) - (a * (1 - t) + b * t)) with ((p - a * (1 - t)) + (q - b * t)) by ring. apply Rle_trans with (1 := Rabs_triang _ _). lra. }
  assert (UX : u * X + u * Y <= u * M) by (rewrite <- Rmult_plus_distr_l; apply Rmult_le_compat_l; lra).
  pose proof (abs_split _ _ _ DS) as AS. pose proof (Rabs_triang (a * (1 - t)) (b * t)) as T. rewrite EX, EY in T.
  assert (B : Rabs (p + q) <= M + 3 * (u * M) + 2 * e) by lra.
  assert (UB : u * Rabs (p + q) <= u * M + u * (3 * (u * M)) + u * (2 * e)).
  { apply Rle_trans with (u * (M + 3 * (u * M) + 2 * e)); [apply Rmult_le_compat_l; lra|right; ring]. }
  assert (0 <= u * M) by (apply Rmult_le_pos; lra).
  assert (u * (3 * (u * M)) <= / 1000 * (u * M)).
  { replace (u * (3 * (u * M))) with ((3 * u) * (u * M)) by ring. apply Rmult_le_compat_r; lra. }
  assert (u * (2 * e) <= / 2 * e) by (replace (u * (2 * e)) with ((2 * u) * e) by ring; apply Rmult_le_compat_r; lra).
  replace (r - (a * (1 - t) + b * t)) with ((r - (p + q)) + ((p + q) - (a * (1 - t) + b * t))) by ring.
  apply Rle_trans with (1 := Rabs_triang _ _). lra.
Qed.
Lemma one_R : is_finite (fofZ B64 1 : b64) = true /\ B2R (fofZ B64 1 : b64) = 1.
Proof. split; [reflexivity|]. cbn. unfold Defs.F2R. cbn. lra. Qed.
Lemma rnd_abs_le x y : fmt y -> Rabs x <= y -> Rabs (rndF x) <= y.
Proof. intros F H. apply abs_round_le_generic; auto; typeclasses eauto. Qed.
Lemma one_minus (t : b64) : is_finite t = true -> 0 <= B2R t <= 1 ->
  is_finite (fsub B64 (fofZ B64 1) t : b64) = true /\ 0 <= B2R (fsub B64 (fofZ B64 1) t : b64) <= 1 /\
  Rabs (B2R (fsub B64 (fofZ B64 1) t : b64) - (1 - B2R t)) <= u * (1 - B2R t).
Proof.
  intros F H. destruct one_R as [F1 R1]. destruct (fsub_val (fofZ B64 1 : b64) t F1 F) as [G V].
  { rewrite R1. apply Rle_trans with 1; [apply Rabs_le; lra|]. change 1 with (bp 0). apply bpow_le. lia. }
  rewrite R1 in V. split; [exact G|]. rewrite V. assert (fmt 1) by (apply (fmt_Z 1); simpl; lia). split.
  - split; [apply rnd_pos; lra|apply rndF_le; auto; lra].
  - pose proof (rnd_sum 1 (- B2R t) ltac:(assumption) ltac:(apply generic_format_opp, fmt_B)) as E. fold (1 - B2R t) in E.
    rewrite (Rabs_pos_eq (1 - B2R t)) in E by lra. exact E.
Qed.
Lemma interp_acc (a b t : b64) M : is_finite a = true -> is_finite b = true -> is_finite t = true -> Rabs (B2R a) <= M -> Rabs (B2R b) <= M -> M <= bp 1022 -> 0 <= B2R t <= 1 ->
  let r : b64 := fadd B64 (fmul B64 a (fsub B64 (fofZ B64 1) t)) (fmul B64 b t) in
  is_finite r = true /\ Rabs (B2R r - (B2R a * (1 - B2R t) + B2R b * B2R t)) <= 4 * u * M + 3 * eta.
Proof.
  intros Fa Fb Ft Ha Hb HM Ht r. destruct (one_minus t Ft Ht) as (F1 & R1 & E1). set (t1 := fsub B64 (fofZ B64 1) t : b64) in *.
  assert (M2 : forall x : b64, Rabs (B2R x) <= M -> Rabs (B2R x) <= bp 1023) by (intros x Hx; apply Rle_trans with (1 := Hx), Rle_trans with (1 := HM), bpow_le; lia).
  assert (P : forall (x s : b64), is_finite x = true -> is_finite s = true -> Rabs (B2R x) <= M -> 0 <= B2R s <= 1 ->
     is_finite (fmul B64 x s : b64) = true /\ B2R (fmul B64 x s : b64) = rndF (B2R x * B2R s) /\ Rabs (B2R (fmul B64 x s : b64)) <= Rabs (B2R x)).
  { intros x s Fx Fs Hx Hs. assert (L : Rabs (B2R x * B2R s) <= Rabs (B2R x)).
    { rewrite Rabs_mult, (Rabs_pos_eq (B2R s)) by lra. rewrite <- (Rmult_1_r (Rabs (B2R x))) at 2. apply Rmult_le_compat_l; [apply Rabs_pos|lra]. }
    destruct (fmul_val x s Fx Fs (Rle_trans _ _ _ L (M2 x Hx))) as [G V]. split; [exact G|]. rewrite V. split; [reflexivity|].
    apply rnd_abs_le; [apply generic_format_abs, fmt_B|exact L]. }
  destruct (P a t1 Fa F1 Ha R1) as (Gp & Vp & Lp). destruct (P b t Fb Ft Hb Ht) as (Gq & Vq & Lq).
  set (p := fmul B64 a t1 : b64) in *. set (q := fmul B64 b t : b64) in *.
  destruct (fadd_val p q Gp Gq) as [G V].
  { apply Rle_trans with (1 := Rabs_triang _ _). change 1023%Z with (1 + 1022)%Z. rewrite bpow_plus. change (bp 1) with 2. lra. }
  split; [exact G|]. unfold r. change (fadd B64 (fmul B64 a (fsub B64 (fofZ B64 1) t)) (fmul B64 b t)) with (fadd B64 p q).
  rewrite V. apply (interp_real _ _ _ (B2R t1) (B2R p) (B2R q)); auto.
  - apply Rlt_le, eta_pos.
  - rewrite Vp. apply rnd_any.
  - rewrite Vq. apply rnd_any.
  - apply rnd_sum; apply fmt_B.
Qed.

(* operations whose exact result is a float never overflow *)
Lemma fmul_exact (x y : b64) (r : b64) : is_finite x = true -> is_finite y = true -> is_finite r = true -> B2R x * B2R y = B2R r ->
  is_finite (fmul B64 x y : b64) = true /\ B2R (fmul B64 x y : b64) = B2R r.
Proof.
  intros Fx Fy Fr E. pose proof (Bmult_correct 53 1024 b64_prec b64_pe mode_NE x y) as C. rewrite E in C. rewrite (rndF_id (B2R r)) in C by apply fmt_B.
  rewrite Rlt_bool_true in C by (apply abs_B2R_lt_emax). destruct C as (C1 & C2 & _). rewrite Fx, Fy in C2. auto.
Qed.
Lemma fadd_exact (x y : b64) (r : b64) : is_finite x = true -> is_finite y = true -> is_finite r = true -> B2R x + B2R y = B2R r ->
  is_finite (fadd B64 x y : b64) = true /\ B2R (fadd B64 x y : b64) = B2R r.
Proof.
  intros Fx Fy Fr E. pose proof (Bplus_correct 53 1024 b64_prec b64_pe mode_NE x y Fx Fy) as C. rewrite E in C. rewrite (rndF_id (B2R r)) in C by apply fmt_B.
  rewrite Rlt_bool_true in C by (apply abs_B2R_lt_emax). destruct C as (C1 & C2 & _). auto.
Qed.
Lemma interp_end (a b t s r : b64) : is_finite a = true -> is_finite b = true -> is_finite t = true -> is_finite s = true -> is_finite r = true ->
  (B2R s = 1 /\ B2R t = 0 /\ r = a) \/ (B2R s = 0 /\ B2R t = 1 /\ r = b) ->
  is_finite (fadd B64 (fmul B64 a s) (fmul B64 b t) : b64) = true /\ B2R (fadd B64 (fmul B64 a s) (fmul B64 b t) : b64) = B2R r.
Proof.
  intros Fa Fb Ft Fs Fr H. assert (F0 : is_finite (fofZ B64 0 : b64) = true) by reflexivity. assert (R0 : B2R (fofZ B64 0 : b64) = 0) by reflexivity.
  destruct H as [(S & T & ->)|(S & T & ->)].
  - destruct (fmul_exact a s a Fa Fs Fa ltac:(rewrite S; ring)) as [G1 V1]. destruct (fmul_exact b t (fofZ B64 0) Fb Ft F0 ltac:(rewrite T, R0; ring)) as [G2 V2].
    apply fadd_exact; auto. rewrite V1, V2, R0. ring.
  - destruct (fmul_exact a s (fofZ B64 0) Fa Fs F0 ltac:(rewrite S, R0; ring)) as [G1 V1]. destruct (fmul_exact b t b Fb Ft Fb ltac:(rewrite T; ring)) as [G2 V2].
    apply fadd_exact; auto. rewrite V1, V2, R0. ring.
Qed.
Lemma giv_interpolate (v b : vec B64) (d : B64) : GetInterpolationVector v b d = Interpolate b v d.
Proof. unfold GetInterpolationVector, Interpolate. f_equal; apply fadd_comm. Qed.

(** ** four equal numbers add up to four times the number *)
Lemma near_even x n : Z.even n = true -> Rabs (x - IZR n) <= / 2 -> ZnearestE x = n.
Proof.
  intros E H. destruct (Rle_lt_or_eq_dec _ _ H) as [L|L]; [apply Znearest_imp; exact L|].
  unfold Rabs in L. destruct (Rcase_abs (x - IZR n)) as [N|N].
  - assert (X : x = IZR (n - 1) + / 2) by (rewrite minus_IZR; lra). unfold Znearest.
    assert (F : Zfloor x = (n - 1)%Z) by (apply Zfloor_imp; rewrite plus_IZR; lra). rewrite F. rewrite Rcompare_Eq by lra.
    assert (O : Z.even (n - 1) = false) by (rewrite Z.even_sub, E; reflexivity). rewrite O. cbn [negb].
    apply Zceil_imp. lra.
  - assert (X : x = IZR n + / 2) by lra. unfold Znearest.
    assert (F : Zfloor x = n) by (apply Zfloor_imp; rewrite plus_IZR; lra). rewrite F. rewrite Rcompare_Eq by lra. rewrite E. reflexivity.
Qed.
Lemma rnd_pow n k j : (0 <= j)%Z -> (2 ^ (52 + j) <= n < 2 ^ (53 + j))%Z -> (-1074 <= k)%Z ->
  rndF (IZR n * bp k) = IZR (ZnearestE (IZR n * bp (- j))) * bp (k + j).
Proof.
  intros Hj [H1 H2] Hk. assert (N : (0 < n)%Z) by (pose proof (Z.pow_pos_nonneg 2 (52 + j) ltac:(lia) ltac:(lia)); lia).
  assert (C : cexp radix2 (SpecFloat.fexp 53 1024) (IZR n * bp k) = (k + j)%Z).
  { unfold cexp. rewrite (mag_unique_pos radix2 _ (53 + j + k)).
    - change (SpecFloat.fexp 53 1024) with (FLT_exp (-1074) 53). unfold FLT_exp. lia.
    - replace (53 + j + k - 1)%Z with (52 + j + k)%Z by lia. rewrite !(bpow_plus _ (_ + j) k). rewrite <- (IZR_Zpower radix2 (52 + j)), <- (IZR_Zpower radix2 (53 + j)) by lia. pose proof (bpow_gt_0 radix2 k).
      split; [apply Rmult_le_compat_r; [lra|]; apply IZR_le; exact H1|apply Rmult_lt_compat_r; [lra|]; apply IZR_lt; exact H2]. }
  unfold round, scaled_mantissa. rewrite C. unfold F2R. cbn [Fnum Fexp round_mode]. f_equal. f_equal. f_equal.
  rewrite Rmult_assoc, <- bpow_plus. f_equal. f_equal. lia.
Qed.
Lemma fmt_small n k : (Z.abs n <= 2 ^ 53)%Z -> (-1074 <= k)%Z -> fmt (IZR n * bp k).
Proof.
  intros Hn Hk. destruct (Z.eq_dec (Z.abs n) (2 ^ 53)) as [E|NE].
  - assert (F : fmt (bp (53 + k))) by (apply generic_format_bpow; change (SpecFloat.fexp 53 1024) with (FLT_exp (-1074) 53); unfold FLT_exp; lia).
    rewrite bpow_plus in F. destruct (Z.abs_spec n) as [[_ Q]|[_ Q]].
    + replace (IZR n) with (bp 53); [exact F|]. rewrite <- (IZR_Zpower radix2) by lia. f_equal. change (radix2 ^ 53)%Z with (2 ^ 53)%Z. lia.
    + replace (IZR n * bp k) with (- (bp 53 * bp k)); [apply generic_format_opp; exact F|].
      rewrite <- (IZR_Zpower radix2) by lia. replace n with (- 2 ^ 53)%Z by lia. rewrite opp_IZR. change (radix2 ^ 53)%Z with (2 ^ 53)%Z. ring.
  - change (SpecFloat.fexp 53 1024) with (FLT_exp (-1074) 53). apply generic_format_FLT. exists (Float radix2 n k); simpl; auto. change (2 ^ 53)%Z with (Z.pow_pos 2 53) in *. lia.
Qed.
Lemma IZR_pow2 j : (0 <= j)%Z -> IZR (2 ^ j) = bp j. Proof. exact (IZR_Zpower radix2 j). Qed.
Ltac kz := change (52 + 1)%Z with 53%Z; change (53 + 1)%Z with 54%Z; change (52 + 2)%Z with 54%Z; change (53 + 2)%Z with 55%Z; change (2 ^ 1)%Z with 2%Z; change (2 ^ 2)%Z with 4%Z.
Lemma sum_four_pos m k : (0 <= m < 2 ^ 53)%Z -> (-1074 <= k)%Z -> (2 ^ 52 <= m \/ k = -1074)%Z ->
  rndF (rndF (IZR (3 * m) * bp k) + IZR m * bp k) = IZR (4 * m) * bp k.
Proof.
  intros Hm Hk Hc.
  assert (Q : forall j, bp (- j) * bp j = 1) by (intros j; rewrite <- bpow_plus; replace (- j + j)%Z with 0%Z by lia; reflexivity).
  assert (B1 : bp 1 = 2) by reflexivity. assert (B2 : bp 2 = 4) by reflexivity. assert (B1' : bp (-1) = / 2) by reflexivity. assert (B2' : bp (-2) = / 4) by reflexivity.
  (* the general step: 3m rounded to a multiple 2^j N *)
  assert (G : forall j f, (0 <= j <= 2)%Z -> rndF (IZR (3 * m) * bp k) = IZR (3 * m - f) * bp k ->
     (2 ^ (52 + j) <= 4 * m - f < 2 ^ (53 + j))%Z -> (exists w, (4 * m = 2 ^ j * w)%Z /\ ((2 * Z.abs f < 2 ^ j)%Z \/ (Z.even w = true /\ (2 * Z.abs f <= 2 ^ j)%Z))) ->
     rndF (rndF (IZR (3 * m) * bp k) + IZR m * bp k) = IZR (4 * m) * bp k).
  { intros j f Hj E R (w & Hw & Hf). rewrite E. rewrite <- Rmult_plus_distr_r, <- plus_IZR. replace (3 * m - f + m)%Z with (4 * m - f)%Z by lia.
    rewrite (rnd_pow (4 * m - f) k j) by (auto; lia).
    assert (D : Rabs (IZR (4 * m - f) * bp (- j) - IZR w) = Rabs (IZR f) * bp (- j)).
    { rewrite minus_IZR, Hw, mult_IZR, (IZR_pow2 j) by lia.
      replace ((bp j * IZR w - IZR f) * bp (- j) - IZR w) with (IZR w * (bp (- j) * bp j - 1) - IZR f * bp (- j)) by ring. rewrite Q.
      replace (IZR w * (1 - 1) - IZR f * bp (- j)) with (- (IZR f * bp (- j))) by ring. rewrite Rabs_Ropp, Rabs_mult, (Rabs_pos_eq (bp (- j))) by apply bpow_ge_0. reflexivity. }
    assert (W : ZnearestE (IZR (4 * m - f) * bp (- j)) = w).
    { destruct Hf as [Hf|[Ew Hf]]; [apply Znearest_imp|apply near_even; [exact Ew|]]; rewrite D, <- abs_IZR.
      - apply (Rmult_lt_reg_r (bp j)); [apply bpow_gt_0|]. rewrite Rmult_assoc, Q, Rmult_1_r.
        apply IZR_lt in Hf. rewrite mult_IZR, (IZR_pow2 j) in Hf by lia. lra.
      - apply (Rmult_le_reg_r (bp j)); [apply bpow_gt_0|]. rewrite Rmult_assoc, Q, Rmult_1_r.
        apply IZR_le in Hf. rewrite mult_IZR, (IZR_pow2 j) in Hf by lia. lra. }
    rewrite W, Hw, mult_IZR, (IZR_pow2 j), bpow_plus by lia. ring. }
  assert (S3 : forall j, (0 <= j)%Z -> (2 ^ (52 + j) <= 3 * m < 2 ^ (53 + j))%Z ->
     exists N, rndF (IZR (3 * m) * bp k) = IZR (2 ^ j * N) * bp k /\ (2 * Z.abs (3 * m - 2 ^ j * N) <= 2 ^ j)%Z).
  { intros j Hj R. rewrite (rnd_pow (3 * m) k j) by auto. exists (ZnearestE (IZR (3 * m) * bp (- j))). split.
    - rewrite bpow_plus, (mult_IZR (2 ^ j)), (IZR_pow2 j) by lia. ring.
    - set (N := ZnearestE _). assert (H : Rabs (IZR (3 * m) * bp (- j) - IZR N) <= / 2) by apply Znearest_half.
      apply le_IZR. rewrite mult_IZR, abs_IZR, minus_IZR, (mult_IZR (2 ^ j)), (IZR_pow2 j) by lia.
      replace (IZR (3 * m) - bp j * IZR N) with (bp j * (IZR (3 * m) * bp (- j) - IZR N) + IZR (3 * m) * (1 - bp (- j) * bp j)) by ring. rewrite Q.
      replace (bp j * (IZR (3 * m) * bp (- j) - IZR N) + IZR (3 * m) * (1 - 1)) with (bp j * (IZR (3 * m) * bp (- j) - IZR N)) by ring.
      rewrite Rabs_mult, (Rabs_pos_eq (bp j)) by apply bpow_ge_0. pose proof (bpow_gt_0 radix2 j).
      assert (bp j * Rabs (IZR (3 * m) * bp (- j) - IZR N) <= bp j * / 2) by (apply Rmult_le_compat_l; lra). lra. }
  destruct (Z_lt_le_dec (3 * m) (2 ^ 53)) as [L|L].
  - rewrite (rndF_id (IZR (3 * m) * bp k)) by (apply fmt_small; lia). rewrite <- Rmult_plus_distr_r, <- plus_IZR. replace (3 * m + m)%Z with (4 * m)%Z by lia.
    apply rndF_id. replace (IZR (4 * m) * bp k) with (IZR m * bp (k + 2)) by (rewrite bpow_plus, B2, mult_IZR; ring). apply fmt_small; lia.
  - destruct (Z_lt_le_dec (3 * m) (2 ^ 54)) as [L'|L'].
    + destruct (S3 1%Z ltac:(lia) ltac:(kz; lia)) as (N & E & HN). change (2 ^ 1)%Z with 2%Z in *.
      destruct (Z_lt_le_dec m (2 ^ 52)) as [Ms|Ms].
      * apply (G 1%Z (3 * m - 2 * N)%Z); try (kz; lia). { rewrite E. f_equal. f_equal. lia. }
        exists (2 * m)%Z. kz. split; [lia|]. right. split; [apply Z.even_mul|]. lia.
      * apply (G 2%Z (3 * m - 2 * N)%Z); try (kz; lia). { rewrite E. f_equal. f_equal. lia. }
        exists m. kz. split; [lia|]. left. lia.
    + destruct (S3 2%Z ltac:(lia) ltac:(kz; lia)) as (N & E & HN). change (2 ^ 2)%Z with 4%Z in *.
      apply (G 2%Z (3 * m - 4 * N)%Z); try (kz; lia). { rewrite E. f_equal. f_equal. lia. }
      exists m. kz. split; [lia|]. destruct (Z_lt_le_dec (2 * Z.abs (3 * m - 4 * N)) 4) as [X|X]; [left; exact X|right]. split; [|exact HN].
      rewrite Z.even_spec. assert (C : (3 * m - 4 * N = 2 \/ 3 * m - 4 * N = -2)%Z) by lia. destruct C; [exists (2 * N + 1 - m)%Z|exists (2 * N - 1 - m)%Z]; lia.
Qed.
Lemma b64_parts (x : b64) : is_finite x = true -> exists m k, (0 <= m < 2 ^ 53)%Z /\ (-1074 <= k)%Z /\ (2 ^ 52 <= m \/ k = -1074)%Z /\
  (B2R x = IZR m * bp k \/ B2R x = - (IZR m * bp k)).
Proof.
  destruct x as [s|s| |s m e B]; intros H; try discriminate.
  { exists 0%Z, (-1074)%Z. split; [lia|]. split; [lia|]. split; [lia|]. left. simpl. ring. }
  exists (Zpos m), e. pose proof B as B'. unfold SpecFloat.bounded in B'. apply andb_prop in B'. destruct B' as [B' _]. apply Zeq_bool_eq in B'. rewrite Digits.Zpos_digits2_pos in B'.
  pose proof (Digits.Zdigits_correct radix2 (Zpos m)) as D. set (d := Digits.Zdigits radix2 (Zpos m)) in *. rewrite Z.abs_eq in D by lia.
  change (Zpower radix2) with (Z.pow 2) in D. unfold SpecFloat.fexp, SpecFloat.emin in B'.
  assert (d0 : (0 < d)%Z) by (apply Digits.Zdigits_gt_0; lia).
  assert (P : (2 ^ d <= 2 ^ 53)%Z) by (apply Z.pow_le_mono_r; lia).
  split; [lia|]. split; [lia|]. split.
  - destruct (Z.eq_dec e (-1074)) as [E|E]; [right; exact E|left]. assert (d = 53)%Z by lia. rewrite H0 in D. simpl in D |- *. lia.
  - cbn [B2R]. unfold F2R. cbn [Fnum Fexp]. destruct s; cbn [cond_Zopp]; [right|left; reflexivity].
    change (Z.neg m) with (- Z.pos m)%Z. rewrite opp_IZR. ring.
Qed.
Lemma rndF_opp x : rndF (- x) = - rndF x. Proof. apply round_NE_opp. Qed.
Lemma sum_four (x : b64) : is_finite x = true -> rndF (rndF (rndF (B2R x + B2R x) + B2R x) + B2R x) = 4 * B2R x.
Proof.
  intros F. destruct (b64_parts x F) as (m & k & Hm & Hk & Hc & E).
  assert (X : forall y, y = IZR m * bp k -> rndF (rndF (rndF (y + y) + y) + y) = 4 * y).
  { intros y ->. replace (IZR m * bp k + IZR m * bp k) with (IZR m * bp (k + 1)) by (rewrite bpow_plus; change (bp 1) with 2; ring).
    rewrite (rndF_id (IZR m * bp (k + 1))) by (apply fmt_small; lia).
    replace (IZR m * bp (k + 1) + IZR m * bp k) with (IZR (3 * m) * bp k) by (rewrite bpow_plus, mult_IZR; change (bp 1) with 2; ring).
    rewrite sum_four_pos by auto. rewrite mult_IZR. ring. }
  destruct E as [E|E]; [apply X; exact E|]. pose proof (X (- B2R x) ltac:(lra)) as Y.
  replace (- B2R x + - B2R x) with (- (B2R x + B2R x)) in Y by ring. rewrite rndF_opp in Y.
  replace (- rndF (B2R x + B2R x) + - B2R x) with (- (rndF (B2R x + B2R x) + B2R x)) in Y by ring. rewrite rndF_opp in Y.
  replace (- rndF (rndF (B2R x + B2R x) + B2R x) + - B2R x) with (- (rndF (rndF (B2R x + B2R x) + B2R x) + B2R x)) in Y by ring. rewrite rndF_opp in Y. lra.
Qed.

(** ** findCentroid: one coordinate *)
Definition mean4 (a b c d : B64) : B64 := fdiv B64 (fadd B64 (fadd B64 (fadd B64 a b) c) d) (fofZ B64 4).
Lemma four_R : is_finite (fofZ B64 4 : b64) = true /\ B2R (fofZ B64 4 : b64) = 4.
Proof. split; [reflexivity|]. cbn. unfold Defs.F2R. cbn. lra. Qed.
Lemma fdiv4 (x : b64) : is_finite x = true -> Rabs (B2R x) <= bp 1023 ->
  is_finite (fdiv B64 x (fofZ B64 4) : b64) = true /\ B2R (fdiv B64 x (fofZ B64 4) : b64) = rndF (B2R x / 4).
Proof.
  intros F H. destruct four_R as [F4 R4]. pose proof (Bdiv_correct 53 1024 b64_prec b64_pe mode_NE x (fofZ B64 4)) as C.
  rewrite R4 in C. specialize (C ltac:(lra)). rewrite no_over in C.
  - destruct C as (C1 & C2 & _). rewrite F in C2. auto.
  - unfold Rdiv. rewrite Rabs_mult, (Rabs_pos_eq (/ 4)) by lra. pose proof (Rabs_pos (B2R x)). lra.
Qed.
(* the intermediate sums: values, and bounds by the sums of M *)
Lemma mean4_vals (a b c d : b64) : is_finite a = true -> is_finite b = true -> is_finite c = true -> is_finite d = true ->
  Rabs (B2R a) <= bp 1021 -> Rabs (B2R b) <= bp 1021 -> Rabs (B2R c) <= bp 1021 -> Rabs (B2R d) <= bp 1021 ->
  let s := rndF (rndF (rndF (B2R a + B2R b) + B2R c) + B2R d) in is_finite (mean4 a b c d : b64) = true /\ B2R (mean4 a b c d : b64) = rndF (s / 4).
Proof.
  intros Fa Fb Fc Fd Ha Hb Hc Hd s. unfold mean4.
  assert (B : forall k, (-1000 <= k)%Z -> fmt (bp k)) by (intros k Hk; apply fmt_bp; lia).
  assert (E2 : bp 1022 = 2 * bp 1021) by (change 1022%Z with (1 + 1021)%Z; rewrite bpow_plus; reflexivity).
  assert (E3 : bp 1023 = 4 * bp 1021) by (change 1023%Z with (2 + 1021)%Z; rewrite bpow_plus; reflexivity).
  pose proof (bpow_gt_0 radix2 1021) as P.
  assert (L1 : Rabs (B2R a + B2R b) <= bp 1022) by (apply Rle_trans with (1 := Rabs_triang _ _); lra).
  destruct (fadd_val a b Fa Fb ltac:(lra)) as [F1 V1]. assert (N1 : Rabs (B2R (fadd B64 a b : b64)) <= bp 1022) by (rewrite V1; apply rnd_abs_le; auto; apply B; lia).
  assert (T3 : fmt (3 * bp 1021)) by (replace (3 * bp 1021) with (IZR 3 * bp 1021) by (simpl; ring); apply fmt_small; lia).
  assert (L2 : Rabs (B2R (fadd B64 a b : b64) + B2R c) <= 3 * bp 1021) by (apply Rle_trans with (1 := Rabs_triang _ _); lra).
  destruct (fadd_val (fadd B64 a b) c F1 Fc ltac:(lra)) as [F2 V2]. assert (N2 : Rabs (B2R (fadd B64 (fadd B64 a b) c : b64)) <= 3 * bp 1021) by (rewrite V2; apply rnd_abs_le; auto).
  assert (L3 : Rabs (B2R (fadd B64 (fadd B64 a b) c : b64) + B2R d) <= bp 1023) by (apply Rle_trans with (1 := Rabs_triang _ _); lra).
  destruct (fadd_val (fadd B64 (fadd B64 a b) c) d F2 Fd L3) as [F3 V3]. assert (N3 : Rabs (B2R (fadd B64 (fadd B64 (fadd B64 a b) c) d : b64)) <= bp 1023) by (rewrite V3; apply rnd_abs_le; auto; apply B; lia).
  destruct (fdiv4 _ F3 N3) as [F4 V4]. split; [exact F4|]. rewrite V4, V3, V2, V1. reflexivity.
Qed.
Lemma chain4 a b c d x y z w : a <= x -> b <= y -> c <= z -> d <= w -> rndF (rndF (rndF (a + b) + c) + d) <= rndF (rndF (rndF (x + y) + z) + w).
Proof. intros. apply rndF_mono. apply Rplus_le_compat; [|auto]. apply rndF_mono. apply Rplus_le_compat; [|auto]. apply rndF_mono. lra. Qed.
Lemma mean4_box (a b c d lo hi : b64) : is_finite a = true -> is_finite b = true -> is_finite c = true -> is_finite d = true ->
  Rabs (B2R a) <= bp 1021 -> Rabs (B2R b) <= bp 1021 -> Rabs (B2R c) <= bp 1021 -> Rabs (B2R d) <= bp 1021 ->
  is_finite lo = true -> is_finite hi = true ->
  (forall x, x = a \/ x = b \/ x = c \/ x = d -> B2R lo <= B2R x <= B2R hi) ->
  is_finite (mean4 a b c d : b64) = true /\ B2R lo <= B2R (mean4 a b c d : b64) <= B2R hi.
Proof.
  intros Fa Fb Fc Fd Ha Hb Hc Hd Fl Fh H. destruct (mean4_vals a b c d Fa Fb Fc Fd Ha Hb Hc Hd) as [F V]. split; [exact F|]. rewrite V.
  pose proof (H a ltac:(auto)). pose proof (H b ltac:(auto)). pose proof (H c ltac:(auto)). pose proof (H d ltac:(auto)).
  pose proof (chain4 (B2R lo) (B2R lo) (B2R lo) (B2R lo) (B2R a) (B2R b) (B2R c) (B2R d) ltac:(lra) ltac:(lra) ltac:(lra) ltac:(lra)) as L. rewrite sum_four in L by auto.
  pose proof (chain4 (B2R a) (B2R b) (B2R c) (B2R d) (B2R hi) (B2R hi) (B2R hi) (B2R hi) ltac:(lra) ltac:(lra) ltac:(lra) ltac:(lra)) as U. rewrite sum_four in U by auto.
  set (s := rndF (rndF (rndF (B2R a + B2R b) + B2R c) + B2R d)) in *. split; [apply rndF_ge; [apply fmt_B|lra]|apply rndF_le; [apply fmt_B|lra]].
Qed.
Lemma mean4_acc (a b c d : b64) M : is_finite a = true -> is_finite b = true -> is_finite c = true -> is_finite d = true ->
  Rabs (B2R a) <= M -> Rabs (B2R b) <= M -> Rabs (B2R c) <= M -> Rabs (B2R d) <= M -> M <= bp 1021 ->
  is_finite (mean4 a b c d : b64) = true /\ Rabs (B2R (mean4 a b c d : b64) - (B2R a + B2R b + B2R c + B2R d) / 4) <= 4 * u * M + eta.
Proof.
  intros Fa Fb Fc Fd Ha Hb Hc Hd HM.
  destruct (mean4_vals a b c d Fa Fb Fc Fd ltac:(lra) ltac:(lra) ltac:(lra) ltac:(lra)) as [F V]. split; [exact F|]. rewrite V.
  set (s1 := rndF (B2R a + B2R b)). set (s2 := rndF (s1 + B2R c)). set (s3 := rndF (s2 + B2R d)).
  assert (G : forall x, fmt (rndF x)) by (intros x; apply generic_format_round; typeclasses eauto).
  pose proof (rnd_sum _ _ (fmt_B a) (fmt_B b)) as E1. fold s1 in E1. pose proof (rnd_sum _ _ (G (B2R a + B2R b)) (fmt_B c)) as E2. fold s1 s2 in E2.
  pose proof (rnd_sum _ _ (G (s1 + B2R c)) (fmt_B d)) as E3. fold s2 s3 in E3. pose proof (rnd_any (s3 / 4)) as E4.
  pose proof u_pos as U. pose proof eta_pos as EP. set (A := B2R a) in *. set (B := B2R b) in *. set (C := B2R c) in *. set (D := B2R d) in *.
  assert (M0 : 0 <= M) by (pose proof (Rabs_pos A); lra). assert (UM : 0 <= u * M) by (apply Rmult_le_pos; lra).
  assert (UU : u * (u * M) <= / 1000 * (u * M)) by (apply Rmult_le_compat_r; lra).
  assert (B1 : Rabs (A + B) <= 2 * M) by (apply Rle_trans with (1 := Rabs_triang _ _); lra).
  assert (X1 : Rabs (s1 - (A + B)) <= 2 * (u * M)). { apply Rle_trans with (1 := E1). apply Rle_trans with (u * (2 * M)); [apply Rmult_le_compat_l; lra|right; ring]. }
  pose proof (abs_split _ _ _ X1) as Y1.
  assert (B2 : Rabs (s1 + C) <= 3 * M + 2 * (u * M)) by (apply Rle_trans with (1 := Rabs_triang _ _); lra).
  assert (X2 : Rabs (s2 - (s1 + C)) <= 3 * (u * M) + / 100 * (u * M)).
  { apply Rle_trans with (1 := E2). apply Rle_trans with (u * (3 * M + 2 * (u * M))); [apply Rmult_le_compat_l; lra|].
    replace (u * (3 * M + 2 * (u * M))) with (3 * (u * M) + 2 * (u * (u * M))) by ring. lra. }
  pose proof (abs_split _ _ _ X2) as Y2.
  assert (B3 : Rabs (s2 + D) <= 4 * M + 6 * (u * M)) by (apply Rle_trans with (1 := Rabs_triang _ _); lra).
  assert (X3 : Rabs (s3 - (s2 + D)) <= 4 * (u * M) + / 100 * (u * M)).
  { apply Rle_trans with (1 := E3). apply Rle_trans with (u * (4 * M + 6 * (u * M))); [apply Rmult_le_compat_l; lra|].
    replace (u * (4 * M + 6 * (u * M))) with (4 * (u * M) + 6 * (u * (u * M))) by ring. lra. }
  assert (X : Rabs (s3 - (A + B + C + D)) <= 9 * (u * M) + / 50 * (u * M)).
  { replace (s3 - (A + B + C + D)) with ((s3 - (s2 + D)) + ((s2 - (s1 + C)) + (s1 - (A + B)))) by ring.
    apply Rle_trans with (1 := Rabs_triang _ _). pose proof (Rabs_triang (s2 - (s1 + C)) (s1 - (A + B))). lra. }
  assert (B4 : Rabs (s3 / 4) <= M + 3 * (u * M)).
  { unfold Rdiv. rewrite Rabs_mult, (Rabs_pos_eq (/ 4)) by lra. pose proof (abs_split _ _ _ X3). lra. }
  assert (X4 : Rabs (rndF (s3 / 4) - s3 / 4) <= u * M + / 100 * (u * M) + eta).
  { apply Rle_trans with (1 := E4). assert (u * Rabs (s3 / 4) <= u * (M + 3 * (u * M))) by (apply Rmult_le_compat_l; lra).
    replace (u * (M + 3 * (u * M))) with (u * M + 3 * (u * (u * M))) in H by ring. lra. }
  replace (rndF (s3 / 4) - (A + B + C + D) / 4) with ((rndF (s3 / 4) - s3 / 4) + (s3 - (A + B + C + D)) * / 4) by (field).
  apply Rle_trans with (1 := Rabs_triang _ _). rewrite Rabs_mult, (Rabs_pos_eq (/ 4)) by lra. lra.
Qed.
Lemma Bminus_exact_ends (t : b64) : is_finite t = true ->
  (B2R t = 0 -> B2R (fsub B64 (fofZ B64 1) t : b64) = 1) /\ (B2R t = 1 -> B2R (fsub B64 (fofZ B64 1) t : b64) = 0).
Proof.
  intros F. destruct one_R as [F1 R1]. split; intros T; destruct (fsub_val (fofZ B64 1 : b64) t F1 F) as [_ V]; rewrite R1, T in *.
  - replace (1 - 0) with 1 by ring. rewrite Rabs_R1. change 1 with (bp 0) at 1. apply bpow_le. lia.
  - rewrite V. replace (1 - 0) with (B2R (fofZ B64 1 : b64)) by (rewrite R1; ring). rewrite rndF_id by apply fmt_B. exact R1.
  - replace (1 - 1) with 0 by ring. rewrite Rabs_R0. apply bpow_ge_0.
  - rewrite V. replace (1 - 1) with 0 by ring. apply round_0. typeclasses eauto.
Qed.
