(** pseudoAngle and hashKey in binary64: the key is always a valid index, unless the point is the center. *)
From Coq Require Import Reals Lra Lia ZArith QArith Bool.
From Flocq Require Import Core Relative Plus_error BinarySingleNaN.
From Verif Require Import Base Arith M_r3 M_tri2 P_insphere_err P_insphere_b64 P_b64sc.
Open Scope R_scope.
Notation fmt := (generic_format radix2 (SpecFloat.fexp 53 1024)).
Local Instance vexp : Valid_exp (SpecFloat.fexp 53 1024) := fexp_correct 53 1024 b64_prec.
Local Instance mexp : Monotone_exp (SpecFloat.fexp 53 1024) := fexp_monotone 53 1024.

Lemma fmt_B (x : b64) : fmt (B2R x). Proof. apply generic_format_B2R. Qed.
Lemma fmt_Z k : (Z.abs k <= 2 ^ 53)%Z -> fmt (IZR k).
Proof.
  intros H. change (SpecFloat.fexp 53 1024) with (FLT_exp (-1074) 53). apply generic_format_FLT. destruct (Z.eq_dec (Z.abs k) (2 ^ 53)) as [E|NE].
  - destruct (Z.abs_spec k) as [[_ Q]|[_ Q]].
    + exists (Float radix2 1 53); [|simpl; lia|simpl; lia]. replace k with (2 ^ 53)%Z by lia. unfold F2R; simpl. lra.
    + exists (Float radix2 (-1) 53); [|simpl; lia|simpl; lia]. replace k with (- 2 ^ 53)%Z by lia. unfold F2R; simpl. lra.
  - exists (Float radix2 k 0).
    + unfold F2R; simpl. ring.
    + simpl. change (Z.pow_pos 2 53) with (2 ^ 53)%Z. lia.
    + simpl. lia.
Qed.
Lemma rndF_id r : fmt r -> rndF r = r. Proof. intros H. apply round_generic; auto. apply valid_rnd_round_mode. Qed.
Lemma rndF_mono x y : x <= y -> rndF x <= rndF y.
Proof. apply round_le; [typeclasses eauto|apply valid_rnd_round_mode]. Qed.
Lemma rndF_ge k x : fmt k -> k <= x -> k <= rndF x.
Proof. intros F H. rewrite <- (rndF_id k F). apply rndF_mono; auto. Qed.
Lemma rndF_le k x : fmt k -> x <= k -> rndF x <= k.
Proof. intros F H. rewrite <- (rndF_id k F). apply rndF_mono; auto. Qed.
Lemma bp1024 : bp 53 < bp 1024. Proof. apply bpow_lt; lia. Qed.

(** finite float with value r *)
Definition fr (x : b64) (r : R) : Prop := is_finite x = true /\ B2R x = r.
Lemma small_lt r : Rabs r <= bp 53 -> Rlt_bool (Rabs (rndF r)) (bp 1024) = true.
Proof.
  intros H. apply Rlt_bool_true. apply Rle_lt_trans with (bp 53); [|apply bp1024].
  apply abs_round_le_generic; auto; try typeclasses eauto.
  change (bp 53) with (IZR (2 ^ 53)). apply fmt_Z. simpl. lia.
Qed.
Lemma fr_add x r y s : fr x r -> fr y s -> Rabs (r + s) <= bp 53 -> fr (fadd B64 x y) (rndF (r + s)).
Proof.
  intros [Fx <-] [Fy <-] H. pose proof (Bplus_correct 53 1024 b64_prec b64_pe mode_NE x y Fx Fy) as C.
  rewrite small_lt in C by auto. destruct C as (C1 & C2 & _). split; auto.
Qed.
Lemma fr_sub x r y s : fr x r -> fr y s -> Rabs (r - s) <= bp 53 -> fr (fsub B64 x y) (rndF (r - s)).
Proof.
  intros [Fx <-] [Fy <-] H. pose proof (Bminus_correct 53 1024 b64_prec b64_pe mode_NE x y Fx Fy) as C.
  rewrite small_lt in C by auto. destruct C as (C1 & C2 & _). split; auto.
Qed.
Lemma fr_mul x r y s : fr x r -> fr y s -> Rabs (r * s) <= bp 53 -> fr (fmul B64 x y) (rndF (r * s)).
Proof.
  intros [Fx <-] [Fy <-] H. pose proof (Bmult_correct 53 1024 b64_prec b64_pe mode_NE x y) as C.
  rewrite small_lt in C by auto. destruct C as (C1 & C2 & _). rewrite Fx, Fy in C2. split; auto.
Qed.
Lemma fr_div x r y s : fr x r -> fr y s -> s <> 0 -> Rabs (r / s) <= bp 53 -> fr (fdiv B64 x y) (rndF (r / s)).
Proof.
  intros [Fx <-] [Fy <-] Hs H. pose proof (Bdiv_correct 53 1024 b64_prec b64_pe mode_NE x y Hs) as C.
  rewrite small_lt in C by auto. destruct C as (C1 & C2 & _). rewrite Fx in C2. split; auto.
Qed.
Lemma fr_abs x r : fr x r -> fr (fabs B64 x) (Rabs r).
Proof. intros [Fx <-]. split; cbn; [rewrite is_finite_Babs; auto|apply B2R_Babs]. Qed.
Lemma fr_lt x r y s : fr x r -> fr y s -> flt B64 x y = Rltb r s.
Proof.
  intros [Fx <-] [Fy <-]. cbn [flt B64]. rewrite Bltb_correct by auto.
  destruct (Rltb_spec (B2R x) (B2R y)); [apply Rlt_bool_true|apply Rlt_bool_false]; auto.
Qed.
Lemma fr_eq x r y s : fr x r -> fr y s -> feq B64 x y = Reqb r s.
Proof.
  intros [Fx <-] [Fy <-]. cbn [feq B64]. rewrite Beqb_correct by auto.
  destruct (Reqb_spec (B2R x) (B2R y)); [apply Req_bool_true|apply Req_bool_false]; auto.
Qed.
Lemma fr_ofZ k : (Z.abs k <= 2 ^ 53)%Z -> fr (fofZ B64 k) (IZR k).
Proof.
  intros H. unfold fofZ, B64, b64_of_Z. pose proof (binary_normalize_correct 53 1024 b64_prec b64_pe mode_NE k 0 false) as C.
  cbv zeta in C. replace (F2R (Float radix2 k 0)) with (IZR k) in C by (unfold F2R; simpl; ring).
  rewrite small_lt in C.
  - destruct C as (C1 & C2 & _). split; auto. rewrite C1. apply rndF_id, fmt_Z, H.
  - change (bp 53) with (IZR (2 ^ 53)). rewrite <- abs_IZR. apply IZR_le, H.
Qed.
Lemma fr_min x r y s : fr x r -> fr y s -> fr (fminf B64 x y) (Rmin r s).
Proof.
  intros [Fx <-] [Fy <-]. assert (C : Bltb x y = true /\ Rmin (B2R x) (B2R y) = B2R x \/ Bltb x y = false /\ Rmin (B2R x) (B2R y) = B2R y).
  { rewrite Bltb_correct by auto. destruct (Rlt_bool_spec (B2R x) (B2R y)); [left|right]; split; auto; [apply Rmin_left|apply Rmin_right]; lra. }
  cbn [fminf B64]. unfold b64_min. destruct C as [[C E]|[C E]]; rewrite E;
  destruct x as [sx|[]| |sx mx ex Hx]; try discriminate; destruct y as [sy|[]| |sy my ey Hy]; try discriminate; try rewrite C; try (split; reflexivity); destruct sx; split; reflexivity.
Qed.
Lemma fr_max x r y s : fr x r -> fr y s -> fr (fmaxf B64 x y) (Rmax r s).
Proof.
  intros [Fx <-] [Fy <-]. assert (C : Bltb y x = true /\ Rmax (B2R x) (B2R y) = B2R x \/ Bltb y x = false /\ Rmax (B2R x) (B2R y) = B2R y).
  { rewrite Bltb_correct by auto. destruct (Rlt_bool_spec (B2R y) (B2R x)); [left|right]; split; auto; [apply Rmax_left|apply Rmax_right]; lra. }
  cbn [fmaxf B64]. unfold b64_max. destruct C as [[C E]|[C E]]; rewrite E;
  destruct x as [sx|[]| |sx mx ex Hx]; try discriminate; destruct y as [sy|[]| |sy my ey Hy]; try discriminate; try rewrite C; try (split; reflexivity); destruct sx; split; reflexivity.
Qed.
Definition cap : R := 1 - / 2 ^ 52.
Lemma fr_cap : fr (fsub B64 (fofZ B64 1) eps) cap.
Proof.
  assert (E : B2SF (fsub B64 (fofZ B64 1) eps) = SpecFloat.S754_finite false 9007199254740990 (-53)) by (vm_compute; reflexivity).
  split.
  - rewrite <- is_finite_SF_B2SF, E. reflexivity.
  - rewrite <- SF2R_B2SF, E. unfold cap. simpl. unfold F2R; simpl. lra.
Qed.

(** *** pseudoAngle *)
Lemma pseudoAngle_b64 (dx dy : b64) : is_finite dx = true -> is_finite dy = true -> B2R dx <> 0 \/ B2R dy <> 0 ->
  exists p, fr (pseudoAngle (A := B64) dx dy) p /\ 0 <= p <= cap.
Proof.
  intros Fx Fy Nz. unfold pseudoAngle.
  assert (Q : exists q, fr (fdiv B64 dx (fadd B64 (fabs B64 dx) (fabs B64 dy))) q /\ -1 <= q <= 1).
  { set (x := B2R dx). set (y := B2R dy).
    pose proof (fr_abs dx x (conj Fx eq_refl)) as [Gx Ex]. pose proof (fr_abs dy y (conj Fy eq_refl)) as [Gy Ey].
    pose proof (Bplus_correct 53 1024 b64_prec b64_pe mode_NE _ _ Gx Gy) as C.
    change (Bplus mode_NE (fabs B64 dx) (fabs B64 dy)) with (fadd B64 (fabs B64 dx) (fabs B64 dy)) in C.
    rewrite Ex, Ey in C. destruct (Rlt_bool _ _) in C.
    - destruct C as (C1 & C2 & _). set (s := fadd B64 _ _) in *. clearbody s.
      assert (Sx : Rabs x <= B2R s). { rewrite C1. apply rndF_ge; [apply generic_format_abs, fmt_B|]. pose proof (Rabs_pos y). lra. }
      assert (Sy : Rabs y <= B2R s). { rewrite C1. apply rndF_ge; [apply generic_format_abs, fmt_B|]. pose proof (Rabs_pos x). lra. }
      assert (Sp : 0 < B2R s).
      { destruct Nz as [N|N]; apply Rabs_pos_lt in N; [fold x in N|fold y in N]; lra. }
      assert (Dl : -1 <= x / B2R s <= 1).
      { pose proof (Rle_abs x). pose proof (Rle_abs (- x)) as L2. rewrite Rabs_Ropp in L2.
        split; apply (Rmult_le_reg_r (B2R s)); auto; unfold Rdiv; rewrite Rmult_assoc, Rinv_l by lra; lra. }
      exists (rndF (x / B2R s)). split.
      + apply fr_div; try (split; auto; fail); try lra. apply Rle_trans with 1; [apply Rabs_le; lra|]. change 1 with (bp 0). apply bpow_le. lia.
      + split; [apply rndF_ge|apply rndF_le]; try lra; [apply (fmt_Z (-1))|apply (fmt_Z 1)]; simpl; lia.
    - destruct C as [C _]. exists 0. split; [|lra].
      assert (S0 : Bsign (fabs B64 dx) = false).
      { destruct dx as [| | |]; try discriminate; reflexivity. }
      rewrite S0 in C. set (s := fadd B64 (fabs B64 dx) (fabs B64 dy)) in *. clearbody s.
      destruct s as [|[]| |]; try discriminate C.
      destruct dx; try discriminate; split; reflexivity. }
  destruct Q as (q & Hq & Bq). set (Q := fdiv B64 dx _) in *. clearbody Q.
  assert (B53 : forall r, -4 <= r <= 4 -> Rabs r <= bp 53).
  { intros r Hr. apply Rle_trans with 4; [apply Rabs_le; lra|]. change 4 with (bp 2). apply bpow_le. lia. }
  assert (P : exists p, fr (if flt B64 (fofZ B64 0) dy then fdiv B64 (fsub B64 (fofZ B64 3) Q) (fofZ B64 4)
       else fdiv B64 (fadd B64 (fofZ B64 1) Q) (fofZ B64 4)) p /\ 0 <= p).
  { destruct (flt B64 (fofZ B64 0) dy).
    - exists (rndF (rndF (3 - q) / 4)).
      assert (G : 2 <= rndF (3 - q) <= 4).
      { split; [apply rndF_ge|apply rndF_le]; try lra; [apply (fmt_Z 2)|apply (fmt_Z 4)]; simpl; lia. }
      split.
      + apply fr_div; [|apply fr_ofZ; simpl; lia|lra|apply B53; lra].
        apply fr_sub; auto; [apply fr_ofZ; simpl; lia|apply B53; lra].
      + apply rndF_ge; [apply (fmt_Z 0); simpl; lia|lra].
    - exists (rndF (rndF (1 + q) / 4)).
      assert (G : 0 <= rndF (1 + q) <= 2).
      { split; [apply rndF_ge|apply rndF_le]; try lra; [apply (fmt_Z 0)|apply (fmt_Z 2)]; simpl; lia. }
      split.
      + apply fr_div; [|apply fr_ofZ; simpl; lia|lra|apply B53; lra].
        apply fr_add; auto; [apply fr_ofZ; simpl; lia|apply B53; lra].
      + apply rndF_ge; [apply (fmt_Z 0); simpl; lia|lra]. }
  destruct P as (p & Hp & P0).
  exists (Rmax 0 (Rmin cap p)). split.
  - apply fr_max; [apply (fr_ofZ 0); simpl; lia|]. apply fr_min; [apply fr_cap|exact Hp].
  - assert (C0 : 0 <= cap) by (unfold cap; lra). split; [apply Rmax_l|]. apply Rmax_lub; auto. apply Rmin_l.
Qed.

Lemma toZ_fr x r (n : Z) : fr x r -> 0 <= r < IZR n -> (n <= 2 ^ 53)%Z -> (0 <= ftoZ B64 x < n)%Z.
Proof.
  intros [Fx <-] [L U] Hn. cbn [ftoZ B64]. pose proof (Btrunc_correct 53 1024 b64_pe x) as T.
  assert (E : IZR (Btrunc x) = IZR (Zfloor (B2R x))).
  { rewrite T. unfold round, F2R, scaled_mantissa, cexp, FIX_exp; simpl. rewrite !Rmult_1_r. rewrite Ztrunc_floor by auto. reflexivity. }
  apply eq_IZR in E. assert (Fl : (0 <= Zfloor (B2R x) < n)%Z).
  { split; [apply Zfloor_lub; auto|]. apply lt_IZR. pose proof (Zfloor_lb (B2R x)). lra. }
  assert (In64 : int64_fits (Btrunc x) = true).
  { unfold int64_fits. rewrite E. apply andb_true_iff. split; [apply Z.leb_le|apply Z.ltb_lt]; lia. }
  unfold b64_toZ. destruct x as [s|[]| |s m ex B]; try discriminate.
  - simpl in Fl, L, U. apply lt_IZR in U. lia.
  - rewrite In64, E. exact Fl.
Qed.
Lemma cap_mul (n : Z) : (0 < n <= 2 ^ 53)%Z -> rndF (cap * IZR n) < IZR n.
Proof.
  intros Hn. assert (N0 : 0 < IZR n) by (apply IZR_lt; lia).
  (* the predecessor of n *)
  set (f := SpecFloat.fexp 53 1024).
  assert (Fn : fmt (IZR n)) by (apply fmt_Z; lia).
  assert (Hu : ulp radix2 f (IZR n) <= IZR n * / 2 ^ 52).
  { rewrite ulp_neq_0 by lra. unfold cexp. assert (E : f (mag radix2 (IZR n)) = (mag radix2 (IZR n) - 53)%Z).
    { unfold f, SpecFloat.fexp, SpecFloat.emin. assert (1 <= mag radix2 (IZR n))%Z; [|lia].
      apply mag_ge_bpow. simpl. rewrite Rabs_pos_eq by lra. apply IZR_le. lia. }
    rewrite E. assert (bp (mag radix2 (IZR n) - 1) <= IZR n).
    { pose proof (bpow_mag_le radix2 (IZR n) ltac:(lra)) as Q. rewrite Rabs_pos_eq in Q by lra. exact Q. }
    replace (mag radix2 (IZR n) - 53)%Z with ((mag radix2 (IZR n) - 1) + (- 52))%Z by ring. rewrite bpow_plus.
    replace (bp (-52)) with (/ 2 ^ 52) by (simpl; lra). apply Rmult_le_compat_r; [lra|auto]. }
  apply Rle_lt_trans with (pred radix2 f (IZR n)).
  - apply rndF_le; [apply generic_format_pred; auto; typeclasses eauto|].
    apply Rle_trans with (IZR n - ulp radix2 f (IZR n)).
    + unfold cap. lra.
    + rewrite pred_eq_pos by lra. unfold pred_pos. destruct (Req_bool_spec (IZR n) (bp (mag radix2 (IZR n) - 1))) as [E|E]; [|lra].
      assert (bp (f (mag radix2 (IZR n) - 1)%Z) <= ulp radix2 f (IZR n)); [|lra].
      rewrite ulp_neq_0 by lra. unfold cexp. apply bpow_le. apply mexp. lia.
  - apply pred_lt_id. lra.
Qed.

(** the key is a valid index *)
Lemma hashKey_b64 (center v : vec B64) (n : Z) : (0 < n <= 2 ^ 53)%Z ->
  is_finite (vx v : b64) = true -> is_finite (vy v : b64) = true ->
  is_finite (vx center : b64) = true -> is_finite (vy center : b64) = true ->
  is_finite (vx (Sub v center) : b64) = true -> is_finite (vy (Sub v center) : b64) = true ->
  B2R (vx v : b64) <> B2R (vx center : b64) \/ B2R (vy v : b64) <> B2R (vy center : b64) ->
  (0 <= hashKey center n v < n)%Z.
Proof.
  intros Hn Fvx Fvy Fcx Fcy Fx Fy Ne. unfold hashKey.
  assert (G : forall a b : b64, is_finite a = true -> is_finite b = true -> is_finite (fsub B64 a b : b64) = true -> B2R a <> B2R b -> B2R (fsub B64 a b : b64) <> 0).
  { intros a b Fa Fb Fs N. pose proof (Bminus_correct 53 1024 b64_prec b64_pe mode_NE a b Fa Fb) as C.
    change (Bminus mode_NE a b) with (fsub B64 a b) in C. destruct (Rlt_bool _ _) in C.
    - destruct C as (C1 & _). rewrite C1. apply (round_plus_neq_0 radix2 _ (round_mode mode_NE)); try apply fmt_B.
      + apply generic_format_opp, fmt_B.
      + lra.
    - destruct C as [C _]. destruct (fsub B64 a b) as [|[]| |]; try discriminate Fs; destruct (Bsign a); discriminate C. }
  destruct (pseudoAngle_b64 (vx (Sub v center)) (vy (Sub v center))) as (p & Hp & P0 & P1); auto.
  { destruct Ne as [N|N]; [left|right]; apply G; auto. }
  set (P := pseudoAngle _ _) in *. clearbody P.
  pose proof (fr_ofZ n ltac:(lia)) as Hz.
  assert (N1 : 0 < IZR n <= bp 53).
  { split; [apply IZR_lt; lia|]. change (bp 53) with (IZR (2 ^ 53)). apply IZR_le. lia. }
  assert (C1 : cap <= 1) by (unfold cap; lra).
  assert (Pn : 0 <= p * IZR n <= cap * IZR n).
  { split; [apply Rmult_le_pos; lra|apply Rmult_le_compat_r; lra]. }
  apply (toZ_fr _ (rndF (p * IZR n))); [| |lia].
  - apply fr_mul; auto. rewrite Rabs_pos_eq by lra. assert (cap * IZR n <= 1 * IZR n) by (apply Rmult_le_compat_r; lra). lra.
  - split; [apply rndF_ge; [apply (fmt_Z 0); simpl; lia|lra]|].
    apply Rle_lt_trans with (rndF (cap * IZR n)); [apply rndF_mono; lra|]. apply cap_mul. lia.
Qed.

(** the size of the hash table *)
Lemma hsize_b64 (n : Z) : (1 <= n < 2 ^ 63)%Z -> (0 < ftoZ B64 (fceil B64 (fsqrt B64 (fofZ B64 n))) <= 2 ^ 53)%Z.
Proof.
  intros Hn. set (x := fofZ B64 n).
  assert (Hx : fr x (rndF (IZR n)) /\ 1 <= rndF (IZR n) <= bp 63).
  { assert (B63 : IZR n <= bp 63) by (change (bp 63) with (IZR (2 ^ 63)); apply IZR_le; lia).
    assert (N1 : 1 <= IZR n) by (apply IZR_le; lia).
    assert (F63 : fmt (bp 63)) by (apply generic_format_bpow; unfold SpecFloat.fexp, SpecFloat.emin; lia).
    assert (R63 : rndF (IZR n) <= bp 63) by (apply rndF_le; auto).
    assert (R1 : 1 <= rndF (IZR n)) by (apply rndF_ge; auto; apply (fmt_Z 1); simpl; lia).
    split; auto. unfold x, fofZ, B64, b64_of_Z. pose proof (binary_normalize_correct 53 1024 b64_prec b64_pe mode_NE n 0 false) as C.
    cbv zeta in C. replace (F2R (Float radix2 n 0)) with (IZR n) in C by (unfold F2R; simpl; ring).
    rewrite Rlt_bool_true in C.
    - destruct C as (C1 & C2 & _). split; auto.
    - rewrite Rabs_pos_eq by lra. apply Rle_lt_trans with (bp 63); auto. apply bpow_lt. lia. }
  destruct Hx as [[Fx Ex] [L U]]. clearbody x. rewrite <- Ex in L, U.
  pose proof (Bsqrt_correct 53 1024 b64_prec b64_pe mode_NE x) as (S1 & S2 & _).
  change (Bsqrt mode_NE x) with (fsqrt B64 x) in *. set (y := fsqrt B64 x) in *.
  assert (Fy : is_finite y = true).
  { rewrite S2. destruct x as [|[]| |[] m e B]; try discriminate; auto. exfalso.
    simpl in L. unfold F2R in L. simpl in L.
    assert (0 < IZR (Z.pos m) * bp e) by (apply Rmult_lt_0_compat; [apply IZR_lt; lia|apply bpow_gt_0]). 
    change (Z.neg m) with (- Z.pos m)%Z in L. rewrite opp_IZR in L. lra. }
  assert (By : 1 <= B2R y <= bp 32).
  { rewrite S1. split.
    - apply rndF_ge; [apply (fmt_Z 1); simpl; lia|]. rewrite <- sqrt_1. apply sqrt_le_1; lra.
    - apply rndF_le; [apply generic_format_bpow; unfold SpecFloat.fexp, SpecFloat.emin; lia|].
      rewrite <- (sqrt_square (bp 32)) by apply bpow_ge_0. apply sqrt_le_1; try lra.
      + apply Rmult_le_pos; apply bpow_ge_0.
      + rewrite <- bpow_plus. apply Rle_trans with (bp 63); auto. apply bpow_le. lia. }
  clearbody y. clear S1 S2.
  pose proof (Bnearbyint_correct 53 1024 b64_pe mode_UP y) as (C1 & C2 & _).
  change (Bnearbyint mode_UP y) with (fceil B64 y) in *. set (z := fceil B64 y) in *. clearbody z.
  assert (E : B2R z = IZR (Zceil (B2R y))).
  { rewrite C1. unfold round, F2R, scaled_mantissa, cexp, FIX_exp; simpl. rewrite !Rmult_1_r. reflexivity. }
  assert (Bz : (1 <= Zceil (B2R y) <= 2 ^ 32)%Z).
  { split.
    - apply le_IZR. pose proof (Zceil_ub (B2R y)). lra.
    - apply Zceil_glb. change (IZR (2 ^ 32)) with (bp 32). lra. }
  rewrite Fy in C2. set (k := Zceil (B2R y)) in *. clearbody k.
  assert (T : Btrunc z = k).
  { apply eq_IZR. rewrite (Btrunc_correct 53 1024 b64_pe z), E.
    unfold round, F2R, scaled_mantissa, cexp, FIX_exp; simpl. rewrite !Rmult_1_r. rewrite Ztrunc_IZR. reflexivity. }
  cbn [ftoZ B64]. unfold b64_toZ. destruct z as [s|[]| |s m ex B]; try discriminate.
  - simpl in E. apply eq_IZR in E. lia.
  - rewrite T. unfold int64_fits. destruct (Z.leb_spec (- 2 ^ 63) k); destruct (Z.ltb_spec k (2 ^ 63)); simpl; lia.
Qed.
