(** Binary64 arithmetic on numbers of the form r * 2^e: the rounded result is the rounded result for e = 0,
    scaled by 2^e, as long as nothing overflows or underflows; integers stay exact up to 2^53. *)
From Coq Require Import Reals Lra Lia ZArith QArith Bool.
From Flocq Require Import Core Relative BinarySingleNaN.
From Verif Require Import Base Arith P_insphere_err P_insphere_b64.
Open Scope R_scope.
Local Instance prec53' : Prec_gt_0 53 := eq_refl.
Notation bp := (bpow radix2).

Lemma rndX_scale e r : rndX (bp e * r) = bp e * rndX r.
Proof.
  destruct (Req_dec r 0) as [->|N]; [rewrite Rmult_0_r; unfold rndX; rewrite round_0 by typeclasses eauto; ring|].
  unfold rndX, round, scaled_mantissa, cexp, F2R, FLX_exp; simpl.
  rewrite (Rmult_comm (bp e)), mag_mult_bpow by auto.
  replace (mag radix2 r + e - 53)%Z with ((mag radix2 r - 53) + e)%Z by ring.
  set (c := (mag radix2 r - 53)%Z). replace (r * bp e * bp (- (c + e))) with (r * bp (- c)).
  - rewrite bpow_plus. ring.
  - rewrite Rmult_assoc, <- bpow_plus. f_equal. f_equal. lia.
Qed.
Lemma rndX_generic r : generic_format radix2 (FLX_exp 53) r -> rndX r = r.
Proof. intros H. apply round_generic; auto. typeclasses eauto. Qed.
Lemma format_rndX r : generic_format radix2 (FLX_exp 53) (rndX r).
Proof. apply generic_format_round; typeclasses eauto. Qed.
Lemma format_IZR k : (Z.abs k <= 2 ^ 53)%Z -> generic_format radix2 (FLX_exp 53) (IZR k).
Proof.
  intros H. destruct (Z.eq_dec (Z.abs k) (2 ^ 53)) as [E|NE].
  - apply generic_format_FLX. destruct (Z.abs_spec k) as [[_ Q]|[_ Q]].
    + exists (Float radix2 1 53); [|simpl; lia]. replace k with (2 ^ 53)%Z by lia. unfold F2R; simpl. lra.
    + exists (Float radix2 (-1) 53); [|simpl; lia]. replace k with (- 2 ^ 53)%Z by lia. unfold F2R; simpl. lra.
  - apply generic_format_FLX. exists (Float radix2 k 0).
    + unfold F2R; simpl. ring.
    + simpl. change (Z.pow_pos 2 53) with (2 ^ 53)%Z. lia.
Qed.
Lemma rndX_IZR k : (Z.abs k <= 2 ^ 53)%Z -> rndX (IZR k) = IZR k.
Proof. intros H. apply rndX_generic, format_IZR, H. Qed.
Lemma rndX_idem r : rndX (rndX r) = rndX r.
Proof. apply rndX_generic, format_rndX. Qed.
Lemma rndX_0 : rndX 0 = 0.
Proof. apply rndX_IZR. simpl. lia. Qed.

(** ** the relation: x is finite and its value is r * 2^e *)
Definition sr (x : b64) (e : Z) (r : R) : Prop := is_finite x = true /\ B2R x = bp e * r.
Definition tame_r (t : R) : Prop := (t = 0 \/ bp (-300) <= Rabs t) /\ Rabs t <= bp 300.
Definition okexp (e : Z) : Prop := (-700 <= e <= 700)%Z.

Lemma rndF_scale e t : okexp e -> tame_r t -> rndF (bp e * t) = bp e * rndX t /\ Rabs (rndF (bp e * t)) < bp 1024.
Proof.
  unfold okexp. intros He [Ht Hu].
  assert (E : rndF (bp e * t) = bp e * rndX t).
  { rewrite <- rndX_scale. destruct Ht as [->|Ht].
    - rewrite Rmult_0_r. unfold rndX. rewrite !round_0; auto; typeclasses eauto.
    - unfold rndX. simpl round_mode. rewrite <- round_FLT_FLX with (emin := (-1074)%Z); [reflexivity|].
      rewrite Rabs_mult, (Rabs_pos_eq (bp e)) by apply bpow_ge_0.
      apply Rle_trans with (bp e * bp (-300)).
      + rewrite <- bpow_plus. apply bpow_le. lia.
      + apply Rmult_le_compat_l; [apply bpow_ge_0|auto]. }
  split; auto. rewrite E, Rabs_mult, (Rabs_pos_eq (bp e)) by apply bpow_ge_0.
  apply rndX_bound in Hu. apply Rle_lt_trans with (bp e * bp 300).
  - apply Rmult_le_compat_l; [apply bpow_ge_0|auto].
  - rewrite <- bpow_plus. apply bpow_lt. lia.
Qed.
Lemma sr_round x e t : okexp e -> tame_r t ->
  (Rlt_bool (Rabs (rndF (bp e * t))) (bp 1024) = true -> B2R x = rndF (bp e * t) /\ is_finite x = true) -> sr x e (rndX t).
Proof.
  intros He Ht H. destruct (rndF_scale e t He Ht) as [E L]. destruct H as [H1 H2]; [apply Rlt_bool_true; auto|].
  split; auto. rewrite H1. auto.
Qed.
Lemma sr_add x r y s e : okexp e -> tame_r (r + s) -> sr x e r -> sr y e s -> sr (fadd B64 x y) e (rndX (r + s)).
Proof.
  intros He Ht [Fx Ex] [Fy Ey]. apply sr_round; auto. rewrite Rmult_plus_distr_l, <- Ex, <- Ey. intros H.
  pose proof (Bplus_correct 53 1024 b64_prec b64_pe mode_NE x y Fx Fy) as C. rewrite H in C. tauto.
Qed.
Lemma sr_sub x r y s e : okexp e -> tame_r (r - s) -> sr x e r -> sr y e s -> sr (fsub B64 x y) e (rndX (r - s)).
Proof.
  intros He Ht [Fx Ex] [Fy Ey]. apply sr_round; auto. rewrite Rmult_minus_distr_l, <- Ex, <- Ey. intros H.
  pose proof (Bminus_correct 53 1024 b64_prec b64_pe mode_NE x y Fx Fy) as C. rewrite H in C. tauto.
Qed.
Lemma sr_mul x r y s e f : okexp (e + f) -> tame_r (r * s) -> sr x e r -> sr y f s -> sr (fmul B64 x y) (e + f) (rndX (r * s)).
Proof.
  intros He Ht [Fx Ex] [Fy Ey]. apply sr_round; auto.
  replace (bp (e + f) * (r * s)) with (B2R x * B2R y) by (rewrite Ex, Ey, bpow_plus; ring). intros H.
  pose proof (Bmult_correct 53 1024 b64_prec b64_pe mode_NE x y) as C. rewrite H in C.
  destruct C as (C1 & C2 & _). rewrite Fx, Fy in C2. auto.
Qed.
Lemma sr_div x r y s e f : okexp (e - f) -> s <> 0 -> tame_r (r / s) -> sr x e r -> sr y f s -> sr (fdiv B64 x y) (e - f) (rndX (r / s)).
Proof.
  intros He Hs Ht [Fx Ex] [Fy Ey]. apply sr_round; auto.
  assert (P : bp f <> 0) by (apply Rgt_not_eq, bpow_gt_0).
  replace (bp (e - f) * (r / s)) with (B2R x / B2R y).
  2:{ rewrite Ex, Ey. unfold Z.sub. rewrite bpow_plus, bpow_opp. field. auto. }
  intros H. assert (Ny : B2R y <> 0) by (rewrite Ey; apply Rmult_integral_contrapositive; auto).
  pose proof (Bdiv_correct 53 1024 b64_prec b64_pe mode_NE x y Ny) as C. rewrite H in C.
  destruct C as (C1 & C2 & _). rewrite Fx in C2. auto.
Qed.
Lemma sr_abs x r e : sr x e r -> sr (fabs B64 x) e (Rabs r).
Proof.
  intros [Fx Ex]. split; cbn [fabs B64]; [rewrite is_finite_Babs; auto|]. rewrite B2R_Babs, Ex, Rabs_mult, (Rabs_pos_eq (bp e)) by apply bpow_ge_0.
  reflexivity.
Qed.
Lemma bp_lt e r s : bp e * r < bp e * s <-> r < s.
Proof. pose proof (bpow_gt_0 radix2 e). split; intros L; [apply Rmult_lt_reg_l with (bp e)|apply Rmult_lt_compat_l]; auto. Qed.
Lemma sr_lt x r y s e : sr x e r -> sr y e s -> flt B64 x y = Rltb r s.
Proof.
  intros [Fx Ex] [Fy Ey]. cbn [flt B64]. rewrite Bltb_correct by auto. rewrite Ex, Ey.
  destruct (Rltb_spec r s) as [L|L]; [apply Rlt_bool_true; apply bp_lt; auto|apply Rlt_bool_false].
  apply Rmult_le_compat_l; [apply bpow_ge_0|auto].
Qed.
Lemma sr_le x r y s e : sr x e r -> sr y e s -> fle B64 x y = Rleb r s.
Proof.
  intros [Fx Ex] [Fy Ey]. cbn [fle B64]. rewrite Bleb_correct by auto. rewrite Ex, Ey.
  destruct (Rleb_spec r s) as [L|L]; [apply Rle_bool_true|apply Rle_bool_false; apply bp_lt; auto].
  apply Rmult_le_compat_l; [apply bpow_ge_0|auto].
Qed.
Lemma sr_eq x r y s e : sr x e r -> sr y e s -> feq B64 x y = Reqb r s.
Proof.
  intros [Fx Ex] [Fy Ey]. cbn [feq B64]. rewrite Beqb_correct by auto. rewrite Ex, Ey.
  destruct (Reqb_spec r s) as [->|L]; [apply Req_bool_true; auto|apply Req_bool_false].
  intros Q. apply L. apply Rmult_eq_reg_l with (bp e); auto. apply Rgt_not_eq, bpow_gt_0.
Qed.
Lemma sr_zero e : sr (fofZ B64 0) e 0.
Proof. split; [reflexivity|]. simpl. ring. Qed.
Lemma sr_inf x e r : sr x e r -> flt B64 x (finf B64) = true /\ flt B64 (finf B64) x = false /\ feq B64 x (finf B64) = false.
Proof. intros [Fx _]. destruct x as [[]|[]| |[] m ex B]; try discriminate; repeat split; reflexivity. Qed.

(** ** integers *)
Definition si (x : b64) (e : Z) (k : Z) (B : Z) : Prop := sr x e (IZR k) /\ (Z.abs k <= B)%Z.
Lemma bp53 : bp 53 = IZR (2 ^ 53). Proof. reflexivity. Qed.
Lemma tame_IZR k : (Z.abs k <= 2 ^ 53)%Z -> tame_r (IZR k).
Proof.
  intros H. split.
  - destruct (Z.eq_dec k 0) as [->|N]; auto. right. apply Rle_trans with (bp 0); [apply bpow_le; lia|].
    change (bp 0) with (IZR 1). rewrite <- abs_IZR. apply IZR_le. lia.
  - apply Rle_trans with (bp 53); [|apply bpow_le; lia]. rewrite bp53, <- abs_IZR. apply IZR_le. auto.
Qed.
Lemma si_sr x e k B : si x e k B -> sr x e (IZR k). Proof. intros [H _]; auto. Qed.
Lemma si_bd x e k B : si x e k B -> (Z.abs k <= B)%Z. Proof. intros [_ H]; auto. Qed.
Lemma si_add x k y l e B C : (B + C <= 2 ^ 53)%Z -> okexp e -> si x e k B -> si y e l C -> si (fadd B64 x y) e (k + l) (B + C).
Proof.
  intros L He [Sx Bx] [Sy By]. assert (K : (Z.abs (k + l) <= B + C)%Z) by lia. split; auto.
  rewrite <- (rndX_IZR (k + l)) by lia. rewrite plus_IZR. apply sr_add; auto. rewrite <- plus_IZR. apply tame_IZR. lia.
Qed.
Lemma si_sub x k y l e B C : (B + C <= 2 ^ 53)%Z -> okexp e -> si x e k B -> si y e l C -> si (fsub B64 x y) e (k - l) (B + C).
Proof.
  intros L He [Sx Bx] [Sy By]. assert (K : (Z.abs (k - l) <= B + C)%Z) by lia. split; auto.
  rewrite <- (rndX_IZR (k - l)) by lia. rewrite minus_IZR. apply sr_sub; auto. rewrite <- minus_IZR. apply tame_IZR. lia.
Qed.
Lemma si_mul x k y l e f B C : (B * C <= 2 ^ 53)%Z -> okexp (e + f) -> si x e k B -> si y f l C -> si (fmul B64 x y) (e + f) (k * l) (B * C).
Proof.
  intros L He [Sx Bx] [Sy By]. assert (K : (Z.abs (k * l) <= B * C)%Z) by (rewrite Z.abs_mul; apply Z.mul_le_mono_nonneg; lia). split; auto.
  rewrite <- (rndX_IZR (k * l)) by lia. rewrite mult_IZR. apply sr_mul; auto. rewrite <- mult_IZR. apply tame_IZR. lia.
Qed.
Lemma si_weaken x e k B C : (B <= C)%Z -> si x e k B -> si x e k C.
Proof. intros L [S K]. split; auto. lia. Qed.
Lemma si_zero e : si (fofZ B64 0) e 0 0.
Proof. split; [apply sr_zero|lia]. Qed.
Lemma si_half : si (fofQ B64 (1 # 2)) (-1) 1 1.
Proof. split; [|lia]. split; [reflexivity|]. simpl. unfold F2R; simpl. lra. Qed.
Lemma IZR_lt_b k l : Rltb (IZR k) (IZR l) = (k <? l)%Z.
Proof. destruct (Rltb_spec (IZR k) (IZR l)) as [L|L]; symmetry; [apply Z.ltb_lt, lt_IZR, L|apply Z.ltb_ge, le_IZR, L]. Qed.
