(** Rounding errors of the circumradius and of squared distances, without overflow or underflow. *)
From Coq Require Import Reals Lra Lia ZArith.
From Flocq Require Import Core.
From Verif Require Import Base Arith P_insphere_err P_insphere_b64 P_b64sc.
Open Scope R_scope.
Local Instance p53 : Prec_gt_0 53 := eq_refl.
Notation u := u53.
Lemma u_val : u = / 9007199254740992. Proof. unfold u53. lra. Qed.
Lemma u_pos : 0 < u < / 1000000000000. Proof. rewrite u_val. lra. Qed.

(** [near k t s]: s is t up to k rounding errors (t >= 0) *)
Definition near (k : nat) (t s : R) : Prop := (1 - u) ^ k * t <= s <= (1 + u) ^ k * t.
Lemma near_0 t : near 0 t t. Proof. unfold near. simpl. lra. Qed.
Lemma near_pos k t s : 0 <= t -> near k t s -> 0 <= s.
Proof.
  intros Ht [H _]. apply Rle_trans with ((1 - u) ^ k * t); auto. apply Rmult_le_pos; auto. apply pow_le. pose proof u_pos. lra.
Qed.
Lemma rndX_rel t : 0 <= t -> (1 - u) * t <= rndX t <= (1 + u) * t.
Proof. intros Ht. pose proof (rndX_err' t) as E. rewrite (Rabs_pos_eq t Ht) in E. apply Rabs_le_inv in E. lra. Qed.
Lemma near_rnd k t s : 0 <= t -> near k t s -> near (S k) t (rndX s).
Proof.
  intros Ht H. pose proof (near_pos k t s Ht H) as Hs. destruct H as [L U]. destruct (rndX_rel s Hs) as [RL RU]. pose proof u_pos. split; simpl.
  - apply Rle_trans with ((1 - u) * s); auto. rewrite Rmult_assoc. apply Rmult_le_compat_l; lra.
  - apply Rle_trans with ((1 + u) * s); auto. rewrite Rmult_assoc. apply Rmult_le_compat_l; lra.
Qed.
Lemma near_add k t s t' s' : near k t s -> near k t' s' -> near k (t + t') (s + s').
Proof. intros [L U] [L' U']. split; rewrite Rmult_plus_distr_l; lra. Qed.
Lemma near_S k t s : 0 <= t -> near k t s -> near (S k) t s.
Proof.
  intros Ht [L U]. pose proof u_pos as P.
  assert (A : 0 <= (1 - u) ^ k * t) by (apply Rmult_le_pos; auto; apply pow_le; lra).
  assert (B : 0 <= (1 + u) ^ k * t) by (apply Rmult_le_pos; auto; apply pow_le; lra).
  assert (0 <= u * ((1 - u) ^ k * t)) by (apply Rmult_le_pos; lra).
  assert (0 <= u * ((1 + u) ^ k * t)) by (apply Rmult_le_pos; lra).
  split; simpl; lra.
Qed.
(* the square of a rounded number *)
Lemma near_sq t : near 2 (t * t) (rndX t * rndX t).
Proof.
  assert (G : forall t, 0 <= t -> near 2 (t * t) (rndX t * rndX t)).
  { clear. intros t Ht. destruct (rndX_rel t Ht) as [L U]. pose proof u_pos as P.
    assert (0 <= (1 - u) * t) by (apply Rmult_le_pos; lra).
    assert (A : (1 - u) * t * ((1 - u) * t) <= rndX t * rndX t) by (apply Rmult_le_compat; lra).
    assert (B : rndX t * rndX t <= (1 + u) * t * ((1 + u) * t)) by (apply Rmult_le_compat; lra).
    split; simpl; lra. }
  destruct (Rle_lt_dec 0 t) as [H|H]; [apply G; auto|].
  replace (t * t) with ((- t) * (- t)) by ring. replace (rndX t * rndX t) with (rndX (- t) * rndX (- t)) by (rewrite rndX_opp; ring).
  apply G. lra.
Qed.
(* rounded sum of two rounded squares of rounded numbers *)
Lemma near_norm2 s t : near 4 (s * s + t * t) (rndX (rndX (rndX s * rndX s) + rndX (rndX t * rndX t))).
Proof.
  assert (S0 : forall a : R, 0 <= a * a) by (intros a; apply Rle_0_sqr).
  apply near_rnd; [pose proof (S0 s); pose proof (S0 t); lra|].
  apply near_add; apply near_rnd; try apply near_sq; apply S0.
Qed.
Lemma near_norm3 s t w : near 5 (s * s + t * t + w * w)
  (rndX (rndX (rndX (rndX s * rndX s) + rndX (rndX t * rndX t)) + rndX (rndX w * rndX w))).
Proof.
  assert (S0 : forall a : R, 0 <= a * a) by (intros a; apply Rle_0_sqr).
  pose proof (S0 s). pose proof (S0 t). pose proof (S0 w).
  apply near_rnd; [lra|]. apply near_add; [apply near_norm2|].
  apply near_S; [lra|]. apply near_rnd; auto. apply near_sq.
Qed.

(** comparisons of rounded values *)
Lemma near_lt_gap t s t' s' : 0 <= t -> 0 < t' -> near 4 t s -> near 4 t' s' ->
  2 ^ 49 * t <= (2 ^ 49 - 1) * t' -> s < s'.
Proof.
  intros Ht Ht' [_ U] [L _] G. apply Rle_lt_trans with (1 := U). apply Rlt_le_trans with (2 := L).
  apply Rle_lt_trans with ((1 + u) ^ 4 * ((1 - / 2 ^ 49) * t')).
  - apply Rmult_le_compat_l; [apply pow_le; pose proof u_pos; lra|]. lra.
  - rewrite <- Rmult_assoc. apply Rmult_lt_compat_r; auto. rewrite u_val. simpl. lra.
Qed.
Lemma near_le_diff t s t' s' B : 0 <= t <= B -> 0 <= t' <= B -> near 5 t s -> near 5 t' s' -> s <= s' ->
  B <= 2251800000000000 + 300000000000 -> t - t' < 4.
Proof.
  intros Ht Ht' [L _] [_ U] H HB.
  assert (E : (1 - u) ^ 5 * t <= (1 + u) ^ 5 * t') by lra.
  assert (A : 1 - 5 * u <= (1 - u) ^ 5) by (rewrite u_val; simpl; lra).
  assert (C : (1 + u) ^ 5 <= 1 + 6 * u) by (rewrite u_val; simpl; lra).
  assert (A' : (1 - 5 * u) * t <= (1 - u) ^ 5 * t) by (apply Rmult_le_compat_r; lra).
  assert (C' : (1 + u) ^ 5 * t' <= (1 + 6 * u) * t') by (apply Rmult_le_compat_r; lra).
  assert (t - t' <= u * (5 * t + 6 * t')) by lra.
  assert (u * (5 * t + 6 * t') <= u * (11 * B)) by (apply Rmult_le_compat_l; [pose proof u_pos; lra|lra]).
  assert (u * (11 * B) <= u * (11 * (2251800000000000 + 300000000000))) by (apply Rmult_le_compat_l; [pose proof u_pos; lra|lra]).
  rewrite u_val in *. lra.
Qed.

(** which numbers are far from underflow *)
Lemma bpm k : (0 <= k)%Z -> bp (- k) = / IZR (2 ^ k).
Proof. intros H. rewrite bpow_opp. f_equal. rewrite (IZR_Zpower radix2) by auto. reflexivity. Qed.
Lemma fixm_big m t : (m <= 300)%Z -> fixm m t -> t = 0 \/ bp (-300) <= Rabs t.
Proof.
  intros Hm [k ->]. destruct (Z.eq_dec k 0) as [->|N]; [left; ring|right].
  rewrite Rabs_mult, (Rabs_pos_eq (bp _)) by apply bpow_ge_0. apply Rle_trans with (1 * bp (- m)).
  - rewrite Rmult_1_l. apply bpow_le. lia.
  - apply Rmult_le_compat_r; [apply bpow_ge_0|]. rewrite <- abs_IZR. apply IZR_le. lia.
Qed.
Lemma fixm_tame m M t : (m <= 300)%Z -> (M <= 300)%Z -> fixm m t -> Rabs t <= bp M -> tame_r t.
Proof.
  intros Hm HM F B. split; [apply (fixm_big m); auto|]. apply Rle_trans with (1 := B). apply bpow_le; auto.
Qed.
Lemma fixm_IZR m k : (0 <= m)%Z -> fixm m (IZR k).
Proof.
  intros Hm. exists (k * 2 ^ m)%Z. rewrite mult_IZR, bpm by auto. field. apply not_0_IZR. apply Z.pow_nonzero; lia.
Qed.
Lemma fixm_weak m n t : (m <= n)%Z -> fixm m t -> fixm n t.
Proof.
  intros H [k ->]. exists (k * 2 ^ (n - m))%Z. rewrite mult_IZR. change 2%Z with (radix_val radix2). rewrite IZR_Zpower by lia.
  rewrite Rmult_assoc, <- bpow_plus. f_equal. f_equal. lia.
Qed.
(* a rounded number that is not small is a multiple of a power of two *)
Lemma fixm_rnd k t : bp (- k) <= Rabs t -> fixm (k + 52) (rndX t).
Proof.
  intros H. assert (B : bp (- k) <= Rabs (rndX t)).
  { apply abs_round_ge_generic; auto; try typeclasses eauto.
    apply generic_format_FLX. exists (Float radix2 1 (- k)); [unfold F2R; simpl; ring|simpl; lia]. }
  pose proof (format_rndX t) as F. set (s := rndX t) in *. clearbody s. unfold generic_format, F2R in F. simpl in F.
  apply (fixm_weak (- cexp radix2 (FLX_exp 53) s)).
  - unfold cexp, FLX_exp. pose proof (mag_ge_bpow radix2 s (- k + 1)) as G. replace (- k + 1 - 1)%Z with (- k)%Z in G by ring.
    specialize (G B). lia.
  - eexists. rewrite Z.opp_involutive. exact F.
Qed.
Lemma div_big N d D : N <> 0%Z -> d <> 0%Z -> (Z.abs d <= 2 ^ D)%Z -> (0 <= D)%Z -> bp (- D) <= Rabs (IZR N / IZR d).
Proof.
  intros HN Hd B HD. unfold Rdiv. rewrite Rabs_mult, Rabs_inv. rewrite <- !abs_IZR, bpm by auto.
  assert (1 <= IZR (Z.abs N)) by (apply IZR_le; lia).
  assert (0 < IZR (Z.abs d) <= IZR (2 ^ D)) by (split; [apply IZR_lt; lia|apply IZR_le; lia]).
  assert (/ IZR (2 ^ D) <= / IZR (Z.abs d)) by (apply Rinv_le; lra).
  assert (0 < / IZR (2 ^ D)) by (apply Rinv_0_lt_compat; lra).
  apply Rle_trans with (1 * / IZR (Z.abs d)); [lra|]. apply Rmult_le_compat_r; lra.
Qed.
