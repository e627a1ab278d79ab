(** Relative error of binary64 expressions in non-negative quantities. *)
From Coq Require Import Reals Lra Lia ZArith QArith Bool.
From Flocq Require Import Core Relative Plus_error BinarySingleNaN.
From Verif Require Import Base Arith P_insphere_err P_insphere_b64 P_b64sc P_b64err P_b64hash.
Open Scope R_scope.
Local Instance p53 : Prec_gt_0 53 := eq_refl.
Local Instance vx1 : Valid_exp (SpecFloat.fexp 53 1024) := fexp_correct 53 1024 b64_prec.

(** [nr k t s]: s and t agree up to k factors 1 - u *)
Definition nr (k : nat) (t s : R) : Prop := (1 - u) ^ k * t <= s /\ (1 - u) ^ k * s <= t.
Lemma u1 : 0 < 1 - u <= 1. Proof. pose proof u_pos. lra. Qed.
Lemma pw k : 0 < (1 - u) ^ k <= 1.
Proof.
  pose proof u1. split; [apply pow_lt; lra|]. apply Rle_trans with (1 ^ k); [apply pow_incr; lra|rewrite pow1; lra].
Qed.
Lemma pw_add k l : (1 - u) ^ (k + l) = (1 - u) ^ k * (1 - u) ^ l. Proof. apply pow_add. Qed.
(* Bernoulli *)
Lemma pw_lower k : 1 - INR k * u <= (1 - u) ^ k.
Proof.
  induction k as [|k IH]; [simpl; lra|]. rewrite S_INR. simpl. pose proof (pw k). pose proof u_pos. pose proof (pos_INR k).
  assert (0 <= u * (INR k * u)) by (apply Rmult_le_pos; [lra|apply Rmult_le_pos; lra]).
  apply Rle_trans with ((1 - u) * (1 - INR k * u)); [lra|]. apply Rmult_le_compat_l; lra.
Qed.
Lemma pw_half k : (k <= 4000)%nat -> / 2 <= (1 - u) ^ k.
Proof.
  intros H. apply Rle_trans with (2 := pw_lower k). apply le_INR in H. assert (E : INR 4000 = 4000) by (rewrite INR_IZR_INZ; reflexivity).
  rewrite E in H. pose proof u_pos. assert (INR k * u <= 4000 * u) by (apply Rmult_le_compat_r; lra). lra.
Qed.
Lemma nr_refl k t : 0 <= t -> nr k t t.
Proof. intros H. pose proof (pw k). assert ((1 - u) ^ k * t <= 1 * t) by (apply Rmult_le_compat_r; lra). split; lra. Qed.
Lemma nr_sym k t s : nr k t s -> nr k s t. Proof. intros [H1 H2]; split; auto. Qed.
Lemma nr_pos k t s : 0 <= t -> nr k t s -> 0 <= s.
Proof. intros Ht [H _]. pose proof (pw k). apply Rle_trans with ((1 - u) ^ k * t); auto. apply Rmult_le_pos; lra. Qed.
Lemma nr_pos' k t s : 0 < t -> nr k t s -> 0 < s.
Proof. intros Ht [H _]. pose proof (pw k). apply Rlt_le_trans with ((1 - u) ^ k * t); auto. apply Rmult_lt_0_compat; lra. Qed.
Lemma nr_0 k s : nr k 0 s -> s = 0.
Proof. intros [H1 H2]. rewrite Rmult_0_r in H1. pose proof (pw k). apply Rle_antisym; auto.
  apply Rmult_le_reg_l with ((1 - u) ^ k); [lra|]. lra. Qed.
Lemma nr_weak k l t s : (k <= l)%nat -> 0 <= t -> nr k t s -> nr l t s.
Proof.
  intros L Ht H. assert (Hs := nr_pos _ _ _ Ht H). destruct H as [H1 H2]. replace l with (k + (l - k))%nat by lia. unfold nr. rewrite pw_add.
  pose proof (pw k) as Pk. pose proof (pw (l - k)) as Pl.
  assert ((1 - u) ^ k * (1 - u) ^ (l - k) * t <= (1 - u) ^ k * t).
  { apply Rmult_le_compat_r; auto. rewrite <- Rmult_1_r. apply Rmult_le_compat_l; lra. }
  assert ((1 - u) ^ k * (1 - u) ^ (l - k) * s <= (1 - u) ^ k * s).
  { apply Rmult_le_compat_r; auto. rewrite <- Rmult_1_r. apply Rmult_le_compat_l; lra. }
  lra.
Qed.
Lemma nr_trans k l t s r : nr k t s -> nr l s r -> nr (k + l) t r.
Proof.
  intros [H1 H2] [H3 H4]. pose proof (pw k) as Pk. pose proof (pw l) as Pl. unfold nr. rewrite pw_add. split.
  - apply Rle_trans with ((1 - u) ^ l * s); auto. replace ((1 - u) ^ k * (1 - u) ^ l * t) with ((1 - u) ^ l * ((1 - u) ^ k * t)) by ring.
    apply Rmult_le_compat_l; lra.
  - apply Rle_trans with ((1 - u) ^ k * s); auto. rewrite Rmult_assoc. apply Rmult_le_compat_l; lra.
Qed.
Lemma nr_add k t s t' s' : nr k t s -> nr k t' s' -> nr k (t + t') (s + s').
Proof. intros [H1 H2] [H3 H4]. unfold nr. rewrite !Rmult_plus_distr_l. lra. Qed.
Lemma nr_mul k l t s t' s' : 0 <= t -> 0 <= t' -> nr k t s -> nr l t' s' -> nr (k + l) (t * t') (s * s').
Proof.
  intros P P' H H'. assert (Q := nr_pos _ _ _ P H). assert (Q' := nr_pos _ _ _ P' H'). destruct H as [H1 H2], H' as [H3 H4].
  pose proof (pw k) as Pk. pose proof (pw l) as Pl. unfold nr. rewrite pw_add. split.
  - replace ((1 - u) ^ k * (1 - u) ^ l * (t * t')) with (((1 - u) ^ k * t) * ((1 - u) ^ l * t')) by ring.
    apply Rmult_le_compat; auto; apply Rmult_le_pos; lra.
  - replace ((1 - u) ^ k * (1 - u) ^ l * (s * s')) with (((1 - u) ^ k * s) * ((1 - u) ^ l * s')) by ring.
    apply Rmult_le_compat; auto; apply Rmult_le_pos; lra.
Qed.
Lemma nr_inv k t s : 0 < t -> nr k t s -> nr k (/ t) (/ s).
Proof.
  intros P H. assert (Q := nr_pos' _ _ _ P H). destruct H as [H1 H2]. pose proof (pw k) as Pk. split.
  - apply Rmult_le_reg_l with (s * t); [apply Rmult_lt_0_compat; auto|]. field_simplify; lra.
  - apply Rmult_le_reg_l with (s * t); [apply Rmult_lt_0_compat; auto|]. field_simplify; lra.
Qed.
Lemma nr_div k l t s t' s' : 0 <= t -> 0 < t' -> nr k t s -> nr l t' s' -> nr (k + l) (t / t') (s / s').
Proof. intros P P' H H'. apply nr_mul; auto; [left; apply Rinv_0_lt_compat; auto|apply nr_inv; auto]. Qed.
Lemma sqrt_pw x : 0 <= x <= 1 -> x <= sqrt x.
Proof.
  intros H. rewrite <- (sqrt_square x) at 1 by lra. apply sqrt_le_1_alt. rewrite <- (Rmult_1_r x) at 3. apply Rmult_le_compat_l; lra.
Qed.
(* square roots halve the error *)
Lemma nr_sqrt k t s : 0 <= t -> nr (2 * k) t s -> nr k (sqrt t) (sqrt s).
Proof.
  intros P H. assert (Q := nr_pos _ _ _ P H). destruct H as [H1 H2]. pose proof (pw k) as Pk.
  assert (E : (1 - u) ^ k = sqrt ((1 - u) ^ (2 * k))).
  { rewrite pow_mult, <- !Rsqr_pow2. replace (Rsqr (1 - u) ^ k) with (Rsqr ((1 - u) ^ k)).
    - rewrite sqrt_Rsqr; lra.
    - unfold Rsqr. rewrite Rpow_mult_distr. ring. }
  split; rewrite E, <- sqrt_mult; try lra; try apply sqrt_le_1_alt; auto; apply pow_le; pose proof u1; lra.
Qed.

(** ** rounding *)
Lemma rnd_nr (t : R) : 0 <= t -> Rabs (rndF t - t) <= u * t -> nr 1 t (rndF t).
Proof.
  intros P H. apply Rabs_le_inv in H. pose proof u_pos. unfold nr. rewrite pow_1. split; [lra|].
  apply Rle_trans with ((1 - u) * ((1 + u) * t)); [apply Rmult_le_compat_l; lra|].
  replace ((1 - u) * ((1 + u) * t)) with (t - u * u * t) by ring. assert (0 <= u * u * t) by (repeat apply Rmult_le_pos; lra). lra.
Qed.
Lemma uh : / 2 * bp (- (53) + 1) = u.
Proof. change (bp (- (53) + 1)) with (/ 4503599627370496). rewrite u_val. lra. Qed.
Lemma rnd_big t : bp (-1022) <= Rabs t -> Rabs (rndF t - t) <= u * Rabs t.
Proof.
  intros H. rewrite <- uh. apply (relative_error_N_FLT radix2 (-1074) 53 eq_refl (fun x => negb (Z.even x)) t). exact H.
Qed.
Lemma rnd_sum (x y : R) : fmt x -> fmt y -> Rabs (rndF (x + y) - (x + y)) <= u * Rabs (x + y).
Proof.
  intros Fx Fy. destruct (Rle_lt_dec (bp (-1022)) (Rabs (x + y))) as [H|H]; [apply rnd_big; auto|].
  rewrite rndF_id.
  - rewrite Rminus_diag_eq, Rabs_R0 by auto. apply Rmult_le_pos; [pose proof u_pos; lra|apply Rabs_pos].
  - change (SpecFloat.fexp 53 1024) with (FLT_exp (-1074) 53). apply (@FLT_format_plus_small radix2 (-1074) 53 eq_refl); auto.
    apply Rlt_le. apply Rlt_le_trans with (1 := H). apply bpow_le. lia.
Qed.
Lemma fmt_bp e : (-1074 <= e)%Z -> fmt (bp e).
Proof. intros H. apply generic_format_bpow. change (SpecFloat.fexp 53 1024) with (FLT_exp (-1074) 53). unfold FLT_exp. lia. Qed.
Lemma no_over t : Rabs t <= bp 1023 -> Rlt_bool (Rabs (rndF t)) (bp 1024) = true.
Proof.
  intros H. apply Rlt_bool_true. apply Rle_lt_trans with (bp 1023); [|apply bpow_lt; lia].
  apply abs_round_le_generic; auto; try typeclasses eauto. apply fmt_bp. lia.
Qed.

(** ** floats *)
(* x is finite and its value is t >= 0 up to k roundings *)
Definition ap (k : nat) (t : R) (x : b64) : Prop := is_finite x = true /\ nr k t (B2R x).
(* zero, or far from overflow and underflow *)
Definition rng (t : R) : Prop := t = 0 \/ bp (-1020) <= t <= bp 1020.
Lemma rng_pos t : rng t -> 0 <= t. Proof. intros [->|[H _]]; [lra|]. pose proof (bpow_gt_0 radix2 (-1020)). lra. Qed.
Lemma rng_nr k t s : (k <= 4000)%nat -> rng t -> nr k t s -> s = 0 \/ bp (-1022) <= s <= bp 1023.
Proof.
  intros K R N. pose proof (pw_half k K) as H. destruct R as [->|[L U]]; [left; apply nr_0 with k; auto|]. right.
  pose proof (bpow_gt_0 radix2 (-1020)) as B. assert (Hs := nr_pos _ _ _ (Rlt_le _ _ (Rlt_le_trans _ _ _ B L)) N). destruct N as [N1 N2].
  assert (bp (-1020) = 4 * bp (-1022)) by (change (-1020)%Z with (2 + -1022)%Z; rewrite bpow_plus; change (bp 2) with 4; lra).
  assert (bp 1023 = 8 * bp 1020) by (change (1023)%Z with (3 + 1020)%Z; rewrite bpow_plus; change (bp 3) with 8; lra).
  assert (/ 2 * t <= (1 - u) ^ k * t) by (apply Rmult_le_compat_r; lra).
  assert (/ 2 * s <= (1 - u) ^ k * s) by (apply Rmult_le_compat_r; lra). lra.
Qed.
Lemma ap_round k t s (x : b64) : (k <= 4000)%nat -> rng t -> nr k t s ->
  (Rlt_bool (Rabs (rndF s)) (bp 1024) = true -> B2R x = rndF s /\ is_finite x = true) -> ap (k + 1) t x.
Proof.
  intros K R N H. assert (Pt := rng_pos t R). assert (Ps := nr_pos _ _ _ Pt N). pose proof (rng_nr k t s K R N) as G.
  assert (B0 : 0 <= bp 1023) by apply bpow_ge_0.
  destruct H as [H1 H2]; [apply no_over; rewrite Rabs_pos_eq; auto; destruct G; lra|].
  split; auto. apply nr_trans with s; auto. rewrite H1. apply rnd_nr; auto. destruct G as [->|[G1 G2]].
  - rewrite rndF_id by (apply generic_format_0). rewrite Rminus_0_r, Rabs_R0. lra.
  - rewrite <- (Rabs_pos_eq s Ps) at 3. apply rnd_big. rewrite Rabs_pos_eq; auto.
Qed.
Lemma ap_mul k l t s x y : ap k t x -> ap l s y -> 0 <= t -> 0 <= s -> (k + l <= 4000)%nat -> rng (t * s) -> ap (k + l + 1) (t * s) (fmul B64 x y).
Proof.
  intros [Fx Nx] [Fy Ny] Pt Ps K R. apply ap_round with (B2R x * B2R y); auto; [apply nr_mul; auto|]. intros H.
  pose proof (Bmult_correct 53 1024 b64_prec b64_pe mode_NE x y) as C. rewrite H in C.
  destruct C as (C1 & C2 & _). rewrite Fx, Fy in C2. auto.
Qed.
Lemma ap_div k l t s x y : ap k t x -> ap l s y -> 0 <= t -> 0 < s -> (k + l <= 4000)%nat -> rng (t / s) -> ap (k + l + 1) (t / s) (fdiv B64 x y).
Proof.
  intros [Fx Nx] [Fy Ny] Pt Ps K R. apply ap_round with (B2R x / B2R y); auto; [apply nr_div; auto|]. intros H.
  assert (Q := nr_pos' _ _ _ Ps Ny).
  pose proof (Bdiv_correct 53 1024 b64_prec b64_pe mode_NE x y ltac:(lra)) as C. rewrite H in C.
  destruct C as (C1 & C2 & _). rewrite Fx in C2. auto.
Qed.
Lemma ap_add k t s x y : ap k t x -> ap k s y -> 0 <= t -> 0 <= s -> (k <= 4000)%nat -> t + s <= bp 1020 -> ap (k + 1) (t + s) (fadd B64 x y).
Proof.
  intros [Fx Nx] [Fy Ny] Pt Ps K R. pose proof (nr_add _ _ _ _ _ Nx Ny) as N.
  assert (Q : 0 <= B2R x + B2R y) by (apply nr_pos with (2 := N); lra). pose proof (pw_half k K) as H2. pose proof N as [N1 N2].
  assert (bp 1023 = 8 * bp 1020) by (change (1023)%Z with (3 + 1020)%Z; rewrite bpow_plus; change (bp 3) with 8; lra).
  assert (/ 2 * (B2R x + B2R y) <= (1 - u) ^ k * (B2R x + B2R y)) by (apply Rmult_le_compat_r; lra).
  assert (HO : Rlt_bool (Rabs (rndF (B2R x + B2R y))) (bp 1024) = true).
  { apply no_over. rewrite Rabs_pos_eq by auto. pose proof (bpow_ge_0 radix2 1020). lra. }
  pose proof (Bplus_correct 53 1024 b64_prec b64_pe mode_NE x y Fx Fy) as C. rewrite HO in C. destruct C as (C1 & C2 & _).
  split; auto. apply nr_trans with (1 := N). cbn [fadd B64]. rewrite C1. apply rnd_nr; auto.
  rewrite <- (Rabs_pos_eq _ Q) at 3. apply rnd_sum; apply fmt_B.
Qed.
Lemma ap_sub (x y : b64) : is_finite x = true -> is_finite y = true -> 0 <= B2R x - B2R y <= bp 1020 -> ap 1 (B2R x - B2R y) (fsub B64 x y).
Proof.
  intros Fx Fy H. pose proof (Bminus_correct 53 1024 b64_prec b64_pe mode_NE x y Fx Fy) as C.
  rewrite no_over in C.
  2:{ rewrite Rabs_pos_eq by lra. apply Rle_trans with (bp 1020); [lra|]. apply bpow_le; lia. }
  destruct C as (C1 & C2 & _). split; auto. cbn [fsub B64]. rewrite C1. apply rnd_nr; [lra|].
  rewrite <- (Rabs_pos_eq (B2R x - B2R y)) at 3 by lra. unfold Rminus. apply rnd_sum; [|apply generic_format_opp]; apply fmt_B.
Qed.
Lemma ap_sqrt k t (x : b64) : ap (2 * k) t x -> (2 * k <= 4000)%nat -> 0 <= t -> rng (sqrt t) -> ap (k + 1) (sqrt t) (fsqrt B64 x).
Proof.
  intros [Fx Nx] K Pt R. apply ap_round with (sqrt (B2R x)); auto; [lia|apply nr_sqrt; auto|]. intros _.
  pose proof (Bsqrt_correct 53 1024 b64_prec b64_pe mode_NE x) as (S1 & S2 & _). split; auto. cbn [fsqrt B64]. rewrite S2.
  assert (Q := nr_pos _ _ _ Pt Nx). destruct x as [[]|[]| |[] m e B]; try discriminate; auto.
  exfalso. simpl in Q. assert (F2R (Float radix2 (Z.neg m) e) < 0) by (apply F2R_lt_0; reflexivity). simpl in *. lra.
Qed.
Lemma ap_exact (x : b64) : is_finite x = true -> 0 <= B2R x -> ap 0 (B2R x) x.
Proof. intros F H. split; auto. apply nr_refl; auto. Qed.
Lemma ap_weak k l t x : (k <= l)%nat -> 0 <= t -> ap k t x -> ap l t x.
Proof. intros L P [F N]. split; auto. apply nr_weak with k; auto. Qed.
Lemma ap_cast k l t s x : ap k t x -> k = l -> t = s -> ap l s x. Proof. intros H <- <-. auto. Qed.
