(** The shape package in binary64: every vertex is near the exact one. *)
From Coq Require Import Reals Lra Lia ZArith QArith Bool List.
From Flocq Require Import Core Relative Plus_error BinarySingleNaN.
From Verif Require Import Base Arith M_r3 Spec_r3 M_shape Spec_shape Spec_shape64 P_shape P_insphere_err P_insphere_b64 P_b64sc P_b64err P_b64hash P_b64rel P_b64norm P_b64clamp.
Import ListNotations.
Open Scope R_scope.
Local Instance p53s : Prec_gt_0 53 := eq_refl.
Local Instance vxs : Valid_exp (SpecFloat.fexp 53 1024) := fexp_correct 53 1024 b64_prec.

Lemma u8 : bpow radix2 (-50) = 8 * u. Proof. change (bpow radix2 (-50)) with (/ 1125899906842624). rewrite u_val. lra. Qed.
Lemma eta_u : 0 < eta * bp 1000 <= / 1000000 * u.
Proof.
  split; [apply Rmult_lt_0_compat; apply bpow_gt_0|]. rewrite <- bpow_plus. rewrite u_val.
  apply Rle_trans with (bp (-73)); [apply bpow_le; lia|]. change (bp (-73)) with (/ 9444732965739290427392). lra.
Qed.
Lemma bp1000 : 1000000000000 <= bp 1000.
Proof. apply Rle_trans with (bp 40); [change (bp 40) with 1099511627776|apply bpow_le; lia]; lra. Qed.
Lemma bp1023 : 100 * bp 1000 <= bp 1023.
Proof.
  replace 1023%Z with (23 + 1000)%Z by reflexivity. rewrite bpow_plus. change (bp 23) with 8388608. pose proof bp1000. lra.
Qed.
Lemma eta1 : 0 < eta <= / 1000000 * u.
Proof. pose proof eta_u. pose proof bp1000. pose proof eta_pos. split; auto. nra. Qed.

Lemma within_mono x v e f : within x v e -> e <= f -> within x v f. Proof. intros [H1 H2] H. split; auto; lra. Qed.
Lemma within_val x v e : within x v e -> exists w, fval x w /\ Rabs (w - v) <= e.
Proof. intros [F H]. exists (B2R (x : b64)). split; [split|]; auto. Qed.
Lemma within_of x v e w : fval x w -> Rabs (w - v) <= e -> within x v e.
Proof. intros [F V] H. split; auto. rewrite V. exact H. Qed.
Lemma within_fval x w : fval x w -> within x w 0.
Proof. intros H. apply (within_of _ _ _ _ H). rewrite Rminus_diag_eq, Rabs_R0 by auto. lra. Qed.
Lemma abs_near w v e A : Rabs (w - v) <= e -> Rabs v <= A -> Rabs w <= A + e.
Proof. intros H1 H2. replace w with ((w - v) + v) by ring. eapply Rle_trans; [apply Rabs_triang|]. lra. Qed.
Lemma no_over' t : Rabs t <= bp 1023 -> Rabs (rndF t) < bp 1024.
Proof. intros H. pose proof (no_over t H) as E. revert E. case Rlt_bool_spec; intros; auto; discriminate. Qed.
Lemma rnd_within w v e M : Rabs (w - v) <= e -> Rabs w <= M -> Rabs (rndF w - v) <= e + u * M + eta.
Proof.
  intros H1 H2. replace (rndF w - v) with ((rndF w - w) + (w - v)) by ring. eapply Rle_trans; [apply Rabs_triang|].
  pose proof (rnd_any w). pose proof u_pos. assert (u * Rabs w <= u * M) by (apply Rmult_le_compat_l; lra). lra.
Qed.
Lemma w_mul x y a b A B e f : within x a e -> within y b f -> Rabs a <= A -> Rabs b <= B -> (A + e) * (B + f) <= bp 1023 ->
  within (fmul B64 x y) (a * b) (A * f + B * e + e * f + u * ((A + e) * (B + f)) + eta).
Proof.
  intros X Y HA HB HO. destruct (within_val _ _ _ X) as (w & Fw & Hw). destruct (within_val _ _ _ Y) as (z & Fz & Hz).
  pose proof (abs_near _ _ _ _ Hw HA) as Aw. pose proof (abs_near _ _ _ _ Hz HB) as Az.
  assert (M : Rabs (w * z) <= (A + e) * (B + f)) by (rewrite Rabs_mult; apply Rmult_le_compat; auto; apply Rabs_pos).
  assert (E : Rabs (w * z - a * b) <= A * f + B * e + e * f).
  { replace (w * z - a * b) with (a * (z - b) + b * (w - a) + (w - a) * (z - b)) by ring.
    eapply Rle_trans; [apply Rabs_triang|]. rewrite (Rabs_mult (w - a)).
    apply Rplus_le_compat; [|apply Rmult_le_compat; auto; apply Rabs_pos].
    eapply Rle_trans; [apply Rabs_triang|]. rewrite !Rabs_mult. apply Rplus_le_compat; apply Rmult_le_compat; auto; apply Rabs_pos. }
  apply (within_of _ _ _ (rndF (w * z))); [apply fv_mul; auto; apply no_over'; lra|]. apply rnd_within; auto.
Qed.
Lemma w_add x y a b A e f : within x a e -> within y b f -> Rabs (a + b) <= A -> A + e + f <= bp 1023 ->
  within (fadd B64 x y) (a + b) (e + f + u * (A + e + f) + eta).
Proof.
  intros X Y HA HO. destruct (within_val _ _ _ X) as (w & Fw & Hw). destruct (within_val _ _ _ Y) as (z & Fz & Hz).
  assert (E : Rabs (w + z - (a + b)) <= e + f).
  { replace (w + z - (a + b)) with ((w - a) + (z - b)) by ring. eapply Rle_trans; [apply Rabs_triang|]. lra. }
  pose proof (abs_near _ _ _ _ E HA) as M.
  apply (within_of _ _ _ (rndF (w + z))); [apply fv_add; auto; apply no_over'; lra|]. apply rnd_within; auto. lra.
Qed.
Lemma w_sub x y a b A e f : within x a e -> within y b f -> Rabs (a - b) <= A -> A + e + f <= bp 1023 ->
  within (fsub B64 x y) (a - b) (e + f + u * (A + e + f) + eta).
Proof.
  intros X Y HA HO. destruct (within_val _ _ _ X) as (w & Fw & Hw). destruct (within_val _ _ _ Y) as (z & Fz & Hz).
  assert (E : Rabs (w - z - (a - b)) <= e + f).
  { replace (w - z - (a - b)) with ((w - a) + - (z - b)) by ring. eapply Rle_trans; [apply Rabs_triang|]. rewrite Rabs_Ropp. lra. }
  pose proof (abs_near _ _ _ _ E HA) as M.
  apply (within_of _ _ _ (rndF (w - z))); [apply fv_sub; auto; apply no_over'; lra|]. apply rnd_within; auto. lra.
Qed.
(* division by an exact positive value *)
Lemma w_div x y a b A e : within x a e -> fval y b -> 0 < b -> Rabs a <= A -> (A + e) / b <= bp 1023 ->
  within (fdiv B64 x y) (a / b) (e / b + u * ((A + e) / b) + eta).
Proof.
  intros X Y Pb HA HO. destruct (within_val _ _ _ X) as (w & Fw & Hw). pose proof (Rinv_0_lt_compat b Pb) as Ib.
  pose proof (abs_near _ _ _ _ Hw HA) as Aw.
  assert (E : Rabs (w / b - a / b) <= e / b).
  { replace (w / b - a / b) with ((w - a) * / b) by (unfold Rdiv; ring). rewrite Rabs_mult, (Rabs_pos_eq (/ b)) by lra.
    apply Rmult_le_compat_r; lra. }
  assert (M : Rabs (w / b) <= (A + e) / b).
  { unfold Rdiv. rewrite Rabs_mult, (Rabs_pos_eq (/ b)) by lra. apply Rmult_le_compat_r; lra. }
  apply (within_of _ _ _ (rndF (w / b))); [apply fv_div; auto; [lra|apply no_over'; lra]|]. apply rnd_within; auto.
Qed.

(** ** cosine and sine do not increase distances *)
Lemma sin_abs x : Rabs (sin x) <= Rabs x.
Proof.
  destruct (Rtotal_order x 0) as [H|[->|H]].
  - rewrite <- (Rabs_Ropp (sin x)), <- (Rabs_Ropp x), <- sin_neg. set (y := - x). assert (0 < y) by (unfold y; lra).
    destruct (Rle_lt_dec 1 y) as [L|L].
    + rewrite (Rabs_pos_eq y) by lra. pose proof (SIN_bound y). apply Rle_trans with 1; [apply Rabs_le; lra|lra].
    + pose proof (sin_lt_x y H0). pose proof PI_RGT_0. pose proof PI2_1. assert (0 < sin y) by (apply sin_gt_0; lra).
      rewrite !Rabs_pos_eq; lra.
  - rewrite sin_0. lra.
  - destruct (Rle_lt_dec 1 x) as [L|L].
    + rewrite (Rabs_pos_eq x) by lra. pose proof (SIN_bound x). apply Rle_trans with 1; [apply Rabs_le; lra|lra].
    + pose proof (sin_lt_x x H). pose proof PI_RGT_0. pose proof PI2_1. assert (0 < sin x) by (apply sin_gt_0; lra).
      rewrite !Rabs_pos_eq; lra.
Qed.
Lemma half_prod p q d : Rabs p <= 1 -> Rabs q <= Rabs (d / 2) -> Rabs (2 * p * q) <= Rabs d.
Proof.
  intros H1 H2. rewrite !Rabs_mult, (Rabs_pos_eq 2) by lra.
  replace (Rabs d) with (2 * 1 * Rabs (d / 2)).
  - apply Rmult_le_compat; auto using Rabs_pos; [|apply Rmult_le_compat_l; lra]. apply Rmult_le_pos; [lra|apply Rabs_pos].
  - unfold Rdiv. rewrite Rabs_mult, (Rabs_pos_eq (/ 2)) by lra. field.
Qed.
Lemma abs_cos x : Rabs (cos x) <= 1. Proof. apply Rabs_le. pose proof (COS_bound x). lra. Qed.
Lemma abs_sin x : Rabs (sin x) <= 1. Proof. apply Rabs_le. pose proof (SIN_bound x). lra. Qed.
Lemma cos_lip a b : Rabs (cos a - cos b) <= Rabs (a - b).
Proof.
  rewrite form2. replace (-2 * sin ((a - b) / 2) * sin ((a + b) / 2)) with (- (2 * sin ((a + b) / 2) * sin ((a - b) / 2))) by ring.
  rewrite Rabs_Ropp. apply half_prod; [apply abs_sin|apply sin_abs].
Qed.
Lemma sin_lip a b : Rabs (sin a - sin b) <= Rabs (a - b).
Proof. rewrite form4. apply half_prod; [apply abs_cos|apply sin_abs]. Qed.

Section Acc.
Variables (G : Trig B64) (eps : R).
Hypothesis HT : trig_acc G eps.
Hypothesis He : 0 <= eps <= / 1000.
Notation E := (eps + 50 * u).

Lemma pi_bd : 0 < PI <= 4. Proof. pose proof PI_RGT_0. pose proof PI_4. lra. Qed.
Lemma ratio_bd (i n : Z) P : (1 <= n)%Z -> (0 <= i <= n)%Z -> 0 <= P -> 0 <= IZR i * (P / IZR n) <= P.
Proof.
  intros Hn Hi HP. assert (0 < IZR n) by (apply (IZR_lt 0); lia). assert (0 <= IZR i <= IZR n) by (split; apply IZR_le; lia).
  pose proof (Rinv_0_lt_compat _ H). replace (IZR i * (P / IZR n)) with (P * (IZR i * / IZR n)) by (unfold Rdiv; ring).
  assert (0 <= IZR i * / IZR n <= 1).
  { split; [apply Rmult_le_pos; lra|]. rewrite <- (Rinv_r (IZR n)) by lra. apply Rmult_le_compat_r; lra. }
  split; [apply Rmult_le_pos; lra|]. rewrite <- (Rmult_1_r P) at 2. apply Rmult_le_compat_l; lra.
Qed.
(* i * (P / n) *)
Lemma angle_acc (t : B64) P (i n : Z) : within t P (8 * u) -> 0 <= P <= 8 -> (1 <= n <= 2 ^ 32)%Z -> (0 <= i <= n)%Z ->
  within (fmul B64 (fofZ B64 i) (fdiv B64 t (fofZ B64 n))) (IZR i * (P / IZR n)) (28 * u).
Proof.
  intros HP BP Hn Hi. pose proof u_pos as U. pose proof eta1 as ET. pose proof bp1000 as B1. pose proof bp1023 as B2.
  assert (Hn0 : 1 <= IZR n) by (apply (IZR_le 1); lia). assert (Hn1 : IZR n <= 4294967296) by (apply (IZR_le n 4294967296); lia).
  assert (Hi0 : 0 <= IZR i <= IZR n) by (split; apply IZR_le; lia).
  assert (Fn : fval (fofZ B64 n) (IZR n)) by (apply fv_ofZ; lia). assert (Fi : fval (fofZ B64 i) (IZR i)) by (apply fv_ofZ; lia).
  assert (In : 0 < / IZR n <= 1) by (split; [apply Rinv_0_lt_compat; lra|rewrite <- Rinv_1; apply Rinv_le_contravar; lra]).
  assert (Q : forall c, 0 <= c -> 0 <= c / IZR n <= c).
  { intros c Hc. unfold Rdiv. split; [apply Rmult_le_pos; lra|]. rewrite <- (Rmult_1_r c) at 2. apply Rmult_le_compat_l; lra. }
  pose proof (w_div _ _ _ (IZR n) 8 (8 * u) HP Fn) as D.
  assert (D1 : within (fdiv B64 t (fofZ B64 n)) (P / IZR n) (17 * u / IZR n + eta)).
  { eapply within_mono; [apply D|].
    - lra.
    - rewrite Rabs_pos_eq; lra.
    - pose proof (Q (8 + 8 * u)). lra.
    - assert (8 * u / IZR n + u * ((8 + 8 * u) / IZR n) <= 17 * u / IZR n); [|lra].
      unfold Rdiv. replace (8 * u * / IZR n + u * ((8 + 8 * u) * / IZR n)) with ((8 * u + u * (8 + 8 * u)) * / IZR n) by ring.
      apply Rmult_le_compat_r; [lra|]. assert (u * (8 + 8 * u) <= u * 9) by (apply Rmult_le_compat_l; lra). lra. }
  pose proof (ratio_bd i n P ltac:(lia) Hi ltac:(lra)) as RB.
  destruct (within_val _ _ _ D1) as (w & Fw & Hw).
  assert (HE : Rabs (IZR i * w - IZR i * (P / IZR n)) <= 17 * u + / 100 * u).
  { replace (IZR i * w - IZR i * (P / IZR n)) with (IZR i * (w - P / IZR n)) by ring. rewrite Rabs_mult, (Rabs_pos_eq (IZR i)) by lra.
    apply Rle_trans with (IZR i * (17 * u / IZR n + eta)); [apply Rmult_le_compat_l; lra|].
    rewrite Rmult_plus_distr_l. pose proof (ratio_bd i n (17 * u) ltac:(lia) Hi ltac:(lra)).
    assert (IZR i * eta <= 4294967296 * eta) by (apply Rmult_le_compat_r; lra).
    assert (4294967296 * eta <= / 100 * u); [|lra]. pose proof eta_u as EU.
    assert (eta * 1000000000000 <= eta * bp 1000) by (apply Rmult_le_compat_l; lra). lra. }
  pose proof (abs_near _ _ _ 8 HE) as AW. rewrite (Rabs_pos_eq (IZR i * (P / IZR n))) in AW by lra. specialize (AW ltac:(lra)).
  apply (within_of _ _ _ (rndF (IZR i * w))); [apply fv_mul; auto; apply no_over'; lra|].
  eapply Rle_trans; [apply (rnd_within _ _ _ (9) HE); lra|]. lra.
Qed.
Lemma sector_acc (j sc : Z) : (1 <= sc <= 2 ^ 32)%Z -> (0 <= j <= sc)%Z ->
  within (fmul B64 (fofZ B64 j) (fdiv B64 (tPi2 G) (fofZ B64 sc))) (IZR j * (2 * PI / IZR sc)) (50 * u).
Proof.
  intros H1 H2. destruct HT as (_ & H & _). rewrite u8 in H. pose proof pi_bd. pose proof u_pos.
  eapply within_mono; [apply angle_acc; auto; lra|]. lra.
Qed.
Lemma stack_acc t P (i st : Z) : within t P (8 * u) -> 0 <= P <= 8 -> (1 <= st <= 2 ^ 32)%Z -> (0 <= i <= st)%Z ->
  within (fsub B64 (tPiH G) (fmul B64 (fofZ B64 i) (fdiv B64 t (fofZ B64 st)))) (PI / 2 - IZR i * (P / IZR st)) (50 * u).
Proof.
  intros HP BP H1 H2. destruct HT as (_ & _ & H & _). rewrite u8 in H. pose proof pi_bd. pose proof u_pos as U.
  pose proof (angle_acc t P i st HP BP H1 H2) as A. pose proof (ratio_bd i st P ltac:(lia) H2 ltac:(lra)) as RB.
  pose proof bp1000. pose proof bp1023. pose proof eta1.
  eapply within_mono; [apply (w_sub _ _ _ _ 10 _ _ H A)|].
  - apply Rabs_le. lra.
  - lra.
  - assert (u * (10 + 8 * u + 28 * u) <= u * 11) by (apply Rmult_le_compat_l; lra). lra.
Qed.
Lemma trig_at x a : within x a (50 * u) -> Rabs a <= 12 -> within (tcos G x) (cos a) E /\ within (tsin G x) (sin a) E.
Proof.
  intros [F H] B. pose proof u_pos. pose proof (abs_near _ _ _ _ H B). destruct HT as (_ & _ & _ & T).
  destruct (T x F ltac:(lra)) as ((F1 & C1) & F2 & S1).
  pose proof (cos_lip (B2R (x : b64)) a). pose proof (sin_lip (B2R (x : b64)) a).
  split; (split; [assumption|]).
  - replace (B2R (tcos G x : b64) - cos a) with ((B2R (tcos G x : b64) - cos (B2R (x : b64))) + (cos (B2R (x : b64)) - cos a)) by ring.
    eapply Rle_trans; [apply Rabs_triang|]. lra.
  - replace (B2R (tsin G x : b64) - sin a) with ((B2R (tsin G x : b64) - sin (B2R (x : b64))) + (sin (B2R (x : b64)) - sin a)) by ring.
    eapply Rle_trans; [apply Rabs_triang|]. lra.
Qed.
Lemma E_small : 0 < E <= / 500. Proof. pose proof u_pos. lra. Qed.

(* a product of a value of size S with a cosine or sine *)
Lemma w_scale x y a b S e k f : within x a (S * e + k * eta) -> within y b f -> Rabs a <= S -> Rabs b <= 1 -> 0 <= e <= / 100 -> 0 <= f <= / 100 ->
  0 <= k <= 100 -> 0 <= S <= bp 1000 -> within (fmul B64 x y) (a * b) (S * (f + e + e * f + 2 * u) + (2 * k + 1) * eta).
Proof.
  intros X Y HA HB De Df Dk DS. pose proof u_pos as U. pose proof eta1 as ET. pose proof bp1000. pose proof bp1023.
  assert (Se : 0 <= S * e <= S * / 100) by (split; [apply Rmult_le_pos|apply Rmult_le_compat_l]; lra).
  assert (Ke : 0 <= k * eta <= 100 * eta) by (split; [apply Rmult_le_pos|apply Rmult_le_compat_r]; lra).
  assert (P0 : 0 <= S + (S * e + k * eta)) by lra.
  assert (P1 : (S + (S * e + k * eta)) * (1 + f) <= (S + (S * e + k * eta)) * (101 / 100)) by (apply Rmult_le_compat_l; lra).
  eapply within_mono; [apply (w_mul _ _ _ _ S 1 _ f X Y HA HB)|].
  - lra.
  - set (M := S + (S * e + k * eta)) in *.
    assert (u * (M * (1 + f)) <= u * (M * (101 / 100))) by (apply Rmult_le_compat_l; lra).
    assert (u * (k * eta) <= / 100 * (k * eta)) by (apply Rmult_le_compat_r; lra).
    assert (u * (S * e) <= u * (S * / 100)) by (apply Rmult_le_compat_l; lra).
    assert ((k * eta) * f <= (k * eta) * / 100) by (apply Rmult_le_compat_l; lra).
    assert (0 <= u * S) by (apply Rmult_le_pos; lra).
    unfold M in *. lra.
Qed.
(* an exact value times a cosine or sine *)
Lemma w_scale0 x y a b f : fval x a -> within y b f -> Rabs b <= 1 -> 0 <= f <= / 100 -> Rabs a <= bp 1000 ->
  within (fmul B64 x y) (a * b) (Rabs a * (f + 2 * u) + 1 * eta).
Proof.
  intros X Y HB Df Da. pose proof (Rabs_pos a). eapply within_mono.
  - apply (w_scale x y a b (Rabs a) 0 0 f); auto; try lra. eapply within_mono; [apply within_fval, X|]. lra.
  - lra.
Qed.
(* adding an exact value *)
Lemma w_shift x y a b S e k : within x a (S * e + k * eta) -> fval y b -> Rabs a <= S -> 0 <= e <= / 100 -> 0 <= k <= 100 -> 0 <= S <= bp 1000 -> Rabs b <= bp 1000 ->
  within (fadd B64 x y) (a + b) ((S + Rabs b) * (e + 2 * u) + (2 * k + 1) * eta) /\
  within (fadd B64 y x) (b + a) ((S + Rabs b) * (e + 2 * u) + (2 * k + 1) * eta).
Proof.
  intros X Y HA De Dk DS Db. pose proof u_pos as U. pose proof eta1 as ET. pose proof bp1000. pose proof bp1023. pose proof (Rabs_pos b).
  assert (Se : 0 <= S * e <= S * / 100) by (split; [apply Rmult_le_pos|apply Rmult_le_compat_l]; lra).
  assert (Ke : 0 <= k * eta <= 100 * eta) by (split; [apply Rmult_le_pos|apply Rmult_le_compat_r]; lra).
  assert (Be : 0 <= Rabs b * e) by (apply Rmult_le_pos; lra).
  assert (B2 : S * e + k * eta + u * (S + Rabs b + (S * e + k * eta)) + eta <= (S + Rabs b) * (e + 2 * u) + (2 * k + 1) * eta).
  { assert (u * (S * e) <= u * (S * / 100)) by (apply Rmult_le_compat_l; lra).
    assert (u * (k * eta) <= / 100 * (k * eta)) by (apply Rmult_le_compat_r; lra).
    assert (0 <= u * S) by (apply Rmult_le_pos; lra). assert (0 <= u * Rabs b) by (apply Rmult_le_pos; lra). lra. }
  assert (HS : Rabs (a + b) <= S + Rabs b) by (eapply Rle_trans; [apply Rabs_triang|]; lra).
  split.
  - eapply within_mono; [apply (w_add _ _ _ _ (S + Rabs b) _ 0 X (within_fval _ _ Y) HS)|]; rewrite ?Rplus_0_r; lra.
  - rewrite Rplus_comm in HS. eapply within_mono; [apply (w_add _ _ _ _ (S + Rabs b) 0 _ (within_fval _ _ Y) X HS)|]; rewrite ?Rplus_0_r; lra.
Qed.

(** ** the four shapes *)
Notation Ev := (3 * eps + 130 * u).
Lemma sector_bd (j sc : Z) : (1 <= sc)%Z -> (0 <= j <= sc)%Z -> Rabs (IZR j * (2 * PI / IZR sc)) <= 12.
Proof. intros H1 H2. pose proof pi_bd. pose proof (ratio_bd j sc (2 * PI) H1 H2 ltac:(lra)). apply Rabs_le. lra. Qed.
Lemma stack_bd P (i st : Z) : 0 <= P <= 8 -> (1 <= st)%Z -> (0 <= i <= st)%Z -> Rabs (PI / 2 - IZR i * (P / IZR st)) <= 12.
Proof. intros HP H1 H2. pose proof pi_bd. pose proof (ratio_bd i st P H1 H2 ltac:(lra)). apply Rabs_le. lra. Qed.
Lemma grid_acc xyOf zOf stackStep a xy z S e k (i j sc : Z) : (1 <= sc <= 2 ^ 32)%Z -> (0 <= j <= sc)%Z ->
  fsub B64 (tPiH G) (fmul B64 (fofZ B64 i) stackStep) = a ->
  within (xyOf a) xy (S * e + k * eta) -> within (zOf a) z (S * e + k * eta) -> Rabs xy <= S -> 0 <= e <= / 200 -> 0 <= k <= 20 -> 0 <= S <= bp 1000 ->
  vwithin (gv G xyOf zOf stackStep (fdiv B64 (tPi2 G) (fofZ B64 sc)) i j)
    (RV (xy * cos (IZR j * (2 * PI / IZR sc))) (xy * sin (IZR j * (2 * PI / IZR sc))) z) (S * (E + e + e * E + 2 * u) + 50 * eta).
Proof.
  intros H1 H2 Ha X Z HS De Dk DS. pose proof E_small as ES. pose proof u_pos. pose proof eta1.
  destruct (trig_at _ _ (sector_acc j sc H1 H2) (sector_bd j sc ltac:(lia) H2)) as [C S'].
  assert (KE : (2 * k + 1) * eta <= 50 * eta) by (apply Rmult_le_compat_r; lra).
  unfold gv, gridVertex. rewrite Ha. split; [|split]; cbn [vx vy vz rx ry rz].
  - eapply within_mono; [apply (w_scale _ _ _ _ S e k E X C); try lra; apply abs_cos|]. lra.
  - eapply within_mono; [apply (w_scale _ _ _ _ S e k E X S'); try lra; apply abs_sin|]. lra.
  - eapply within_mono; [apply Z|]. assert (0 <= S * (E + e * E + 2 * u)).
    { apply Rmult_le_pos; [lra|]. assert (0 <= e * E) by (apply Rmult_le_pos; lra). lra. }
    assert (k * eta <= 20 * eta) by (apply Rmult_le_compat_r; lra). lra.
Qed.
Lemma sphere_acc (r : B64) rho (i j sc st : Z) : fval r rho -> 0 <= rho <= bp 1000 -> (1 <= sc <= 2 ^ 32)%Z -> (1 <= st <= 2 ^ 32)%Z ->
  (0 <= i <= st)%Z -> (0 <= j <= sc)%Z ->
  vwithin (gv G (fun a => fmul B64 r (tcos G a)) (fun a => fmul B64 r (tsin G a)) (fdiv B64 (tPi G) (fofZ B64 st))
     (fdiv B64 (tPi2 G) (fofZ B64 sc)) i j) (sph_pos rho sc st i j) (rho * Ev + 50 * eta).
Proof.
  intros Fr Hr H1 H2 H3 H4. pose proof E_small as ES. pose proof u_pos as U. pose proof eta1. pose proof pi_bd.
  destruct HT as (HP & _). rewrite u8 in HP.
  pose proof (stack_acc _ _ i st HP ltac:(lra) H2 H3) as A. pose proof (stack_bd PI i st ltac:(lra) ltac:(lia) H3) as B.
  destruct (trig_at _ _ A B) as [C S'].
  assert (RP : Rabs rho = rho) by (apply Rabs_pos_eq; lra).
  assert (0 <= rho * u) by (apply Rmult_le_pos; lra). assert (0 <= rho * E) by (apply Rmult_le_pos; lra).
  pose proof (w_scale0 r _ rho _ E Fr C (abs_cos _) ltac:(lra) ltac:(lra)) as X.
  pose proof (w_scale0 r _ rho _ E Fr S' (abs_sin _) ltac:(lra) ltac:(lra)) as Z. rewrite RP in X, Z.
  assert (HX : Rabs (rho * cos (PI / 2 - IZR i * (PI / IZR st))) <= rho).
  { rewrite Rabs_mult, RP. rewrite <- (Rmult_1_r rho) at 2. apply Rmult_le_compat_l; [lra|apply abs_cos]. }
  destruct (grid_acc (fun a => fmul B64 r (tcos G a)) (fun a => fmul B64 r (tsin G a)) (fdiv B64 (tPi G) (fofZ B64 st)) _ _ _ rho (E + 2 * u) 1 i j sc H1 H4 eq_refl X Z HX ltac:(lra) ltac:(lra) ltac:(lra))
    as (V1 & V2 & V3).
  assert (K : rho * (E + (E + 2 * u) + (E + 2 * u) * E + 2 * u) + 50 * eta <= rho * Ev + 50 * eta).
  { apply Rplus_le_compat_r, Rmult_le_compat_l; [lra|]. assert ((E + 2 * u) * E <= (E + 2 * u) * / 500) by (apply Rmult_le_compat_l; lra). lra. }
  split; [|split]; (eapply within_mono; [|exact K]); assumption.
Qed.
Lemma torus_acc (R0 r : B64) rho0 rho (i j sc st : Z) : fval R0 rho0 -> fval r rho -> 0 <= rho0 <= bp 999 -> 0 <= rho <= bp 999 -> (1 <= sc <= 2 ^ 32)%Z -> (1 <= st <= 2 ^ 32)%Z ->
  (0 <= i <= st)%Z -> (0 <= j <= sc)%Z ->
  vwithin (gv G (fun a => fadd B64 R0 (fmul B64 r (tcos G a))) (fun a => fmul B64 r (tsin G a)) (fdiv B64 (tPi2 G) (fofZ B64 st))
     (fdiv B64 (tPi2 G) (fofZ B64 sc)) i j) (tor_pos rho0 rho sc st i j) ((rho0 + rho) * Ev + 50 * eta).
Proof.
  intros FR Fr HR Hr H1 H2 H3 H4. pose proof E_small as ES. pose proof u_pos as U. pose proof eta1. pose proof pi_bd.
  assert (B9 : 2 * bp 999 = bp 1000) by (change 1000%Z with (1 + 999)%Z; rewrite bpow_plus; reflexivity).
  destruct HT as (_ & HP & _). rewrite u8 in HP.
  pose proof (stack_acc _ _ i st HP ltac:(lra) H2 H3) as A. pose proof (stack_bd (2 * PI) i st ltac:(lra) ltac:(lia) H3) as B.
  destruct (trig_at _ _ A B) as [C S'].
  assert (RP : Rabs rho = rho) by (apply Rabs_pos_eq; lra). assert (RP0 : Rabs rho0 = rho0) by (apply Rabs_pos_eq; lra).
  pose proof (w_scale0 r _ rho _ E Fr C (abs_cos _) ltac:(lra) ltac:(lra)) as X.
  pose proof (w_scale0 r _ rho _ E Fr S' (abs_sin _) ltac:(lra) ltac:(lra)) as Z. rewrite RP in X, Z.
  assert (HX : Rabs (rho * cos (PI / 2 - IZR i * (2 * PI / IZR st))) <= rho).
  { rewrite Rabs_mult, RP. rewrite <- (Rmult_1_r rho) at 2. apply Rmult_le_compat_l; [lra|apply abs_cos]. }
  destruct (w_shift _ R0 _ rho0 rho (E + 2 * u) 1 X FR HX ltac:(lra) ltac:(lra) ltac:(lra) ltac:(lra)) as [_ Y]. rewrite RP0 in Y.
  assert (X' : within (fadd B64 R0 (fmul B64 r (tcos G (fsub B64 (tPiH G) (fmul B64 (fofZ B64 i) (fdiv B64 (tPi2 G) (fofZ B64 st)))))))
     (rho0 + rho * cos (PI / 2 - IZR i * (2 * PI / IZR st))) ((rho0 + rho) * (E + 4 * u) + 3 * eta)).
  { eapply within_mono; [apply Y|]. assert (0 <= rho * u) by (apply Rmult_le_pos; lra). lra. }
  assert (0 <= rho0 * E) by (apply Rmult_le_pos; lra). assert (0 <= rho0 * u) by (apply Rmult_le_pos; lra). assert (0 <= rho * u) by (apply Rmult_le_pos; lra).
  assert (Z' : within (fmul B64 r (tsin G (fsub B64 (tPiH G) (fmul B64 (fofZ B64 i) (fdiv B64 (tPi2 G) (fofZ B64 st))))))
     (rho * sin (PI / 2 - IZR i * (2 * PI / IZR st))) ((rho0 + rho) * (E + 4 * u) + 3 * eta)).
  { eapply within_mono; [apply Z|]. lra. }
  assert (HX' : Rabs (rho0 + rho * cos (PI / 2 - IZR i * (2 * PI / IZR st))) <= rho0 + rho).
  { eapply Rle_trans; [apply Rabs_triang|]. rewrite RP0. lra. }
  destruct (grid_acc (fun a => fadd B64 R0 (fmul B64 r (tcos G a))) (fun a => fmul B64 r (tsin G a)) (fdiv B64 (tPi2 G) (fofZ B64 st)) _ _ _ (rho0 + rho) (E + 4 * u) 3 i j sc H1 H4 eq_refl X' Z' HX' ltac:(lra) ltac:(lra) ltac:(lra))
    as (V1 & V2 & V3).
  assert (K : (rho0 + rho) * (E + (E + 4 * u) + (E + 4 * u) * E + 2 * u) + 50 * eta <= (rho0 + rho) * Ev + 50 * eta).
  { apply Rplus_le_compat_r, Rmult_le_compat_l; [lra|]. assert ((E + 4 * u) * E <= (E + 4 * u) * / 500) by (apply Rmult_le_compat_l; lra). lra. }
  split; [|split]; (eapply within_mono; [|exact K]); assumption.
Qed.
Lemma fan_acc (c : vec B64) q (a b : B64) ra rb (i sc : Z) : fval (vx c) (rx q) -> fval (vy c) (ry q) -> fval (vz c) (rz q) -> fval a ra -> fval b rb ->
  Rabs ra <= bp 1000 -> Rabs rb <= bp 1000 -> Rabs (rx q) <= bp 1000 -> Rabs (ry q) <= bp 1000 -> (1 <= sc <= 2 ^ 32)%Z -> (0 <= i <= sc)%Z ->
  let v := ellipseVertex G c a b (fdiv B64 (tPi2 G) (fofZ B64 sc)) i in
  within (vx v) (ra * cos (fan_angle sc i) + rx q) ((Rabs ra + Rabs (rx q)) * (eps + 60 * u) + 3 * eta) /\
  within (vy v) (rb * sin (fan_angle sc i) + ry q) ((Rabs rb + Rabs (ry q)) * (eps + 60 * u) + 3 * eta) /\
  within (vz v) (rz q) 0.
Proof.
  intros Fx Fy Fz Fa Fb Ha Hb Hx Hy H1 H2. pose proof E_small as ES. pose proof u_pos as U. pose proof eta1. pose proof pi_bd.
  destruct HT as (_ & HP & _). rewrite u8 in HP.
  pose proof (stack_acc _ _ i sc HP ltac:(lra) H1 H2) as A. pose proof (stack_bd (2 * PI) i sc ltac:(lra) ltac:(lia) H2) as B.
  destruct (trig_at _ _ A B) as [C S']. fold (fan_angle sc i) in C, S'.
  unfold ellipseVertex, Add_method. cbn [vx vy vz].
  pose proof (Rabs_pos ra). pose proof (Rabs_pos rb). pose proof (Rabs_pos (rx q)). pose proof (Rabs_pos (ry q)).
  pose proof (w_scale0 a _ ra _ E Fa C (abs_cos _) ltac:(lra) ltac:(lra)) as X.
  pose proof (w_scale0 b _ rb _ E Fb S' (abs_sin _) ltac:(lra) ltac:(lra)) as Y.
  assert (HX : Rabs (ra * cos (fan_angle sc i)) <= Rabs ra).
  { rewrite Rabs_mult. rewrite <- (Rmult_1_r (Rabs ra)) at 2. apply Rmult_le_compat_l; [lra|apply abs_cos]. }
  assert (HY : Rabs (rb * sin (fan_angle sc i)) <= Rabs rb).
  { rewrite Rabs_mult. rewrite <- (Rmult_1_r (Rabs rb)) at 2. apply Rmult_le_compat_l; [lra|apply abs_sin]. }
  assert (K : forall s t e, 0 <= s -> 0 <= t -> e <= eps + 60 * u -> (s + t) * e <= (s + t) * (eps + 60 * u)) by (intros; apply Rmult_le_compat_l; lra).
  split; [|split].
  - destruct (w_shift _ (vx c) _ _ (Rabs ra) (E + 2 * u) 1 X Fx HX ltac:(lra) ltac:(lra) ltac:(lra) ltac:(lra)) as [Q _].
    eapply within_mono; [apply Q|]. pose proof (K (Rabs ra) (Rabs (rx q)) (E + 2 * u + 2 * u) ltac:(lra) ltac:(lra) ltac:(lra)). lra.
  - destruct (w_shift _ (vy c) _ _ (Rabs rb) (E + 2 * u) 1 Y Fy HY ltac:(lra) ltac:(lra) ltac:(lra) ltac:(lra)) as [Q _].
    eapply within_mono; [apply Q|]. pose proof (K (Rabs rb) (Rabs (ry q)) (E + 2 * u + 2 * u) ltac:(lra) ltac:(lra) ltac:(lra)). lra.
  - apply within_fval. apply fv_0add; auto. apply (fv_ofZ 0). reflexivity.
Qed.
(* the normals of the sphere *)
Lemma normal_acc (r x : B64) rho a e : fval r rho -> bp (-1000) <= rho <= bp 1000 -> within x a (rho * e + 50 * eta) -> 0 <= e <= / 100 -> Rabs a <= rho ->
  within (fmul B64 x (fdiv B64 (fofZ B64 1) r)) (a / rho) (e + 5 * u).
Proof.
  intros Fr Hr X De Ha. pose proof u_pos as U. pose proof eta_u as EU. pose proof eta1 as E1. pose proof bp1000 as B0. pose proof bp1023 as B1.
  assert (Bm : bp (-1000) * bp 1000 = 1) by (rewrite <- bpow_plus; reflexivity). pose proof (bpow_gt_0 radix2 (-1000)) as P0.
  assert (Pr : 0 < rho) by lra. assert (Ir : 0 < / rho) by (apply Rinv_0_lt_compat; lra).
  assert (Ir1 : / rho <= bp 1000).
  { apply Rmult_le_reg_l with rho; auto. rewrite Rinv_r by lra. rewrite <- Bm. apply Rmult_le_compat_r; lra. }
  assert (D : within (fdiv B64 (fofZ B64 1) r) (1 / rho) (u * / rho + eta)).
  { eapply within_mono; [apply (w_div _ _ _ rho 1 0 (within_fval _ _ (fv_ofZ 1 ltac:(lia))) Fr Pr)|].
    - rewrite Rabs_R1. lra.
    - unfold Rdiv. rewrite Rplus_0_r, Rmult_1_l. lra.
    - unfold Rdiv. rewrite Rplus_0_r, Rmult_1_l, Rmult_0_l. lra. }
  assert (I1 : rho * / rho = 1) by (apply Rinv_r; lra).
  assert (RE : 0 <= rho * e <= rho * / 100) by (split; [apply Rmult_le_pos|apply Rmult_le_compat_l]; lra).
  assert (R1 : rho * eta <= / 1000000 * u) by (rewrite Rmult_comm; apply Rle_trans with (eta * bp 1000); [apply Rmult_le_compat_l|]; lra).
  assert (R2 : 0 <= / rho * eta <= / 1000000 * u) by (split; [apply Rmult_le_pos; lra|]; rewrite Rmult_comm; apply Rle_trans with (eta * bp 1000); [apply Rmult_le_compat_l|]; lra).
  assert (R3 : eta * eta <= / 1000000 * eta) by (apply Rmult_le_compat_r; lra).
  assert (R4 : u * (/ rho * eta) <= / 1000000 * (/ rho * eta)) by (apply Rmult_le_compat_r; lra).
  assert (R5 : e * (rho * eta) <= / 100 * (rho * eta)) by (apply Rmult_le_compat_r; [apply Rmult_le_pos|]; lra).
  assert (R6 : e * u <= / 100 * u) by (apply Rmult_le_compat_r; lra).
  assert (PM : (rho + (rho * e + 50 * eta)) * (/ rho + (u * / rho + eta)) =
     (1 + e) * (1 + u) * (rho * / rho) + (rho * eta) + e * (rho * eta) + 50 * (/ rho * eta) + 50 * (u * (/ rho * eta)) + 50 * (eta * eta)) by ring.
  rewrite I1 in PM.
  assert (PB : (rho + (rho * e + 50 * eta)) * (/ rho + (u * / rho + eta)) <= 2).
  { rewrite PM. lra. }
  unfold Rdiv. replace (a * / rho) with (a * (1 / rho)) by (unfold Rdiv; ring).
  eapply within_mono; [apply (w_mul _ _ _ _ rho (/ rho) _ _ X D Ha)|].
  - unfold Rdiv. rewrite Rmult_1_l. rewrite Rabs_pos_eq; lra.
  - lra.
  - replace (rho * (u * / rho + eta) + / rho * (rho * e + 50 * eta) + (rho * e + 50 * eta) * (u * / rho + eta))
      with (u * (rho * / rho) + rho * eta + e * (rho * / rho) + 50 * (/ rho * eta) + e * u * (rho * / rho) + e * (rho * eta) + 50 * (u * (/ rho * eta)) + 50 * (eta * eta)) by ring.
    rewrite I1. assert (u * ((rho + (rho * e + 50 * eta)) * (/ rho + (u * / rho + eta))) <= u * 2) by (apply Rmult_le_compat_l; lra). lra.
Qed.
End Acc.
