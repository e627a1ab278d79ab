(** Triangulate in binary64 does the same on an input multiplied by a power of two. *)
From Coq Require Import Reals Lra Lia ZArith QArith List Bool.
From Flocq Require Import Core BinarySingleNaN.
From Verif Require Import Base Arith GoLoop M_r3 M_tri2 M_triangulator Spec_r3 Spec_plane Spec_acc64 XRvec P_r3 P_predicates P_insphere_err P_insphere_b64 P_b64err P_b64nurbs P_acc64 Spec_scale64 Spec_similar P_same.
Import ListNotations.
Open Scope R_scope.
Notation bw := (bpow radix2).

Lemma rndX_scale r s : rndX (r * bw s) = rndX r * bw s.
Proof.
  destruct (Req_dec r 0) as [->|N]; [rewrite Rmult_0_l; unfold rndX; rewrite round_0 by typeclasses eauto; ring|].
  unfold rndX, round, scaled_mantissa, cexp, F2R. cbn [Fnum Fexp].
  rewrite mag_mult_bpow by exact N. unfold FLX_exp. set (c := mag radix2 r).
  replace (r * bw s * bw (- (c + s - 53))) with (r * bw (- (c - 53))).
  - replace (c + s - 53)%Z with (c - 53 + s)%Z by ring. rewrite bpow_plus. ring.
  - rewrite Rmult_assoc, <- bpow_plus. f_equal. f_equal. ring.
Qed.

Section Scale.
Variable e : Z.
(** [sc j m M x x']: x' is x times 2^(j e), and both are multiples of 2^-m at most 2^M *)
Definition sc (j m M : Z) (x x' : b64) : Prop := rel x (B2R x) m M /\ rel x' (B2R x') m M /\ B2R x' = B2R x * bw (j * e).
Lemma sc_weak j m M n N x x' : (m <= n)%Z -> (M <= N)%Z -> sc j m M x x' -> sc j n N x x'.
Proof.
  intros Hm HM (R1 & R2 & E).
  assert (W : forall y, rel y (B2R y) m M -> rel y (B2R y) n N).
  { intros y (F & V & X & Y). split; [exact F|]. split; [exact V|]. split; [apply (fixm_weak m); assumption|]. eapply Rle_trans; [exact Y|]. apply bpow_le. exact HM. }
  split; [apply W; exact R1|]. split; [apply W; exact R2|exact E].
Qed.
Lemma rel_own x r m M : rel x r m M -> rel x (B2R x) m M /\ B2R x = r.
Proof. intros (F & E & G). rewrite E. split; [split; [exact F|split; [exact E|exact G]]|reflexivity]. Qed.
Lemma sc_add j m M x x' y y' : (m <= 1022)%Z -> (M + 1 < 1024)%Z -> sc j m M x x' -> sc j m M y y' -> sc j m (M + 1) (fadd B64 x y) (fadd B64 x' y').
Proof.
  intros Hm HM (X1 & X2 & Ex) (Y1 & Y2 & Ey).
  destruct (rel_own _ _ _ _ (rel_add _ _ _ _ _ _ Hm HM X1 Y1)) as (A1 & A2). destruct (rel_own _ _ _ _ (rel_add _ _ _ _ _ _ Hm HM X2 Y2)) as (B1 & B2).
  split; [exact A1|]. split; [exact B1|]. rewrite A2, B2, Ex, Ey, <- Rmult_plus_distr_r. apply rndX_scale.
Qed.
Lemma sc_sub j m M x x' y y' : (m <= 1022)%Z -> (M + 1 < 1024)%Z -> sc j m M x x' -> sc j m M y y' -> sc j m (M + 1) (fsub B64 x y) (fsub B64 x' y').
Proof.
  intros Hm HM (X1 & X2 & Ex) (Y1 & Y2 & Ey).
  destruct (rel_own _ _ _ _ (rel_sub _ _ _ _ _ _ Hm HM X1 Y1)) as (A1 & A2). destruct (rel_own _ _ _ _ (rel_sub _ _ _ _ _ _ Hm HM X2 Y2)) as (B1 & B2).
  split; [exact A1|]. split; [exact B1|]. rewrite A2, B2, Ex, Ey, <- Rmult_minus_distr_r. apply rndX_scale.
Qed.
Lemma sc_mul j k l m M n N x x' y y' : (m + n <= 1022)%Z -> (M + N < 1024)%Z -> l = (j + k)%Z -> sc j m M x x' -> sc k n N y y' -> sc l (m + n) (M + N) (fmul B64 x y) (fmul B64 x' y').
Proof.
  intros Hm HM -> (X1 & X2 & Ex) (Y1 & Y2 & Ey).
  destruct (rel_own _ _ _ _ (rel_mul _ _ _ _ _ _ _ _ Hm HM X1 Y1)) as (A1 & A2). destruct (rel_own _ _ _ _ (rel_mul _ _ _ _ _ _ _ _ Hm HM X2 Y2)) as (B1 & B2).
  split; [exact A1|]. split; [exact B1|]. rewrite A2, B2, Ex, Ey.
  replace ((j + k) * e)%Z with (j * e + k * e)%Z by ring. rewrite bpow_plus.
  replace (B2R x * bw (j * e) * (B2R y * bw (k * e))) with (B2R x * B2R y * bw (j * e + k * e)) by (rewrite bpow_plus; ring).
  rewrite rndX_scale, bpow_plus. reflexivity.
Qed.
Lemma fixm_low m r : fixm m r -> r <> 0 -> bw (- m) <= Rabs r.
Proof.
  intros [k ->] N. rewrite Rabs_mult, (Rabs_pos_eq (bw _)) by apply bpow_ge_0. rewrite <- (Rmult_1_l (bw (- m))) at 1.
  apply Rmult_le_compat_r; [apply bpow_ge_0|]. rewrite <- abs_IZR. apply IZR_le.
  assert (k <> 0)%Z by (intros ->; apply N; ring). lia.
Qed.
Lemma rel_divq x y m M n N : (m + N + 53 <= 1022)%Z -> (M + n < 1024)%Z -> rel x (B2R x) m M -> rel y (B2R y) n N -> B2R y <> 0 ->
  rel (fdiv B64 x y) (rndX (B2R x / B2R y)) (m + N + 53) (M + n).
Proof.
  intros Hm HM (Fx & _ & Gx & Bx) (Fy & _ & Gy & By) Ny. pose proof (fixm_low _ _ Gy Ny) as Ly.
  assert (P : 0 < Rabs (B2R y)) by (apply Rabs_pos_lt; exact Ny).
  assert (I1 : / Rabs (B2R y) <= bw n).
  { replace n with (- - n)%Z by lia. rewrite bpow_opp. apply Rinv_le_contravar; [apply bpow_gt_0|exact Ly]. }
  assert (I2 : bw (- N) <= / Rabs (B2R y)) by (rewrite bpow_opp; apply Rinv_le_contravar; assumption).
  assert (U : Rabs (B2R x / B2R y) <= bw (M + n)).
  { unfold Rdiv. rewrite Rabs_mult, Rabs_inv, bpow_plus. apply Rmult_le_compat; try apply Rabs_pos; [left; apply Rinv_0_lt_compat; exact P|exact Bx|exact I1]. }
  destruct (fdiv_val x y Fx Ny) as (Fq & Eq); [eapply Rle_trans; [exact U|apply bpow_le; lia]|].
  destruct (Req_dec (B2R x) 0) as [Z|Z].
  - rewrite Z in *. replace (0 / B2R y) with 0 in * by (field; exact Ny). assert (R0 : rndX 0 = 0) by (unfold rndX; apply round_0; typeclasses eauto).
    rewrite R0. split; [exact Fq|]. split; [rewrite Eq; apply round_0; typeclasses eauto|]. split; [exists 0%Z; ring|]. rewrite Rabs_R0. apply bpow_ge_0.
  - assert (L : bw (- (m + N)) <= Rabs (B2R x / B2R y)).
    { unfold Rdiv. rewrite Rabs_mult, Rabs_inv. replace (- (m + N))%Z with (- m + - N)%Z by ring. rewrite bpow_plus.
      apply Rmult_le_compat; try apply bpow_ge_0; [apply fixm_low; assumption|exact I2]. }
    assert (EX : rndF (B2R x / B2R y) = rndX (B2R x / B2R y)).
    { unfold rndX. simpl round_mode. rewrite <- round_FLT_FLX with (emin := (-1074)%Z); [reflexivity|]. eapply Rle_trans; [|exact L]. apply bpow_le. lia. }
    rewrite EX in Eq. split; [exact Fq|]. split; [exact Eq|]. split; [|apply rndX_bound; exact U].
    apply (fixm_weak (m + N + 52)); [lia|]. apply fixm_rnd. exact L.
Qed.
Lemma sc_div j k l m M n N x x' y y' : (m + N + 53 <= 1022)%Z -> (M + n < 1024)%Z -> l = (j - k)%Z -> sc j m M x x' -> sc k n N y y' -> B2R y <> 0 ->
  sc l (m + N + 53) (M + n) (fdiv B64 x y) (fdiv B64 x' y').
Proof.
  intros Hm HM -> (X1 & X2 & Ex) (Y1 & Y2 & Ey) Ny. pose proof (bpow_gt_0 radix2 (k * e)) as Pk.
  assert (Ny' : B2R y' <> 0) by (rewrite Ey; apply Rmult_integral_contrapositive_currified; [exact Ny|lra]).
  destruct (rel_own _ _ _ _ (rel_divq _ _ _ _ _ _ Hm HM X1 Y1 Ny)) as (A1 & A2). destruct (rel_own _ _ _ _ (rel_divq _ _ _ _ _ _ Hm HM X2 Y2 Ny')) as (B1 & B2).
  split; [exact A1|]. split; [exact B1|]. rewrite A2, B2, Ex, Ey.
  replace ((j - k) * e)%Z with (j * e + - (k * e))%Z by ring. rewrite <- rndX_scale. f_equal. rewrite bpow_plus, bpow_opp. field. split; try exact Ny; lra.
Qed.
Lemma sc_abs j m M x x' : sc j m M x x' -> sc j m M (fabs B64 x) (fabs B64 x').
Proof.
  intros (X1 & X2 & Ex). destruct (rel_own _ _ _ _ (rel_abs _ _ _ _ X1)) as (A1 & A2). destruct (rel_own _ _ _ _ (rel_abs _ _ _ _ X2)) as (B1 & B2).
  split; [exact A1|]. split; [exact B1|]. rewrite A2, B2, Ex, Rabs_mult, (Rabs_pos_eq (bw _)) by apply bpow_ge_0. reflexivity.
Qed.
Lemma sc_zero j m M : (0 <= m)%Z -> sc j m M (fofZ B64 0) (fofZ B64 0).
Proof.
  intros H. assert (Z : B2R (fofZ B64 0 : b64) = 0) by reflexivity.
  assert (Rl : rel (fofZ B64 0) (B2R (fofZ B64 0 : b64)) m M).
  { rewrite Z. split; [reflexivity|]. split; [reflexivity|]. split; [exists 0%Z; ring|]. rewrite Rabs_R0. apply bpow_ge_0. }
  split; [exact Rl|]. split; [exact Rl|]. rewrite Z. ring.
Qed.
Lemma sc_same m M x : rel x (B2R x) m M -> sc 0 m M x x.
Proof. intros H. split; [exact H|]. split; [exact H|]. replace (0 * e)%Z with 0%Z by ring. change (bw 0) with 1. ring. Qed.
Lemma sc_half : sc 0 1 0 (fofQ B64 (1 # 2)) (fofQ B64 (1 # 2)).
Proof.
  apply sc_same. assert (E : B2R (fofQ B64 (1 # 2) : b64) = / 2) by (cbn; unfold F2R; cbn; lra). rewrite E. split; [reflexivity|]. split; [exact E|].
  split; [exists 1%Z; change (bw (- (1))) with (/ 2); lra|]. rewrite Rabs_pos_eq by lra. change (bw 0) with 1. lra.
Qed.
Lemma two_val : B2R (fofZ B64 2 : b64) = 2. Proof. cbn. unfold F2R. cbn. lra. Qed.
Lemma sc_two : sc 0 0 1 (fofZ B64 2) (fofZ B64 2).
Proof.
  apply sc_same. rewrite two_val. split; [reflexivity|]. split; [exact two_val|].
  split; [exists 2%Z; change (bw (- 0)) with 1; lra|]. rewrite Rabs_pos_eq by lra. change (bw 1) with 2. lra.
Qed.
(** comparisons *)
Lemma sc_fin j m M x x' : sc j m M x x' -> is_finite x = true /\ is_finite x' = true.
Proof. intros ((F & _) & (F' & _) & _). split; assumption. Qed.
Lemma sc_lt j m M n N x x' y y' : sc j m M x x' -> sc j n N y y' -> flt B64 x y = flt B64 x' y'.
Proof.
  intros X Y. destruct (sc_fin _ _ _ _ _ X) as (F1 & F2), (sc_fin _ _ _ _ _ Y) as (F3 & F4). destruct X as (_ & _ & Ex), Y as (_ & _ & Ey).
  cbn [flt B64]. rewrite !Bltb_correct by assumption. rewrite Ex, Ey. pose proof (bpow_gt_0 radix2 (j * e)) as P.
  destruct (Rlt_bool_spec (B2R x) (B2R y)) as [H|H]; symmetry; [apply Rlt_bool_true, Rmult_lt_compat_r; assumption|apply Rlt_bool_false, Rmult_le_compat_r; lra].
Qed.
Lemma sc_le j m M n N x x' y y' : sc j m M x x' -> sc j n N y y' -> fle B64 x y = fle B64 x' y'.
Proof.
  intros X Y. destruct (sc_fin _ _ _ _ _ X) as (F1 & F2), (sc_fin _ _ _ _ _ Y) as (F3 & F4). destruct X as (_ & _ & Ex), Y as (_ & _ & Ey).
  cbn [fle B64]. rewrite !Bleb_correct by assumption. rewrite Ex, Ey. pose proof (bpow_gt_0 radix2 (j * e)) as P.
  destruct (Rle_bool_spec (B2R x) (B2R y)) as [H|H]; symmetry; [apply Rle_bool_true, Rmult_le_compat_r; lra|apply Rle_bool_false, Rmult_lt_compat_r; assumption].
Qed.
Lemma sc_eq j m M n N x x' y y' : sc j m M x x' -> sc j n N y y' -> feq B64 x y = feq B64 x' y'.
Proof.
  intros X Y. destruct (sc_fin _ _ _ _ _ X) as (F1 & F2), (sc_fin _ _ _ _ _ Y) as (F3 & F4). destruct X as (_ & _ & Ex), Y as (_ & _ & Ey).
  cbn [feq B64]. rewrite !Beqb_correct by assumption. rewrite Ex, Ey. pose proof (bpow_gt_0 radix2 (j * e)) as P.
  destruct (Req_bool_spec (B2R x) (B2R y)) as [H|H]; symmetry; [apply Req_bool_true; rewrite H; reflexivity|apply Req_bool_false]. intros Z. apply H. apply Rmult_eq_reg_r in Z; [exact Z|lra].
Qed.
Lemma feq0 x : is_finite x = true -> feq B64 x (fofZ B64 0) = false -> B2R x <> 0.
Proof.
  intros F H Z. cbn [feq B64] in H. rewrite Beqb_correct in H by (try exact F; reflexivity).
  replace (B2R (fofZ B64 0 : b64)) with 0 in H by reflexivity. rewrite Z in H. rewrite Req_bool_true in H by reflexivity. discriminate H.
Qed.

(** ** points *)
Definition PT (v v' : vec B64) : Prop := sc 1 90 90 (vx v) (vx v') /\ sc 1 90 90 (vy v) (vy v') /\ sc 1 90 90 (vz v) (vz v').
Lemma ldexp_sc x : scalable e x -> sc 1 90 90 x (ldexp64 e x).
Proof.
  intros (F & (G1 & B1) & (G2 & B2)).
  assert (E : rndF (B2R x * bw e) = B2R x * bw e).
  { rewrite (rndF_rndX 90) by (try lia; exact G2). rewrite rndX_scale. f_equal. unfold rndX. apply round_generic; [typeclasses eauto|].
    apply generic_format_FLX_FLT with (emin := (-1074)%Z). apply (generic_format_B2R 53 1024 x). }
  pose proof (Bldexp_correct 53 1024 b64_prec b64_pe mode_NE x e) as C. rewrite E in C. rewrite Rlt_bool_true in C.
  - destruct C as (C1 & C2 & _). fold (ldexp64 e x) in C1, C2. split; [|split].
    + split; [exact F|]. split; [reflexivity|]. split; assumption.
    + split; [rewrite C2; exact F|]. split; [reflexivity|]. rewrite C1. split; assumption.
    + rewrite C1, Z.mul_1_l. reflexivity.
  - eapply Rle_lt_trans; [exact B2|]. apply bpow_lt. lia.
Qed.
Lemma scale_PT v : scalable_vec e v -> PT v (scale64 e v).
Proof. intros (X & Y & Z). refine (conj _ (conj _ _)); apply ldexp_sc; assumption. Qed.

Ltac w := match goal with |- sc _ _ _ _ _ => idtac end; eapply sc_weak; cycle 2.
Section Points.
Lemma sub_PT x x' y y' : sc 1 90 90 x x' -> sc 1 90 90 y y' -> sc 1 90 91 (fsub B64 x y) (fsub B64 x' y').
Proof. intros. apply (sc_sub 1 90 90); try lia; assumption. Qed.
Lemma prod2 x x' y y' : sc 1 90 91 x x' -> sc 1 90 91 y y' -> sc 2 180 182 (fmul B64 x y) (fmul B64 x' y').
Proof. intros. apply (sc_mul 1 1 2 90 91 90 91); try lia; assumption. Qed.
Lemma sum2 x x' y y' : sc 2 180 182 x x' -> sc 2 180 182 y y' -> sc 2 180 183 (fadd B64 x y) (fadd B64 x' y').
Proof. intros. apply (sc_add 2 180 182); try lia; assumption. Qed.
Lemma dif2 x x' y y' : sc 2 180 182 x x' -> sc 2 180 182 y y' -> sc 2 180 183 (fsub B64 x y) (fsub B64 x' y').
Proof. intros. apply (sc_sub 2 180 182); try lia; assumption. Qed.
Lemma prod3 x x' y y' : sc 1 90 91 x x' -> sc 2 180 183 y y' -> sc 3 270 274 (fmul B64 x y) (fmul B64 x' y').
Proof. intros. apply (sc_mul 1 2 3 90 91 180 183); try lia; assumption. Qed.
Lemma prod3' x x' y y' : sc 2 180 183 x x' -> sc 1 90 91 y y' -> sc 3 270 274 (fmul B64 x y) (fmul B64 x' y').
Proof. intros. apply (sc_mul 2 1 3 180 183 90 91); try lia; assumption. Qed.
Lemma dif3 x x' y y' : sc 3 270 274 x x' -> sc 3 270 274 y y' -> sc 3 270 275 (fsub B64 x y) (fsub B64 x' y').
Proof. intros. apply (sc_sub 3 270 274); try lia; assumption. Qed.
Lemma prod4 x x' y y' : sc 1 90 91 x x' -> sc 3 270 275 y y' -> sc 4 360 366 (fmul B64 x y) (fmul B64 x' y').
Proof. intros. apply (sc_mul 1 3 4 90 91 270 275); try lia; assumption. Qed.
Lemma prod22 x x' y y' : sc 2 180 183 x x' -> sc 2 180 183 y y' -> sc 4 360 366 (fmul B64 x y) (fmul B64 x' y').
Proof. intros. apply (sc_mul 2 2 4 180 183 180 183); try lia; assumption. Qed.
Lemma half3 x x' : sc 3 270 275 x x' -> sc 3 271 275 (fmul B64 x (fofQ B64 (1 # 2))) (fmul B64 x' (fofQ B64 (1 # 2))).
Proof. intros. apply (sc_mul 3 0 3 270 275 1 0); try lia; [assumption|exact sc_half]. Qed.
Lemma quot x x' y y' : sc 3 271 275 x x' -> sc 2 180 183 y y' -> B2R y <> 0 -> sc 1 507 455 (fdiv B64 x y) (fdiv B64 x' y').
Proof. intros. apply (sc_div 3 2 1 271 275 180 183); try lia; assumption. Qed.

Lemma PT_inC a a' b b' c c' d d' : PT a a' -> PT b b' -> PT c c' -> PT d d' -> inCircle a b c d = inCircle a' b' c' d'.
Proof.
  intros (Ax & Ay & _) (Bx & By & _) (Cx & Cy & _) (Dx & Dy & _). unfold inCircle. cbv zeta.
  apply (sc_lt 4 360 368 0 0); [|apply sc_zero; lia].
  pose proof (sub_PT _ _ _ _ Ax Dx) as P1. pose proof (sub_PT _ _ _ _ Ay Dy) as P2. pose proof (sub_PT _ _ _ _ Bx Dx) as P3.
  pose proof (sub_PT _ _ _ _ By Dy) as P4. pose proof (sub_PT _ _ _ _ Cx Dx) as P5. pose proof (sub_PT _ _ _ _ Cy Dy) as P6.
  pose proof (sum2 _ _ _ _ (prod2 _ _ _ _ P1 P1) (prod2 _ _ _ _ P2 P2)) as Qa. pose proof (sum2 _ _ _ _ (prod2 _ _ _ _ P3 P3) (prod2 _ _ _ _ P4 P4)) as Qb.
  pose proof (sum2 _ _ _ _ (prod2 _ _ _ _ P5 P5) (prod2 _ _ _ _ P6 P6)) as Qc.
  apply (sc_add 4 360 367); try lia.
  - apply (sc_sub 4 360 366); try lia.
    + apply prod4; [exact P1|]. apply dif3; [apply prod3; assumption|apply prod3'; assumption].
    + apply prod4; [exact P2|]. apply dif3; [apply prod3; assumption|apply prod3'; assumption].
  - apply (sc_weak 4 360 366); try lia. apply prod22; [exact Qa|]. apply dif2; apply prod2; assumption.
Qed.
Lemma PT_area a a' b b' c c' : PT a a' -> PT b b' -> PT c c' -> sc 2 180 183 (area a b c) (area a' b' c').
Proof. intros (Ax & Ay & _) (Bx & By & _) (Cx & Cy & _). unfold area. apply dif2; apply prod2; apply sub_PT; assumption. Qed.
Lemma PT_lt a a' b b' c c' : PT a a' -> PT b b' -> PT c c' -> flt B64 (area a b c) (fofZ B64 0) = flt B64 (area a' b' c') (fofZ B64 0).
Proof. intros. apply (sc_lt 2 180 183 0 0); [apply PT_area; assumption|apply sc_zero; lia]. Qed.
Lemma PT_le a a' b b' c c' : PT a a' -> PT b b' -> PT c c' -> fle B64 (fofZ B64 0) (area a b c) = fle B64 (fofZ B64 0) (area a' b' c').
Proof. intros. apply (sc_le 2 0 0 180 183); [apply sc_zero; lia|apply PT_area; assumption]. Qed.

(** squared lengths, or infinity *)
Definition QT (d d' : b64) : Prop := sc 2 1014 916 d d' \/ (d = B754_infinity false /\ d' = B754_infinity false).
Lemma fin_inf (x : b64) : is_finite x = true -> flt B64 x (B754_infinity false) = true /\ flt B64 (B754_infinity false) x = false /\
  feq B64 x (B754_infinity false) = false /\ feq B64 (B754_infinity false) x = false.
Proof. intros H. destruct x; try discriminate H; repeat split; reflexivity. Qed.
Lemma QT_lt d d' g g' : QT d d' -> QT g g' -> flt B64 d g = flt B64 d' g'.
Proof.
  intros [X|(-> & ->)] [Y|(-> & ->)]; [apply (sc_lt _ _ _ _ _ _ _ _ _ X Y)| | |reflexivity].
  - destruct (sc_fin _ _ _ _ _ X) as (F1 & F2). rewrite (proj1 (fin_inf d F1)), (proj1 (fin_inf d' F2)). reflexivity.
  - destruct (sc_fin _ _ _ _ _ Y) as (F1 & F2). rewrite (proj1 (proj2 (fin_inf g F1))), (proj1 (proj2 (fin_inf g' F2))). reflexivity.
Qed.
Lemma QT_eq d d' g g' : QT d d' -> QT g g' -> feq B64 d g = feq B64 d' g'.
Proof.
  intros [X|(-> & ->)] [Y|(-> & ->)]; [apply (sc_eq _ _ _ _ _ _ _ _ _ X Y)| | |reflexivity].
  - destruct (sc_fin _ _ _ _ _ X) as (F1 & F2). rewrite (proj1 (proj2 (proj2 (fin_inf d F1)))), (proj1 (proj2 (proj2 (fin_inf d' F2)))). reflexivity.
  - destruct (sc_fin _ _ _ _ _ Y) as (F1 & F2). rewrite (proj2 (proj2 (proj2 (fin_inf g F1)))), (proj2 (proj2 (proj2 (fin_inf g' F2)))). reflexivity.
Qed.
Lemma QT_pos d d' : QT d d' -> flt B64 (fofZ B64 0) d = flt B64 (fofZ B64 0) d'.
Proof. intros H. apply QT_lt; [left; apply sc_zero; lia|exact H]. Qed.
Lemma sqd (x x' y y' z z' : b64) m M : (2 * m <= 1014)%Z -> (0 <= m)%Z -> (2 * M + 2 <= 916)%Z -> sc 1 m M x x' -> sc 1 m M y y' -> sc 1 m M z z' ->
  QT (fadd B64 (fadd B64 (fmul B64 x x) (fmul B64 y y)) (fmul B64 z z)) (fadd B64 (fadd B64 (fmul B64 x' x') (fmul B64 y' y')) (fmul B64 z' z')).
Proof.
  intros Hm H0 HM X Y Z. left. apply (sc_weak 2 (m + m) (M + M + 1 + 1)); try lia.
  assert (S : forall t t', sc 1 m M t t' -> sc 2 (m + m) (M + M) (fmul B64 t t) (fmul B64 t' t')) by (intros; apply (sc_mul 1 1 2 m M m M); try lia; assumption).
  apply sc_add; try lia; [apply sc_add; try lia; apply S; assumption|]. apply (sc_weak 2 (m + m) (M + M)); try lia. apply S. exact Z.
Qed.
Definition NearBy (m M : Z) (q q' : vec B64) : Prop := sc 1 m M (vx q) (vx q') /\ sc 1 m M (vy q) (vy q') /\ sc 1 m M (vz q) (vz q').
Lemma sq_near m M p p' q q' : (90 <= m <= 507)%Z -> (90 <= M <= 456)%Z -> PT p p' -> NearBy m M q q' -> QT (SquaredDistance p q) (SquaredDistance p' q').
Proof.
  intros Hm HM (Px & Py & Pz) (Qx & Qy & Qz). unfold SquaredDistance, Norm2, Dot, Sub. cbn [vx vy vz].
  apply (sqd _ _ _ _ _ _ m (M + 1)); try lia; apply sc_sub; try lia; try assumption; (apply (sc_weak 1 90 90); [lia|lia|assumption]).
Qed.
Lemma PT_near v v' : PT v v' -> NearBy 90 90 v v'. Proof. exact (fun H => H). Qed.
Lemma PT_sq p p' q q' : PT p p' -> PT q q' -> QT (SquaredDistance p q) (SquaredDistance p' q').
Proof. intros Hp Hq. apply (sq_near 90 90); try lia; assumption. Qed.

(** ** the circumcircle *)
Section Circum.
Variables a a' b b' c c' : vec B64.
Hypothesis Pa : PT a a'.
Hypothesis Pb : PT b b'.
Hypothesis Pc : PT c c'.
Notation sub := (fsub B64). Notation mul := (fmul B64). Notation add := (fadd B64).
Definition Bl (a b : vec B64) := add (mul (sub (vx b) (vx a)) (sub (vx b) (vx a))) (mul (sub (vy b) (vy a)) (sub (vy b) (vy a))).
Definition Dd (a b c : vec B64) := sub (mul (sub (vx b) (vx a)) (sub (vy c) (vy a))) (mul (sub (vy b) (vy a)) (sub (vx c) (vx a))).
Definition Nx (a b c : vec B64) := mul (sub (mul (sub (vy c) (vy a)) (Bl a b)) (mul (sub (vy b) (vy a)) (Bl a c))) (fofQ B64 (1 # 2)).
Definition Ny (a b c : vec B64) := mul (sub (mul (sub (vx b) (vx a)) (Bl a c)) (mul (sub (vx c) (vx a)) (Bl a b))) (fofQ B64 (1 # 2)).
End Circum.
Lemma Bl_sc a a' b b' : PT a a' -> PT b b' -> sc 2 180 183 (Bl a b) (Bl a' b').
Proof. intros (Ax & Ay & _) (Bx & By & _). unfold Bl. apply sum2; apply prod2; apply sub_PT; assumption. Qed.
Lemma Dd_sc a a' b b' c c' : PT a a' -> PT b b' -> PT c c' -> sc 2 180 183 (Dd a b c) (Dd a' b' c').
Proof. intros (Ax & Ay & _) (Bx & By & _) (Cx & Cy & _). unfold Dd. apply dif2; apply prod2; apply sub_PT; assumption. Qed.
Lemma Nx_sc a a' b b' c c' : PT a a' -> PT b b' -> PT c c' -> sc 3 271 275 (Nx a b c) (Nx a' b' c').
Proof.
  intros Pa Pb Pc. pose proof (Bl_sc _ _ _ _ Pa Pb) as B1. pose proof (Bl_sc _ _ _ _ Pa Pc) as B2. destruct Pa as (Ax & Ay & _), Pb as (Bx & By & _), Pc as (Cx & Cy & _).
  unfold Nx. apply half3, dif3; apply prod3; try assumption; apply sub_PT; assumption.
Qed.
Lemma Ny_sc a a' b b' c c' : PT a a' -> PT b b' -> PT c c' -> sc 3 271 275 (Ny a b c) (Ny a' b' c').
Proof.
  intros Pa Pb Pc. pose proof (Bl_sc _ _ _ _ Pa Pb) as B1. pose proof (Bl_sc _ _ _ _ Pa Pc) as B2. destruct Pa as (Ax & Ay & _), Pb as (Bx & By & _), Pc as (Cx & Cy & _).
  unfold Ny. apply half3, dif3; apply prod3; try assumption; apply sub_PT; assumption.
Qed.
Lemma rad_eq' (a b c : vec B64) : circumradius a b c =
  let x := fdiv B64 (Nx a b c) (Dd a b c) in let y := fdiv B64 (Ny a b c) (Dd a b c) in let r := fadd B64 (fmul B64 x x) (fmul B64 y y) in
  if (feq B64 (Bl a b) (fofZ B64 0) || feq B64 (Bl a c) (fofZ B64 0) || feq B64 (Dd a b c) (fofZ B64 0) || feq B64 r (fofZ B64 0))%bool then infinity else r.
Proof. reflexivity. Qed.
Lemma cen_eq' (a b c : vec B64) : circumcenter a b c =
  mkvec (fadd B64 (vx a) (fdiv B64 (Nx a b c) (Dd a b c))) (fadd B64 (vy a) (fdiv B64 (Ny a b c) (Dd a b c))) (fofZ B64 0).
Proof. reflexivity. Qed.
Lemma PT_rad a a' b b' c c' : PT a a' -> PT b b' -> PT c c' -> QT (circumradius a b c) (circumradius a' b' c').
Proof.
  intros Pa Pb Pc. rewrite !rad_eq'. cbv zeta.
  pose proof (Bl_sc _ _ _ _ Pa Pb) as B1. pose proof (Bl_sc _ _ _ _ Pa Pc) as B2. pose proof (Dd_sc _ _ _ _ _ _ Pa Pb Pc) as D.
  pose proof (Nx_sc _ _ _ _ _ _ Pa Pb Pc) as X. pose proof (Ny_sc _ _ _ _ _ _ Pa Pb Pc) as Y.
  rewrite <- (sc_eq 2 180 183 0 0 _ _ _ _ B1 (sc_zero 2 0 0 ltac:(lia))), <- (sc_eq 2 180 183 0 0 _ _ _ _ B2 (sc_zero 2 0 0 ltac:(lia))), <- (sc_eq 2 180 183 0 0 _ _ _ _ D (sc_zero 2 0 0 ltac:(lia))).
  destruct (feq B64 (Bl a b) (fofZ B64 0)); [right; split; reflexivity|]. destruct (feq B64 (Bl a c) (fofZ B64 0)); [right; split; reflexivity|].
  destruct (feq B64 (Dd a b c) (fofZ B64 0)) eqn:ED; [right; split; reflexivity|]. apply feq0 in ED; [|apply (sc_fin _ _ _ _ _ D)].
  pose proof (quot _ _ _ _ X D ED) as QX. pose proof (quot _ _ _ _ Y D ED) as QY.
  assert (R : sc 2 1014 911 (fadd B64 (fmul B64 (fdiv B64 (Nx a b c) (Dd a b c)) (fdiv B64 (Nx a b c) (Dd a b c))) (fmul B64 (fdiv B64 (Ny a b c) (Dd a b c)) (fdiv B64 (Ny a b c) (Dd a b c))))
    (fadd B64 (fmul B64 (fdiv B64 (Nx a' b' c') (Dd a' b' c')) (fdiv B64 (Nx a' b' c') (Dd a' b' c'))) (fmul B64 (fdiv B64 (Ny a' b' c') (Dd a' b' c')) (fdiv B64 (Ny a' b' c') (Dd a' b' c'))))).
  { apply (sc_add 2 1014 910); try lia; apply (sc_mul 1 1 2 507 455 507 455); try lia; assumption. }
  rewrite <- (sc_eq 2 1014 911 0 0 _ _ _ _ R (sc_zero 2 0 0 ltac:(lia))). cbn [orb].
  match goal with |- QT (if ?t then _ else _) _ => destruct t end; [right; split; reflexivity|]. left. apply (sc_weak 2 1014 911); try lia. exact R.
Qed.
Lemma rad_fin_D a b c : feq B64 (circumradius a b c) infinity = false -> feq B64 (Dd a b c) (fofZ B64 0) = false.
Proof. rewrite rad_eq'. cbv zeta. destruct (feq B64 (Dd a b c) (fofZ B64 0)); [|reflexivity]. rewrite !orb_true_r. cbn [orb]. discriminate. Qed.
Lemma PT_center a a' b b' c c' : PT a a' -> PT b b' -> PT c c' -> B2R (Dd a b c : b64) <> 0 -> NearBy 507 456 (circumcenter a b c) (circumcenter a' b' c').
Proof.
  intros Pa Pb Pc ED. rewrite !cen_eq'. unfold NearBy. cbn [vx vy vz].
  pose proof (Dd_sc _ _ _ _ _ _ Pa Pb Pc) as D. pose proof (quot _ _ _ _ (Nx_sc _ _ _ _ _ _ Pa Pb Pc) D ED) as QX. pose proof (quot _ _ _ _ (Ny_sc _ _ _ _ _ _ Pa Pb Pc) D ED) as QY.
  destruct Pa as (Ax & Ay & _). split; [|split; [|apply sc_zero; lia]].
  - apply (sc_add 1 507 455); try lia; [apply (sc_weak 1 90 90); [lia|lia|assumption]|assumption].
  - apply (sc_add 1 507 455); try lia; [apply (sc_weak 1 90 90); [lia|lia|assumption]|assumption].
Qed.
Lemma Dd_swap a a' b b' c c' : PT a a' -> PT b b' -> PT c c' -> B2R (Dd a c b : b64) = - B2R (Dd a b c : b64).
Proof.
  intros (Ax & Ay & _) (Bx & By & _) (Cx & Cy & _). unfold Dd.
  assert (V : forall x x' y y', sc 1 90 91 x x' -> sc 1 90 91 y y' -> rel (fmul B64 x y) (rndX (B2R x * B2R y)) 180 182).
  { intros x x' y y' (X & _) (Y & _). apply (rel_mul _ _ _ _ 90 91 90 91); try lia; assumption. }
  pose proof (sub_PT _ _ _ _ Bx Ax) as P1. pose proof (sub_PT _ _ _ _ By Ay) as P2. pose proof (sub_PT _ _ _ _ Cx Ax) as P3. pose proof (sub_PT _ _ _ _ Cy Ay) as P4.
  pose proof (rel_sub _ _ _ _ 180 182 ltac:(lia) ltac:(lia) (V _ _ _ _ P3 P2) (V _ _ _ _ P4 P1)) as E1.
  pose proof (rel_sub _ _ _ _ 180 182 ltac:(lia) ltac:(lia) (V _ _ _ _ P1 P4) (V _ _ _ _ P2 P3)) as E2.
  destruct E1 as (_ & -> & _). destruct E2 as (_ & -> & _). rewrite <- rndX_opp. f_equal.
  rewrite (Rmult_comm (B2R (fsub B64 (vx c) (vx a) : b64))), (Rmult_comm (B2R (fsub B64 (vy c) (vy a) : b64))). ring.
Qed.

(** ** the hash of a direction *)
Lemma eq_or_zero (x y : b64) : is_finite x = true -> is_finite y = true -> B2R x = B2R y -> x = y \/ (exists s t, x = B754_zero s /\ y = B754_zero t).
Proof.
  intros Fx Fy E. destruct x as [s|s| |s m k H]; try discriminate Fx.
  - right. destruct y as [t|t| |t n l K]; try discriminate Fy; [exists s, t; split; reflexivity|]. exfalso. symmetry in E. revert E. apply F2R_neq_0. destruct t; discriminate.
  - left. apply B2R_inj; [reflexivity| |exact E]. destruct y as [t|t| |t n l K]; try discriminate Fy; [|reflexivity]. exfalso. revert E. apply F2R_neq_0. destruct s; discriminate.
Qed.
Lemma pseudo_sc dx dx' dy dy' : sc 1 507 457 dx dx' -> sc 1 507 457 dy dy' -> @pseudoAngle B64 dx dy = @pseudoAngle B64 dx' dy'.
Proof.
  intros X Y. unfold pseudoAngle.
  rewrite <- (sc_lt 1 0 0 507 457 _ _ _ _ (sc_zero 1 0 0 ltac:(lia)) Y).
  pose proof (sc_add 1 507 457 _ _ _ _ ltac:(lia) ltac:(lia) (sc_abs _ _ _ _ _ X) (sc_abs _ _ _ _ _ Y)) as S.
  set (s := fadd B64 (fabs B64 dx) (fabs B64 dy)) in *. set (s' := fadd B64 (fabs B64 dx') (fabs B64 dy')) in *.
  destruct (Req_dec (B2R s) 0) as [Z|Z].
  - (* the point itself: 0/0 *)
    assert (Zs : forall m M x y, (m <= 1022)%Z -> (M + 1 < 1024)%Z -> rel x (B2R x) m M -> rel y (B2R y) m M -> B2R (fadd B64 (fabs B64 x) (fabs B64 y) : b64) = 0 -> B2R x = 0).
    { intros m M x y Hm HM RX RY H. pose proof (rel_add _ _ _ _ _ _ Hm HM (rel_abs _ _ _ _ RX) (rel_abs _ _ _ _ RY)) as (_ & E & _). rewrite H in E.
      pose proof (Rabs_pos (B2R x)). pose proof (Rabs_pos (B2R y)).
      assert (G : generic_format radix2 (FLX_exp 53) (B2R x)) by (apply generic_format_FLX_FLT with (emin := (-1074)%Z); apply (generic_format_B2R 53 1024 x)).
      assert (L : Rabs (B2R x) <= rndX (Rabs (B2R x) + Rabs (B2R y))).
      { unfold rndX. apply round_ge_generic; [apply (@FLX_exp_valid 53 b64_prec)|typeclasses eauto|apply generic_format_abs; exact G|lra]. }
      destruct (Req_dec (B2R x) 0) as [|N]; [assumption|]. apply Rabs_pos_lt in N. lra. }
    assert (Nan : forall x y : b64, is_finite x = true -> is_finite y = true -> B2R x = 0 -> B2R y = 0 -> fdiv B64 x y = B754_nan).
    { intros x y Fx Fy Ex Ey. destruct x as [sx|sx| |sx mx kx Hx]; try discriminate Fx; [|exfalso; revert Ex; apply F2R_neq_0; destruct sx; discriminate].
      destruct y as [sy|sy| |sy my ky Hy]; try discriminate Fy; [reflexivity|exfalso; revert Ey; apply F2R_neq_0; destruct sy; discriminate]. }
    assert (Z' : B2R s' = 0) by (destruct S as (_ & _ & ->); rewrite Z; ring).
    assert (D : B2R dx = 0) by (apply (Zs 507%Z 457%Z dx dy); try lia; [apply X|apply Y|exact Z]).
    assert (D' : B2R dx' = 0) by (destruct X as (_ & _ & ->); rewrite D; ring).
    destruct (sc_fin _ _ _ _ _ X) as (F1 & F2), (sc_fin _ _ _ _ _ S) as (F3 & F4).
    rewrite (Nan dx s F1 F3 D Z), (Nan dx' s' F2 F4 D' Z'). reflexivity.
  - pose proof (sc_div 1 1 0 507 457 507 458 _ _ _ _ ltac:(lia) ltac:(lia) ltac:(lia) X S Z) as Q.
    set (p := fdiv B64 dx s) in *. set (p' := fdiv B64 dx' s') in *. destruct (sc_fin _ _ _ _ _ Q) as (F1 & F2). destruct Q as (_ & _ & E). clearbody p p'.
    replace (0 * e)%Z with 0%Z in E by ring. change (bw 0) with 1 in E. rewrite Rmult_1_r in E. symmetry in E.
    destruct (eq_or_zero p p' F1 F2 E) as [->|(t & t' & -> & ->)]; [reflexivity|].
    assert (A3 : forall t, fsub B64 (fofZ B64 3) (B754_zero t) = fofZ B64 3) by (intros t0; apply B2SF_inj; destruct t0; reflexivity).
    assert (A1 : forall t, fadd B64 (fofZ B64 1) (B754_zero t) = fofZ B64 1) by (intros t0; apply B2SF_inj; destruct t0; reflexivity).
    rewrite !A3, !A1. reflexivity.
Qed.
Lemma key_sc n p p' q q' : PT p p' -> NearBy 507 456 q q' -> hashKey q n p = hashKey q' n p'.
Proof.
  intros (Px & Py & _) (Qx & Qy & _). unfold hashKey, Sub. cbn [vx vy]. erewrite pseudo_sc; [reflexivity| |].
  - apply (sc_sub 1 507 456); try lia; [apply (sc_weak 1 90 90); [lia|lia|assumption]|assumption].
  - apply (sc_sub 1 507 456); try lia; [apply (sc_weak 1 90 90); [lia|lia|assumption]|assumption].
Qed.

(** ** bounds *)
Definition BT (b b' : b64 * b64 * b64 * b64) : Prop :=
  let '(x0, y0, x1, y1) := b in let '(x0', y0', x1', y1') := b' in sc 1 90 90 x0 x0' /\ sc 1 90 90 y0 y0' /\ sc 1 90 90 x1 x1' /\ sc 1 90 90 y1 y1'.
Lemma bounds_T (F := fun '(x0, y0, x1, y1) (p : vec B64) =>
        (if flt B64 (vx p) x0 then vx p else x0, if flt B64 (vy p) y0 then vy p else y0,
         if flt B64 x1 (vx p) then vx p else x1, if flt B64 y1 (vy p) then vy p else y1)) l l' : Forall2 PT l l' -> forall b b',
  BT b b' -> BT (fold_left F l b) (fold_left F l' b').
Proof.
  induction 1 as [|p p' l l' Hp H IH]; intros b b' Hb; cbn [fold_left]; [exact Hb|]. apply IH.
  destruct b as [[[x0 y0] x1] y1], b' as [[[x0' y0'] x1'] y1']. destruct Hb as (H1 & H2 & H3 & H4). destruct Hp as (Px & Py & _). unfold F, BT.
  rewrite <- (sc_lt _ _ _ _ _ _ _ _ _ Px H1), <- (sc_lt _ _ _ _ _ _ _ _ _ Py H2), <- (sc_lt _ _ _ _ _ _ _ _ _ H3 Px), <- (sc_lt _ _ _ _ _ _ _ _ _ H4 Py).
  refine (conj _ (conj _ (conj _ _))); match goal with |- sc _ _ _ (if ?c then _ else _) _ => destruct c; assumption end.
Qed.
Lemma mid_T b b' : BT b b' -> NearBy 144 91 (@mid2 B64 b) (@mid2 B64 b').
Proof.
  destruct b as [[[x0 y0] x1] y1], b' as [[[x0' y0'] x1'] y1']. intros (H1 & H2 & H3 & H4). unfold NearBy, mid2. cbn [vx vy vz].
  assert (N2 : B2R (fofZ B64 2 : b64) <> 0) by (rewrite two_val; lra).
  split; [|split; [|apply sc_zero; lia]].
  - apply (sc_div 1 0 1 90 91 0 1); try lia; [apply (sc_add 1 90 90); try lia; assumption|exact sc_two|exact N2].
  - apply (sc_div 1 0 1 90 91 0 1); try lia; [apply (sc_add 1 90 90); try lia; assumption|exact sc_two|exact N2].
Qed.
Lemma bounds_PT vs vs' : Forall2 PT vs vs' ->
  (exists b b', bounds vs = Ok b /\ bounds vs' = Ok b' /\ forall p p', PT p p' -> QT (SquaredDistance p (mid2 b)) (SquaredDistance p' (mid2 b'))) \/
  (bounds vs = Panic /\ bounds vs' = Panic).
Proof.
  intros H. unfold bounds. destruct (zget_F2 PT vs vs' 0 H) as [(a & a' & E & E' & Pa)|(E & E')]; rewrite E, E'; cbn [rbind]; [|right; split; reflexivity].
  destruct (zget_F2 PT vs vs' 1 H) as [(c & c' & E1 & E1' & Pc)|(E1 & E1')]; rewrite E1, E1'; cbn [rbind]; [|right; split; reflexivity].
  left. eexists. eexists. split; [reflexivity|]. split; [reflexivity|]. intros p p' Hp.
  apply (sq_near 144 91); try lia; [exact Hp|]. apply mid_T, bounds_T; [exact H|]. destruct Pa as (A1 & A2 & _), Pc as (C1 & C2 & _). refine (conj _ (conj _ (conj _ _))); assumption.
Qed.
Lemma far_T v v' : PT v v' -> flt B64 (SquaredDistance v (mkvec infinity infinity (fofZ B64 0))) eps = false.
Proof.
  intros (X & Y & Z). destruct (sc_fin _ _ _ _ _ X) as (Fx & _), (sc_fin _ _ _ _ _ Y) as (Fy & _).
  pose proof (sc_sub 1 90 90 _ _ _ _ ltac:(lia) ltac:(lia) Z (sc_zero 1 90 90 ltac:(lia))) as Z1.
  pose proof (prod2 _ _ _ _ Z1 Z1) as Z2. destruct (sc_fin _ _ _ _ _ Z2) as (Fz & _).
  unfold SquaredDistance, Norm2, Dot, Sub. cbn [vx vy vz]. set (z := fmul B64 (fsub B64 (vz v) (fofZ B64 0)) (fsub B64 (vz v) (fofZ B64 0))) in *. clearbody z.
  assert (I : forall x : b64, is_finite x = true -> fmul B64 (fsub B64 x infinity) (fsub B64 x infinity) = B754_infinity false) by (intros x F; destruct x; try discriminate F; reflexivity).
  rewrite (I _ Fx), (I _ Fy).
  assert (E : fadd B64 (fadd B64 (B754_infinity false) (B754_infinity false)) z = B754_infinity false) by (destruct z; try discriminate Fz; reflexivity).
  rewrite E. reflexivity.
Qed.

Theorem triangulate_scaled sort vs vs' : Forall2 PT vs vs' ->
  (forall p p' q q', In p vs -> In q vs -> PT p p' -> PT q q' -> flt B64 (SquaredDistance p q) eps = flt B64 (SquaredDistance p' q') eps) ->
  sort_local sort -> triangulate sort vs = triangulate sort vs'.
Proof.
  intros Hv Hn Hs.
  assert (Hv' : Forall2 (fun p p' => PT p p' /\ In p vs) vs vs').
  { assert (G : forall l l', Forall2 PT l l' -> incl l vs -> Forall2 (fun p p' => PT p p' /\ In p vs) l l'); [|apply G; [exact Hv|apply incl_refl]].
    induction 1 as [|x y l l' Hxy H IH]; intros Hi; constructor; [split; [exact Hxy|apply Hi; left; reflexivity]|apply IH; intros z Hz; apply Hi; right; exact Hz]. }
  apply (triangulate_same (fun p p' => PT p p' /\ In p vs) vs vs' Hv') with (Q := QT).
  - intros a a' b b' c c' d d' (?&_) (?&_) (?&_) (?&_). apply PT_inC; assumption.
  - intros a a' b b' c c' (?&_) (?&_) (?&_). apply PT_lt; assumption.
  - intros a a' b b' c c' (?&_) (?&_) (?&_). apply PT_le; assumption.
  - intros p p' q q' (?&?) (?&?). apply Hn; assumption.
  - intros p p' (Hp & _). rewrite (far_T p p' Hp). destruct Hp as (X & Y & Z).
    assert (Sy : forall x x', sc 1 90 90 x x' -> rel x' (B2R x') 90 90) by (intros x x' H; apply H).
    (* the second point alone *)
    clear - X Y Z. destruct (sc_fin _ _ _ _ _ X) as (_ & Fx), (sc_fin _ _ _ _ _ Y) as (_ & Fy).
    pose proof (sc_sub 1 90 90 _ _ _ _ ltac:(lia) ltac:(lia) Z (sc_zero 1 90 90 ltac:(lia))) as Z1.
    pose proof (prod2 _ _ _ _ Z1 Z1) as Z2. destruct (sc_fin _ _ _ _ _ Z2) as (_ & Fz).
    unfold SquaredDistance, Norm2, Dot, Sub. cbn [vx vy vz]. set (z := fmul B64 (fsub B64 (vz p') (fofZ B64 0)) (fsub B64 (vz p') (fofZ B64 0))) in *. clearbody z.
    assert (I : forall x : b64, is_finite x = true -> fmul B64 (fsub B64 x infinity) (fsub B64 x infinity) = B754_infinity false) by (intros x F; destruct x; try discriminate F; reflexivity).
    rewrite (I _ Fx), (I _ Fy).
    assert (E : fadd B64 (fadd B64 (B754_infinity false) (B754_infinity false)) z = B754_infinity false) by (destruct z; try discriminate Fz; reflexivity).
    rewrite E. reflexivity.
  - reflexivity.
  - intros p p' q q' ((?&_)&_) ((?&_)&_). apply (sc_lt 1 90 90 90 90); assumption.
  - intros p p' q q' ((?&_)&_) ((?&_)&_). apply (sc_eq 1 90 90 90 90); assumption.
  - intros p p' q q' ((_&?&_)&_) ((_&?&_)&_). apply (sc_lt 1 90 90 90 90); assumption.
  - exact QT_lt.
  - exact QT_eq.
  - right. split; reflexivity.
  - exact QT_pos.
  - intros p p' q q' (?&_) (?&_). apply PT_sq; assumption.
  - intros a a' b b' c c' (?&_) (?&_) (?&_). apply PT_rad; assumption.
  - destruct (bounds_PT vs vs' Hv) as [(b & b' & E & E' & H)|H]; [left|right; exact H]. exists b, b'. split; [exact E|]. split; [exact E'|]. intros p p' (Hp & _). apply H. exact Hp.
  - intros a a' b b' c c' (Pa&_) (Pb&_) (Pc&_) Hr. apply rad_fin_D in Hr. apply feq0 in Hr; [|apply (sc_fin _ _ _ _ _ (Dd_sc _ _ _ _ _ _ Pa Pb Pc))].
    assert (Hr' : B2R (Dd a c b : b64) <> 0) by (rewrite (Dd_swap _ _ _ _ _ _ Pa Pb Pc); lra).
    pose proof (PT_center _ _ _ _ _ _ Pa Pb Pc Hr) as C1. pose proof (PT_center _ _ _ _ _ _ Pa Pc Pb Hr') as C2.
    split; split.
    + intros n p p' (Hp & _). apply key_sc; assumption.
    + intros p p' (Hp & _). apply (sq_near 507 456); try lia; assumption.
    + intros n p p' (Hp & _). apply key_sc; assumption.
    + intros p p' (Hp & _). apply (sq_near 507 456); try lia; assumption.
  - reflexivity.
  - exact Hs.
Qed.
End Points.
End Scale.
