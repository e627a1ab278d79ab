(** basisFuns and curvePoint in binary64. *)
From Coq Require Import Reals Lra Lia ZArith QArith Bool List.
From Flocq Require Import Core Relative Plus_error BinarySingleNaN.
From Verif Require Import Base Arith M_r3 Spec_r3 M_nurbs Spec_nurbs P_meshgeom P_tri3 P_nurbs P_nurbs2 P_insphere_err P_insphere_b64 P_b64sc P_b64err P_b64hash P_b64rel P_b64norm P_b64laws.
Import ListNotations.
Open Scope R_scope.
Local Instance p53n : Prec_gt_0 53 := eq_refl.
Local Instance vx3 : Valid_exp (SpecFloat.fexp 53 1024) := fexp_correct 53 1024 b64_prec.

Lemma fdiv_val (x y : b64) : is_finite x = true -> B2R y <> 0 -> Rabs (B2R x / B2R y) <= bp 1023 ->
  is_finite (fdiv B64 x y : b64) = true /\ B2R (fdiv B64 x y : b64) = rndF (B2R x / B2R y).
Proof.
  intros Fx Ny H. pose proof (Bdiv_correct 53 1024 b64_prec b64_pe mode_NE x y Ny) as C. rewrite no_over in C by exact H.
  destruct C as (C1 & C2 & _). rewrite Fx in C2. split; [exact C2|exact C1].
Qed.
(* a product with an accurate factor *)
Lemma na_mul k l e X x t s : 0 <= X -> nr l X x -> 0 <= t -> 0 <= s -> 0 <= e -> na k e t s -> na (k + l) (e * x + e * X) (X * t) (x * s).
Proof.
  intros PX NX Pt Ps E [H1 H2]. assert (Px := nr_pos _ _ _ PX NX). destruct NX as [X1 X2]. pose proof (pw k) as Pk. pose proof (pw l) as Pl.
  unfold na. rewrite pw_add. set (w := (1 - u) ^ k) in *. set (v := (1 - u) ^ l) in *.
  assert (0 <= e * X) by (apply Rmult_le_pos; lra). assert (0 <= e * x) by (apply Rmult_le_pos; lra). split.
  - assert (A : (v * X) * (w * t) <= x * (w * t)) by (apply Rmult_le_compat_r; [apply Rmult_le_pos; lra|auto]).
    assert (B : x * (w * t - e) <= x * s) by (apply Rmult_le_compat_l; lra). lra.
  - assert (A : (v * x) * (w * s) <= X * (w * s)) by (apply Rmult_le_compat_r; [apply Rmult_le_pos; lra|auto]).
    assert (B : X * (w * s) <= X * (t + e)) by (apply Rmult_le_compat_l; lra). lra.
Qed.
Lemma na_le k e t s : (k <= 4000)%nat -> 0 <= s -> na k e t s -> s <= 2 * (t + e).
Proof.
  intros K Ps [_ H]. pose proof (pw_half k K) as P. assert (/ 2 * s <= (1 - u) ^ k * s) by (apply Rmult_le_compat_r; lra). lra.
Qed.

Section Step.
Variables (K : nat) (E B X Y : R) (n rr lj : b64).
Hypothesis HK : (K <= 3000)%nat.
Hypothesis HE : 0 <= E <= 1.
Hypothesis HB : 0 <= B <= 1.
Hypothesis HX : 0 <= X.
Hypothesis HY : 0 <= Y.
Hypothesis HD : 1 <= X + Y <= bp 54.
Hypothesis Hr : ap 1 X rr.
Hypothesis Hl : ap 1 Y lj.
Hypothesis Hn : af K E B n.
Notation d := (fadd B64 rr lj).
Notation temp := (fdiv B64 n d).
Lemma step_d : ap 2 (X + Y) d.
Proof. apply (ap_add 1 X Y); auto; [lia|]. apply Rle_trans with (bp 54); [lra|apply bpow_le; lia]. Qed.
Lemma step_temp : af (K + 3) (3 * E / (X + Y) + eta) (B / (X + Y)) temp /\ B2R (temp : b64) <= 9.
Proof.
  destruct step_d as [Fd Nd]. destruct Hn as (Fn & Pn & Nn). set (D := X + Y) in *.
  assert (Pd : 0 < B2R (d : b64)) by (apply nr_pos' with (2 := Nd); lra).
  pose proof (nr_inv 2 D _ ltac:(lra) Nd) as NI.
  assert (PI : 0 < / D) by (apply Rinv_0_lt_compat; lra). assert (PId : 0 < / B2R (d : b64)) by (apply Rinv_0_lt_compat; lra).
  pose proof (na_mul K 2 E (/ D) (/ B2R (d : b64)) B (B2R n) ltac:(lra) NI ltac:(lra) Pn ltac:(lra) Nn) as Q.
  assert (I2 : / B2R (d : b64) <= 2 * / D).
  { destruct NI as [_ I]. pose proof (pw_half 2 ltac:(lia)) as P. assert (/ 2 * / B2R (d : b64) <= (1 - u) ^ 2 * / B2R (d : b64)) by (apply Rmult_le_compat_r; lra). lra. }
  assert (ID : / D <= 1) by (rewrite <- Rinv_1; apply Rinv_le; lra).
  assert (Bn : B2R n <= 4) by (pose proof (na_le K E B _ ltac:(lia) Pn Nn); lra).
  assert (S0 : 0 <= / B2R (d : b64) * B2R n) by (apply Rmult_le_pos; lra).
  assert (S1 : / B2R (d : b64) * B2R n <= 8).
  { apply Rle_trans with (2 * B2R n); [apply Rmult_le_compat_r; lra|lra]. }
  assert (Ed : B2R n / B2R (d : b64) = / B2R (d : b64) * B2R n) by (unfold Rdiv; ring).
  assert (Bnd : Rabs (B2R n / B2R (d : b64)) <= bp 1023).
  { rewrite Ed, Rabs_pos_eq by auto. apply Rle_trans with (bp 3); [change (bp 3) with 8; auto|apply bpow_le; lia]. }
  destruct (fdiv_val n d Fn ltac:(lra) Bnd) as [Ft Vt]. rewrite Ed in Vt.
  pose proof eta_pos as EP.
  assert (NA : na (K + 2 + 1) (3 * E / D + eta) (/ D * B) (rndF (/ B2R (d : b64) * B2R n))).
  { apply na_rnd with (s := / B2R (d : b64) * B2R n); try lra.
    - apply Rmult_le_pos; [lra|lra].
    - apply Rmult_le_pos; lra.
    - rewrite <- (Rabs_pos_eq (/ B2R (d : b64) * B2R n)) at 3 by auto. apply rnd_any.
    - apply na_weak with (5 := Q); auto; [|apply Rmult_le_pos; lra]. unfold Rdiv.
      assert (E * / B2R (d : b64) <= E * (2 * / D)) by (apply Rmult_le_compat_l; lra). lra. }
  split; [split; [exact Ft|split]|].
  - rewrite Vt. apply rnd_pos. auto.
  - rewrite Vt. replace (B / D) with (/ D * B) by (unfold Rdiv; ring). replace (K + 3)%nat with (K + 2 + 1)%nat by lia. exact NA.
  - rewrite Vt. pose proof (rnd_any (/ B2R (d : b64) * B2R n)) as R. rewrite (Rabs_pos_eq (/ B2R (d : b64) * B2R n)) in R by auto. apply Rabs_le_inv in R.
    pose proof u_pos. assert (eta <= / 2) by (change (/ 2) with (bp (-1)); apply bpow_le; lia).
    assert (u * (/ B2R (d : b64) * B2R n) <= u * 8) by (apply Rmult_le_compat_l; lra). rewrite u_val in *. lra.
Qed.
Lemma step_mul x W : 0 <= W <= X + Y -> ap 1 W x -> af (K + 5) (9 * E + bp (-1017)) (W * (B / (X + Y))) (fmul B64 x temp).
Proof.
  intros HW [Fx Nx]. destruct step_temp as [(Ft & Pt & Nt) Bt]. set (D := X + Y) in *.
  assert (Px := nr_pos _ _ _ (proj1 HW) Nx). pose proof eta_pos as EP.
  assert (PI : 0 < / D) by (apply Rinv_0_lt_compat; lra).
  assert (PED : 0 <= 3 * E / D) by (unfold Rdiv; apply Rmult_le_pos; lra).
  assert (PBD : 0 <= B / D) by (unfold Rdiv; apply Rmult_le_pos; lra).
  assert (Bx : B2R x <= 2 * W).
  { destruct Nx as [_ I]. pose proof (pw_half 1 ltac:(lia)) as P. assert (/ 2 * B2R x <= (1 - u) ^ 1 * B2R x) by (apply Rmult_le_compat_r; lra). lra. }
  assert (PE0 : 0 <= 3 * E / D + eta) by lra.
  pose proof (na_mul (K + 3) 1 _ W (B2R x) (B / D) _ (proj1 HW) Nx PBD Pt PE0 Nt) as Q.
  assert (P0 : 0 <= B2R x * B2R (temp : b64)) by (apply Rmult_le_pos; auto).
  assert (Bnd : Rabs (B2R x * B2R (temp : b64)) <= bp 1023).
  { rewrite Rabs_pos_eq by auto. apply Rle_trans with (bp 55 * bp 4); [|rewrite bpadd; apply bpow_le; lia].
    change (bp 4) with 16. replace (bp 55) with (2 * bp 54) by (change 2 with (bp 1); rewrite bpadd; reflexivity). apply Rmult_le_compat; lra. }
  destruct (fmul_val x temp Fx Ft Bnd) as [Fm Vm]. split; auto. rewrite Vm. split; [apply rnd_pos; auto|].
  replace (K + 5)%nat with (K + 3 + 1 + 1)%nat by lia.
  assert (EW : 3 * E / D * W <= 3 * E).
  { unfold Rdiv. rewrite Rmult_assoc. rewrite <- (Rmult_1_r (3 * E)) at 2. apply Rmult_le_compat_l; [lra|].
    apply Rmult_le_reg_l with D; [lra|]. rewrite <- Rmult_assoc, Rinv_r by lra. lra. }
  assert (EX : 3 * E / D * B2R x <= 6 * E).
  { apply Rle_trans with (3 * E / D * (2 * W)); [apply Rmult_le_compat_l; lra|lra]. }
  assert (GW : eta * W <= bp (-1020)).
  { replace (bp (-1020)) with (eta * bp 54) by (rewrite bpadd; reflexivity). apply Rmult_le_compat_l; lra. }
  assert (GX : eta * B2R x <= 2 * bp (-1020)).
  { apply Rle_trans with (eta * (2 * W)); [apply Rmult_le_compat_l; lra|lra]. }
  assert (Ee : eta <= bp (-1020)) by (apply bpow_le; lia).
  assert (E17 : bp (-1017) = 8 * bp (-1020)) by (change 8 with (bp 3); rewrite bpadd; reflexivity).
  assert (PW : 0 <= W * (B / D)) by (apply Rmult_le_pos; lra).
  apply na_weak with (k := (K + 3 + 1 + 1)%nat) (e := (3 * E / D + eta) * B2R x + (3 * E / D + eta) * W + eta); auto.
  - pose proof (bpow_gt_0 radix2 (-1020)). lra.
  - apply rnd_pos. auto.
  - apply na_rnd with (s := B2R x * B2R (temp : b64)); auto; try lra.
    + apply Rplus_le_le_0_compat; apply Rmult_le_pos; lra.
    + rewrite <- (Rabs_pos_eq (B2R x * B2R (temp : b64))) at 3 by auto. apply rnd_any.
Qed.
End Step.

(** ** basisFuns *)
Definition EE (j : nat) : R := bp (5 * Z.of_nat j - 1016).
Lemma EE_pos j : 0 < EE j. Proof. apply bpow_gt_0. Qed.
Lemma EE_le1 j : (j <= 200)%nat -> EE j <= 1. Proof. intros H. change 1 with (bp 0). apply bpow_le. lia. Qed.
Lemma EE_S j : 2 * (9 * EE j + bp (-1017)) <= EE (S j).
Proof.
  unfold EE. replace (5 * Z.of_nat (S j) - 1016)%Z with (5 + (5 * Z.of_nat j - 1016))%Z by lia. rewrite bpow_plus. change (bp 5) with 32.
  assert (2 * bp (-1017) = bp (-1016)) by (change 2 with (bp 1); rewrite bpadd; reflexivity).
  assert (bp (-1016) <= bp (5 * Z.of_nat j - 1016)) by (apply bpow_le; lia). pose proof (bpow_gt_0 radix2 (5 * Z.of_nat j - 1016)). lra.
Qed.
Lemma rsum_nonneg f n : (forall k, (0 <= k < Z.of_nat n)%Z -> 0 <= f k) -> 0 <= rsum f n.
Proof. induction n as [|n IH]; intros H; [simpl; lra|]. rewrite rsum_S. assert (0 <= rsum f n) by (apply IH; intros; apply H; lia). pose proof (H (Z.of_nat n) ltac:(lia)). lra. Qed.
Lemma rsum_term f n k : (forall k, (0 <= k < Z.of_nat n)%Z -> 0 <= f k) -> (0 <= k < Z.of_nat n)%Z -> f k <= rsum f n.
Proof.
  induction n as [|n IH]; intros H Hk; [lia|]. rewrite rsum_S. assert (0 <= rsum f n) by (apply rsum_nonneg; intros; apply H; lia).
  destruct (Z.eq_dec k (Z.of_nat n)) as [->|]; [lra|]. assert (f k <= rsum f n) by (apply IH; [intros; apply H; lia|lia]). pose proof (H (Z.of_nat n) ltac:(lia)). lra.
Qed.

Section Basis64.
Variable U : list Z.
Variable i p : Z.
Hypothesis Hp : (0 <= p <= 200)%Z.
Hypothesis Hlo : (0 <= i + 1 - p)%Z.
Hypothesis Hhi : (i + p < Z.of_nat (length U))%Z.
Hypothesis Hi0 : (0 <= i)%Z.
Hypothesis Hi1 : (i + 1 < Z.of_nat (length U))%Z.
Hypothesis HU : forall k, In k U -> (Z.abs k < 2 ^ 53)%Z.
Hypothesis Mono : nondecreasing U.
Hypothesis Hspan : knot U i < knot U (i + 1).
Variable uf : b64.
Hypothesis Fu : is_finite uf = true.
Notation u0 := (B2R uf).
Hypothesis Hu : knot U i <= u0 <= knot U (i + 1).
Notation t := (knot U).
Local Notation B j r := (bpiece t i j (Z.add (Z.sub i (Z.of_nat j)) r) u0).

Let Hmono := basis_mono U i p ltac:(lia) Hlo Hhi Mono.
Lemma B_bounds j r : (j <= Z.to_nat p)%nat -> (0 <= r <= Z.of_nat j)%Z -> 0 <= B j r <= 1.
Proof.
  intros Hj Hr. pose proof (piece_nonneg t i (Z.to_nat p) Hmono Hspan u0 Hu j) as N.
  split; [apply N; auto|]. rewrite <- (piece_sum t i (Z.to_nat p) Hmono Hspan u0 j Hj).
  apply (rsum_term (fun r => B j r) (S j)); [intros k Hk; apply N; lia|lia].
Qed.
Lemma knot_abs k : (0 <= k < Z.of_nat (length U))%Z -> Rabs (t k) <= bp 53.
Proof.
  intros H. unfold knot. rewrite <- abs_IZR. change (bp 53) with (IZR (2 ^ 53)). apply IZR_le. apply Z.lt_le_incl, HU. apply nth_In. lia.
Qed.
Lemma knot_z k : t k = IZR (nth (Z.to_nat k) U 0%Z). Proof. reflexivity. Qed.
Lemma sub_l k z : (1 <= k <= p)%Z -> zget U (i + 1 - k) = Ok z -> ap 1 (u0 - t (i + 1 - k)) (fsub B64 uf (fofZ B64 z)).
Proof.
  intros Hk E. assert (R : (0 <= i + 1 - k < Z.of_nat (length U))%Z) by lia. rewrite (zget_nth _ _ 0%Z R) in E. injection E as <-.
  set (z := nth (Z.to_nat (i + 1 - k)) U 0%Z). assert (Hz : (Z.abs z < 2 ^ 53)%Z) by (apply HU, nth_In; lia).
  pose proof (bR_ofZ z Hz) as V. pose proof (bfin_ofZ z Hz) as F. unfold bR in V. rewrite knot_z. fold z. cbn [fofZ B64]. rewrite <- V.
  apply ap_sub; auto. rewrite V. pose proof (Mono (i + 1 - k)%Z i ltac:(lia) ltac:(lia)) as M1. rewrite (knot_z (i + 1 - k)) in M1. fold z in M1.
  pose proof (knot_abs (i + 1) ltac:(lia)) as A1. apply Rabs_le_inv in A1.
  pose proof (knot_abs (i + 1 - k) ltac:(lia)) as A2. rewrite knot_z in A2. fold z in A2. apply Rabs_le_inv in A2.
  assert (2 * bp 53 <= bp 1020) by (change 2 with (bp 1); rewrite bpadd; apply bpow_le; lia). lra.
Qed.
Lemma sub_r k z : (1 <= k <= p)%Z -> zget U (i + k) = Ok z -> ap 1 (t (i + k) - u0) (fsub B64 (fofZ B64 z) uf).
Proof.
  intros Hk E. assert (R : (0 <= i + k < Z.of_nat (length U))%Z) by lia. rewrite (zget_nth _ _ 0%Z R) in E. injection E as <-.
  set (z := nth (Z.to_nat (i + k)) U 0%Z). assert (Hz : (Z.abs z < 2 ^ 53)%Z) by (apply HU, nth_In; lia).
  pose proof (bR_ofZ z Hz) as V. pose proof (bfin_ofZ z Hz) as F. unfold bR in V. rewrite knot_z. fold z. cbn [fofZ B64]. rewrite <- V.
  apply ap_sub; auto. rewrite V. pose proof (Mono (i + 1)%Z (i + k)%Z ltac:(lia) ltac:(lia)) as M1. rewrite (knot_z (i + k)) in M1. fold z in M1.
  pose proof (knot_abs i ltac:(lia)) as A1. apply Rabs_le_inv in A1.
  pose proof (knot_abs (i + k) ltac:(lia)) as A2. rewrite knot_z in A2. fold z in A2. apply Rabs_le_inv in A2.
  assert (2 * bp 53 <= bp 1020) by (change 2 with (bp 1); rewrite bpadd; apply bpow_le; lia). lra.
Qed.
Lemma denom_bounds j r : (0 <= r < Z.of_nat j)%Z -> (j <= Z.to_nat p)%nat -> 1 <= denom t i j r <= bp 54.
Proof.
  intros Hr Hj. pose proof (denom_pos t i (Z.to_nat p) Hmono Hspan j r Hr Hj) as D. unfold denom in *. split.
  - rewrite !knot_z in *. rewrite <- minus_IZR in *. apply IZR_le. apply lt_IZR in D. lia.
  - pose proof (knot_abs (i + r + 1) ltac:(lia)) as A1. apply Rabs_le_inv in A1.
    pose proof (knot_abs (i - Z.of_nat j + r + 1) ltac:(lia)) as A2. apply Rabs_le_inv in A2.
    assert (bp 54 = 2 * bp 53) by (change 2 with (bp 1); rewrite bpadd; reflexivity). lra.
Qed.
Lemma af_bound K E s (x : b64) : (K <= 4000)%nat -> E <= 1 -> s <= 1 -> af K E s x -> B2R x <= bp 1010.
Proof. intros HK HE Hs (F & P & N). pose proof (na_le K E s _ HK P N). apply Rle_trans with (bp 2); [change (bp 2) with 4; lra|apply bpow_le; lia]. Qed.
Lemma af_weak K L e f s (x : b64) : (K <= L)%nat -> e <= f -> 0 <= s -> af K e s x -> af L f s x.
Proof. intros HK He Hs (F & P & N). split; auto. split; auto. apply na_weak with (5 := N); auto. Qed.
Lemma terms_le1 j r : (S j <= Z.to_nat p)%nat -> (0 <= r <= Z.of_nat (S j))%Z -> 0 <= lterm t i u0 (S j) r <= 1 /\ 0 <= rterm t i u0 (S j) r <= 1.
Proof.
  intros Hj Hr.
  assert (L : 0 <= lterm t i u0 (S j) r).
  { unfold lterm. destruct (Z.eq_dec r 0) as [|N]; [lra|]. pose proof (denom_pos t i (Z.to_nat p) Hmono Hspan (S j) (r - 1) ltac:(lia) Hj) as D.
    pose proof (Mono (i - Z.of_nat (S j) + r)%Z i ltac:(lia) ltac:(lia)).
    apply Rmult_le_pos; [lra|]. apply Rmult_le_pos; [|left; now apply Rinv_0_lt_compat].
    replace (i - Z.of_nat (S j) + r)%Z with (i - Z.of_nat j + (r - 1))%Z by lia. apply B_bounds; lia. }
  assert (R : 0 <= rterm t i u0 (S j) r).
  { unfold rterm. destruct (Z.eq_dec r (Z.of_nat (S j))) as [|N]; [lra|]. pose proof (denom_pos t i (Z.to_nat p) Hmono Hspan (S j) r ltac:(lia) Hj) as D.
    pose proof (Mono (i + 1)%Z (i + r + 1)%Z ltac:(lia) ltac:(lia)).
    apply Rmult_le_pos; [lra|]. apply Rmult_le_pos; [|left; now apply Rinv_0_lt_compat].
    replace (i - Z.of_nat (S j) + r + 1)%Z with (i - Z.of_nat j + r)%Z by lia. apply B_bounds; lia. }
  pose proof (piece_split t i (Z.to_nat p) Hmono Hspan u0 j r Hj Hr) as P. pose proof (B_bounds (S j) r Hj Hr). lra.
Qed.
Lemma basisInner64 (lft rgt : list B64) (j : nat) : (S j <= Z.to_nat p)%nat ->
  (forall k, (1 <= k <= Z.of_nat (S j))%Z -> exists x, zget lft k = Ok x /\ ap 1 (u0 - t (i + 1 - k)) x) ->
  (forall k, (1 <= k <= Z.of_nat (S j))%Z -> exists x, zget rgt k = Ok x /\ ap 1 (t (i + k) - u0) x) ->
  forall N : list B64, length N = Z.to_nat (p + 1) ->
  (forall r, (0 <= r <= Z.of_nat j)%Z -> exists x, zget N r = Ok x /\ af (6 * j) (EE j) (B j r) x) ->
  exists (N' : list B64) (sv : B64), forTo 0 (Z.of_nat (S j) - 1) (N, fofZ B64 0) (basisInner lft rgt (Z.of_nat (S j))) = Ok (N', sv) /\
    af (6 * S j) (EE (S j)) (B (S j) (Z.of_nat (S j))) sv /\
    length N' = Z.to_nat (p + 1) /\ (forall r, (0 <= r <= Z.of_nat j)%Z -> exists x, zget N' r = Ok x /\ af (6 * S j) (EE (S j)) (B (S j) r) x).
Proof.
  intros Hj HL HR N LN HN. pose proof (EE_pos j) as EP. pose proof (EE_le1 j ltac:(lia)) as E1. pose proof (EE_le1 (S j) ltac:(lia)) as E1'. pose proof (EE_S j) as ES.
  pose proof (bpow_gt_0 radix2 (-1017)) as E17.
  destruct (forTo_inv (fun r (s : list B64 * B64) => length (fst s) = Z.to_nat (p + 1) /\
      af (6 * j + 5) (9 * EE j + bp (-1017)) (lterm t i u0 (S j) r) (snd s) /\
      (forall q, (0 <= q < r)%Z -> exists x, zget (fst s) q = Ok x /\ af (6 * S j) (EE (S j)) (B (S j) q) x) /\
      (forall q, (r <= q <= Z.of_nat j)%Z -> exists x, zget (fst s) q = Ok x /\ af (6 * j) (EE j) (B j q) x))
    (basisInner lft rgt (Z.of_nat (S j))) 0 (Z.of_nat (S j) - 1) (N, fofZ B64 0)) as ([N' sv] & E & LN' & Es & H1 & _).
  - lia.
  - cbn [fst snd]. split; [exact LN|]. split; [|split; [intros; lia|intros; apply HN; lia]].
    split; [reflexivity|]. change (B2R (fofZ B64 0 : b64)) with 0. split; [lra|]. unfold lterm. destruct (Z.eq_dec 0 0); [|lia]. split; lra.
  - intros r [M0 s0] Hr (L0 & S0 & Q1 & Q2). cbn [fst snd] in *. unfold basisInner.
    destruct (Q2 r ltac:(lia)) as (n & En & An). rewrite En. cbn [rbind].
    destruct (HR (r + 1)%Z ltac:(lia)) as (rr & Er & Ar). rewrite Er. cbn [rbind].
    destruct (HL (Z.of_nat (S j) - r)%Z ltac:(lia)) as (lj & El & Al). rewrite El. cbn [rbind].
    pose proof (denom_bounds (S j) r ltac:(lia) ltac:(lia)) as D.
    replace (i + (r + 1))%Z with (i + r + 1)%Z in Ar by lia.
    replace (i + 1 - (Z.of_nat (S j) - r))%Z with (i - Z.of_nat (S j) + r + 1)%Z in Al by lia.
    set (X := t (i + r + 1)%Z - u0) in *. set (Y := u0 - t (i - Z.of_nat (S j) + r + 1)%Z) in *.
    assert (ED : denom t i (S j) r = X + Y) by (unfold denom, X, Y; ring). rewrite ED in D.
    pose proof (Mono (i + 1)%Z (i + r + 1)%Z ltac:(lia) ltac:(lia)) as M1.
    pose proof (Mono (i - Z.of_nat (S j) + r + 1)%Z i ltac:(lia) ltac:(lia)) as M2.
    assert (PX : 0 <= X) by (unfold X; lra). assert (PY : 0 <= Y) by (unfold Y; lra).
    pose proof (B_bounds j r ltac:(lia) ltac:(lia)) as BB.
    pose proof (step_mul (6 * j) (EE j) (B j r) X Y n rr lj ltac:(lia) ltac:(lra) BB PX PY D Ar Al An) as SM.
    rewrite zset_in_range by lia. cbn [rbind]. eexists. split; [reflexivity|]. cbn [fst snd]. split; [now rewrite list_upd_length|].
    pose proof (terms_le1 j r Hj ltac:(lia)) as [T1 T2]. pose proof (terms_le1 j (r + 1) Hj ltac:(lia)) as [T3 _].
    assert (ER : rterm t i u0 (S j) r = X * (B j r / (X + Y))).
    { unfold rterm. destruct (Z.eq_dec r (Z.of_nat (S j))); [lia|]. rewrite ED. unfold X.
      replace (i - Z.of_nat (S j) + r + 1)%Z with (i - Z.of_nat j + r)%Z by lia. reflexivity. }
    assert (EL : lterm t i u0 (S j) (r + 1) = Y * (B j r / (X + Y))).
    { unfold lterm. destruct (Z.eq_dec (r + 1) 0); [lia|]. replace (r + 1 - 1)%Z with r by lia. rewrite ED. unfold Y.
      replace (i - Z.of_nat (S j) + (r + 1))%Z with (i - Z.of_nat j + r)%Z by lia.
      replace (i - Z.of_nat (S j) + r + 1)%Z with (i - Z.of_nat j + r)%Z by lia. reflexivity. }
    split; [|split].
    + rewrite EL. apply (SM lj Y ltac:(lra) Al).
    + intros q Hq. rewrite zget_upd by lia. destruct (Z.eq_dec r q) as [<-|Nq]; [|apply Q1; lia].
      eexists. split; [reflexivity|]. rewrite (piece_split t i (Z.to_nat p) Hmono Hspan u0 j r) by lia.
      pose proof (SM rr X ltac:(lra) Ar) as AR. rewrite <- ER in AR.
      assert (W : 9 * EE j + bp (-1017) <= 1) by lra.
      destruct (af_add _ _ _ _ _ _ _ S0 AR ltac:(lra) ltac:(lra) ltac:(lra) ltac:(lra)) as [AA _].
      * apply (af_bound (6 * j + 5) (9 * EE j + bp (-1017)) (lterm t i u0 (S j) r)); auto; lia || lra.
      * apply (af_bound (6 * j + 5) (9 * EE j + bp (-1017)) (rterm t i u0 (S j) r)); auto; lia || lra.
      * apply af_weak with (4 := AA); [lia|lra|lra].
    + intros q Hq. rewrite zget_upd by lia. destruct (Z.eq_dec r q) as [<-|Nq]; [lia|apply Q2; lia].
  - exists N', sv. cbn [fst snd] in *. replace (Z.of_nat (S j) - 1 + 1)%Z with (Z.of_nat (S j)) in * by lia.
    split; [exact E|]. split; [|split; [exact LN'|intros r Hr; apply H1; lia]].
    rewrite (piece_split t i (Z.to_nat p) Hmono Hspan u0 j) by lia.
    pose proof (terms_le1 j (Z.of_nat (S j)) Hj ltac:(lia)) as [T1 _].
    replace (rterm t i u0 (S j) (Z.of_nat (S j))) with 0 by (unfold rterm; destruct (Z.eq_dec (Z.of_nat (S j)) (Z.of_nat (S j))); [reflexivity|congruence]).
    rewrite Rplus_0_r. apply af_weak with (4 := Es); [lia|lra|lra].
Qed.
Lemma basisFuns64 : exists N : list B64, basisFuns (A := B64) i uf p U = Ok N /\ length N = Z.to_nat (p + 1) /\
  forall r, (0 <= r <= p)%Z -> exists x, zget N r = Ok x /\ af (6 * Z.to_nat p) (EE (Z.to_nat p)) (B (Z.to_nat p) r) x.
Proof.
  unfold basisFuns. rewrite !make_ok by lia. cbn [rbind].
  rewrite zset_in_range by (rewrite repeat_length; lia). cbn [rbind].
  destruct (forTo_inv (fun j (s : list B64 * list B64 * list B64) =>
      let '(N, lft, rgt) := s in length N = Z.to_nat (p + 1) /\ length lft = Z.to_nat (p + 1) /\
      length rgt = Z.to_nat (p + 1) /\
      (forall k, (1 <= k < j)%Z -> exists x, zget lft k = Ok x /\ ap 1 (u0 - t (i + 1 - k)) x) /\
      (forall k, (1 <= k < j)%Z -> exists x, zget rgt k = Ok x /\ ap 1 (t (i + k) - u0) x) /\
      (forall r, (0 <= r < j)%Z -> exists x, zget N r = Ok x /\ af (6 * Z.to_nat (j - 1)) (EE (Z.to_nat (j - 1))) (bpiece t i (Z.to_nat (j - 1)) (i - (j - 1) + r)%Z u0) x))
    (basisOuter (A := B64) i uf U) 1 p
    (list_upd (repeat (fofZ B64 0) (Z.to_nat (p + 1))) (Z.to_nat 0) (fofZ B64 1),
       repeat (fofZ B64 0) (Z.to_nat (p + 1)), repeat (fofZ B64 0) (Z.to_nat (p + 1))))
    as ([[N lft] rgt] & E & LN & _ & _ & _ & _ & HN).
  - lia.
  - rewrite list_upd_length, repeat_length. repeat (split; [reflexivity||(intros; lia)|]).
    intros r Hr. assert (r = 0)%Z by lia. subst r. rewrite zget_upd by (rewrite repeat_length; lia).
    eexists. split; [reflexivity|]. unfold bpiece; simpl coxdeboor. destruct (Z.eq_dec (i - 0 + 0) i); [|lia].
    assert (V : B2R (fofZ B64 1 : b64) = 1) by (exact (bR_ofZ 1 ltac:(reflexivity))). split; [reflexivity|]. rewrite V. split; [lra|].
    apply na_weak with (k := 0%nat) (e := 0); try lra; try lia; [left; apply EE_pos|]. split; simpl; lra.
  - intros j [[N lft] rgt] Hj (LN & LL & LR & HL & HR & HN). unfold basisOuter.
    destruct (knot_get U (i + 1 - j)) as (a & Ea & _ & Ka); [lia|]. rewrite Ea. cbn [rbind].
    rewrite zset_in_range by lia. cbn [rbind].
    destruct (knot_get U (i + j)) as (b & Eb & _ & Kb); [lia|]. rewrite Eb. cbn [rbind].
    rewrite zset_in_range by lia. cbn [rbind].
    pose proof (sub_l j a Hj Ea) as SL. pose proof (sub_r j b Hj Eb) as SR.
    destruct (Z.to_nat j) as [|j'] eqn:Ej; [lia|]. assert (Ej' : j = Z.of_nat (S j')) by lia. subst j. clear Ej.
    set (xl := fsub B64 uf (fofZ B64 a)) in *. set (xr := fsub B64 (fofZ B64 b) uf) in *.
    assert (HL' : forall k, (1 <= k <= Z.of_nat (S j'))%Z -> exists x, zget (list_upd lft (S j') xl) k = Ok x /\ ap 1 (u0 - t (i + 1 - k)) x).
    { intros k Hk. replace (S j') with (Z.to_nat (Z.of_nat (S j'))) by lia. rewrite zget_upd by lia.
      destruct (Z.eq_dec (Z.of_nat (S j')) k) as [<-|]; [|apply HL; lia]. exists xl. split; [reflexivity|exact SL]. }
    assert (HR' : forall k, (1 <= k <= Z.of_nat (S j'))%Z -> exists x, zget (list_upd rgt (S j') xr) k = Ok x /\ ap 1 (t (i + k) - u0) x).
    { intros k Hk. replace (S j') with (Z.to_nat (Z.of_nat (S j'))) by lia. rewrite zget_upd by lia.
      destruct (Z.eq_dec (Z.of_nat (S j')) k) as [<-|]; [|apply HR; lia]. exists xr. split; [reflexivity|exact SR]. }
    destruct (basisInner64 (list_upd lft (S j') xl) (list_upd rgt (S j') xr) j' ltac:(lia) HL' HR' N LN) as (N' & sv & E' & Asv & LN' & HN').
    { intros r Hr. destruct (HN r ltac:(lia)) as (x & Ex & Ax). exists x. split; [exact Ex|].
      replace (Z.to_nat (Z.of_nat (S j') - 1)) with j' in Ax by lia. replace (Z.of_nat (S j') - 1)%Z with (Z.of_nat j') in Ax by lia. exact Ax. }
    rewrite E'. cbn [rbind]. rewrite zset_in_range by lia. cbn [rbind].
    eexists. split; [reflexivity|]. cbv beta iota; rewrite !list_upd_length.
    repeat (split; [assumption|]). split; [intros k Hk; apply HL'; lia|]. split; [intros k Hk; apply HR'; lia|].
    intros r Hr. replace (Z.of_nat (S j') + 1 - 1)%Z with (Z.of_nat (S j')) by lia. rewrite Nat2Z.id.
    assert (EU : zget (list_upd N' (S j') sv) r = if Z.eq_dec (Z.of_nat (S j')) r then Ok sv else zget N' r).
    { rewrite <- (Nat2Z.id (S j')) at 1. apply zget_upd. lia. }
    rewrite EU. destruct (Z.eq_dec (Z.of_nat (S j')) r) as [<-|]; [exists sv; split; [reflexivity|exact Asv]|]. apply HN'; lia.
  - match goal with H : forTo _ _ _ _ = Ok _ |- _ => rewrite H end. cbn [rbind].
    exists N. split; [reflexivity|]. split; [exact LN|]. intros r Hr. destruct (HN r ltac:(lia)) as (x & Ex & Ax). exists x. split; [exact Ex|].
    replace (p + 1 - 1)%Z with p in Ax by lia. rewrite Z2Nat.id by lia. exact Ax.
Qed.
Lemma na_abs k e s x : (k <= 1500)%nat -> 0 <= s <= 1 -> 0 <= e <= 1 -> 0 <= x -> na k e s x -> Rabs (x - s) <= INR (k + 1) * u * s + 2 * e.
Proof.
  intros Hk Hs He Px [H1 H2]. pose proof u_pos as UP. pose proof (pw_lower k) as L. pose proof (pw k) as P.
  assert (IK : 0 <= INR k <= 1500).
  { split; [apply pos_INR|]. apply le_INR in Hk. assert (E : INR 1500 = 1500) by (rewrite INR_IZR_INZ; reflexivity). lra. }
  replace (INR (k + 1)) with (INR k + 1) by (rewrite plus_INR; reflexivity).
  assert (KU : 0 <= INR k * u) by (apply Rmult_le_pos; lra).
  assert (KU2 : INR k * u <= 1500 * u) by (apply Rmult_le_compat_r; lra).
  apply Rabs_le. split.
  - assert ((1 - INR k * u) * s <= (1 - u) ^ k * s) by (apply Rmult_le_compat_r; lra). assert (0 <= u * s) by (apply Rmult_le_pos; lra). lra.
  - assert (G : (1 - INR k * u) * x <= s + e) by (apply Rle_trans with ((1 - u) ^ k * x); [apply Rmult_le_compat_r; lra|auto]).
    set (q := INR k * u) in *. assert (U1 : 1500 * u <= / 1000) by (rewrite u_val; lra).
    assert (x <= (1 + q + 2 * (q * q)) * (s + e)).
    { apply Rmult_le_reg_l with (1 - q); [lra|]. apply Rle_trans with (1 := G).
      replace ((1 - q) * ((1 + q + 2 * (q * q)) * (s + e))) with ((s + e) + (q * q) * (1 - 2 * q) * (s + e)) by ring.
      assert (0 <= (q * q) * (1 - 2 * q) * (s + e)); [|lra]. apply Rmult_le_pos; [apply Rmult_le_pos; [apply Rmult_le_pos; lra|lra]|lra]. }
    assert (QQ : 2 * (q * q) <= u).
    { apply Rle_trans with (2 * ((1500 * u) * (1500 * u))); [apply Rmult_le_compat_l; [lra|apply Rmult_le_compat; lra]|].
      replace (2 * (1500 * u * (1500 * u))) with ((4500000 * u) * u) by ring. rewrite <- (Rmult_1_l u) at 3. apply Rmult_le_compat_r; [lra|]. rewrite u_val. lra. }
    assert ((1 + q + 2 * (q * q)) * (s + e) <= (1 + q + u) * (s + e)) by (apply Rmult_le_compat_r; lra).
    assert ((q + u) * e <= 1 * e) by (apply Rmult_le_compat_r; lra).
    replace ((INR k + 1) * u * s) with ((q + u) * s) by (unfold q; ring). lra.
Qed.
Lemma basis_acc : exists N : list B64, basisFuns (A := B64) i uf p U = Ok N /\ length N = Z.to_nat (p + 1) /\
  forall r, (0 <= r <= p)%Z -> exists x : b64, zget N r = Ok (x : B64) /\ is_finite x = true /\ 0 <= B2R x /\
    Rabs (B2R x - bpiece t i (Z.to_nat p) (i - p + r) u0) <= (6 * IZR p + 1) * u * bpiece t i (Z.to_nat p) (i - p + r) u0 + bp (5 * p - 1015).
Proof.
  destruct basisFuns64 as (N & E & L & H). exists N. split; auto. split; auto. intros r Hr. destruct (H r Hr) as (x & Ex & F & P & NA). exists x. split; auto. split; auto. split; auto.
  pose proof (B_bounds (Z.to_nat p) r ltac:(lia) ltac:(lia)) as BB. rewrite Z2Nat.id in * by lia.
  pose proof (EE_pos (Z.to_nat p)). pose proof (EE_le1 (Z.to_nat p) ltac:(lia)).
  assert (EB : 0 <= EE (Z.to_nat p) <= 1) by lra.
  pose proof (fun H => na_abs _ _ _ _ H BB EB P NA) as A. specialize (A ltac:(lia)). apply Rle_trans with (1 := A). apply Req_le. f_equal.
  - f_equal. f_equal. rewrite INR_IZR_INZ, Nat2Z.inj_add, Nat2Z.inj_mul, Z2Nat.id by lia. rewrite plus_IZR, mult_IZR. reflexivity.
  - unfold EE. rewrite Z2Nat.id by lia. change 2 with (bp 1). rewrite bpadd. f_equal. lia.
Qed.
End Basis64.

(** ** curvePoint *)
Section Accum.
Variables (M a : R) (w q : Z -> R) (m : nat).
Hypothesis HM : bp (-900) <= M <= bp 900.
Hypothesis Ha : 0 <= a <= 1200 * u.
Hypothesis Hm : (m <= 200)%nat.
Hypothesis Hw : forall k, (0 <= k < Z.of_nat m)%Z -> 0 <= w k.
Hypothesis Hs : rsum w m = 1.
Hypothesis Hq : forall k, (0 <= k < Z.of_nat m)%Z -> Rabs (q k) <= M.
Definition close (r : nat) (c : b64) : Prop := is_finite c = true /\
  Rabs (B2R c - rsum (fun k => w k * q k) r) <= M * ((a + 2 * u) * rsum w r + 2 * u * INR r).
Lemma part_le r : (r <= m)%nat -> rsum w r <= 1.
Proof.
  intros H. rewrite <- Hs. clear Hs Hq. induction m as [|m' IH]; [replace r with 0%nat by lia; lra|].
  destruct (Nat.eq_dec r (S m')) as [->|]; [lra|]. rewrite rsum_S. pose proof (Hw (Z.of_nat m') ltac:(lia)).
  assert (rsum w r <= rsum w m') by (apply IH; try lia; intros; apply Hw; lia). lra.
Qed.
Lemma part_abs r : (r <= m)%nat -> Rabs (rsum (fun k => w k * q k) r) <= M * rsum w r.
Proof.
  induction r as [|r IH]; intros H; [simpl; rewrite Rabs_R0; lra|]. rewrite !rsum_S. apply Rle_trans with (1 := Rabs_triang _ _).
  pose proof (Hw (Z.of_nat r) ltac:(lia)). pose proof (Hq (Z.of_nat r) ltac:(lia)). rewrite (Rabs_mult (w _)), (Rabs_pos_eq (w _)) by auto.
  assert (w (Z.of_nat r) * Rabs (q (Z.of_nat r)) <= w (Z.of_nat r) * M) by (apply Rmult_le_compat_l; auto). specialize (IH ltac:(lia)). lra.
Qed.
Lemma close_step r (c x n : b64) : (r < m)%nat -> close r c -> is_finite x = true -> B2R x = q (Z.of_nat r) ->
  is_finite n = true -> 0 <= B2R n -> Rabs (B2R n - w (Z.of_nat r)) <= a * w (Z.of_nat r) + bp (-115) ->
  close (S r) (fadd B64 c (fmul B64 x n)).
Proof.
  intros Hr [Fc Nc] Fx Vx Fn Pn Nn. pose proof (Hw (Z.of_nat r) ltac:(lia)) as W0. pose proof (Hq (Z.of_nat r) ltac:(lia)) as Q0.
  pose proof (part_le r ltac:(lia)) as W1. pose proof (part_le (S r) ltac:(lia)) as W2. pose proof (part_abs (S r) ltac:(lia)) as W3.
  rewrite !rsum_S in *. set (wr := w (Z.of_nat r)) in *. set (qr := q (Z.of_nat r)) in *.
  set (W := rsum w r) in *. set (S0 := rsum (fun k => w k * q k) r) in *.
  assert (PW : 0 <= W) by (apply rsum_nonneg; intros; apply Hw; lia).
  pose proof u_pos as UP. pose proof (bpow_gt_0 radix2 (-900)) as B9. assert (PM : 0 < M) by lra.
  assert (Huu : u * u = bp (-106)) by (replace u with (bp (-53)) by (rewrite u_val; reflexivity); rewrite bpadd; reflexivity).
  assert (E115 : bp (-115) <= u * u) by (rewrite Huu; apply bpow_le; lia).
  assert (Eeta : eta <= u * u * M).
  { rewrite Huu. apply Rle_trans with (bp (-106) * bp (-900)); [rewrite bpadd; apply bpow_le; lia|apply Rmult_le_compat_l; [apply bpow_ge_0|lra]]. }
  assert (IR : 0 <= INR r <= 200).
  { split; [apply pos_INR|]. apply Rle_trans with (INR 200); [apply le_INR; lia|rewrite INR_IZR_INZ; simpl; lra]. }
  assert (US : u <= / 1000000000) by (rewrite u_val; lra).
  assert (AW : a * wr <= / 1000 * wr) by (apply Rmult_le_compat_r; lra).
  assert (UU : u * u <= / 1000000000 * u) by (apply Rmult_le_compat_r; lra).
  assert (MU : 0 <= M * u) by (apply Rmult_le_pos; lra).
  apply Rabs_le_inv in Nn. assert (Bn : B2R n <= 2) by lra.
  (* the product *)
  assert (BP : Rabs (B2R x * B2R n) <= 2 * M).
  { rewrite Rabs_mult, (Rabs_pos_eq (B2R n)), Vx by auto. rewrite Rmult_comm. apply Rmult_le_compat; auto. apply Rabs_pos. }
  assert (B900 : 8 * bp 900 <= bp 1023) by (change 8 with (bp 3); rewrite bpadd; apply bpow_le; lia).
  destruct (fmul_val x n Fx Fn ltac:(lra)) as [Fp Vp].
  pose proof (rnd_any (B2R x * B2R n)) as Rp. rewrite <- Vp in Rp. set (P := B2R (fmul B64 x n : b64)) in *.
  assert (D1 : Rabs (B2R x * B2R n - wr * qr) <= M * (a * wr + u * u)).
  { rewrite Vx. replace (qr * B2R n - wr * qr) with (qr * (B2R n - wr)) by ring. rewrite Rabs_mult. apply Rmult_le_compat; auto; try apply Rabs_pos. apply Rabs_le. lra. }
  assert (D2 : Rabs (B2R x * B2R n) <= M * (wr + a * wr + u * u)).
  { replace (B2R x * B2R n) with ((B2R x * B2R n - wr * qr) + wr * qr) by ring. apply Rle_trans with (1 := Rabs_triang _ _).
    assert (Rabs (wr * qr) <= wr * M) by (rewrite Rabs_mult, (Rabs_pos_eq wr) by auto; apply Rmult_le_compat_l; auto). lra. }
  assert (D3 : Rabs (P - wr * qr) <= M * ((a + 2 * u) * wr + / 10 * u)).
  { replace (P - wr * qr) with ((P - B2R x * B2R n) + (B2R x * B2R n - wr * qr)) by ring. apply Rle_trans with (1 := Rabs_triang _ _).
    assert (u * Rabs (B2R x * B2R n) <= u * (M * (wr + a * wr + u * u))) by (apply Rmult_le_compat_l; lra).
    assert (E1 : u * (wr + a * wr + u * u) <= u * (wr + / 1000 * wr + / 1000000000 * u)) by (apply Rmult_le_compat_l; lra).
    assert (0 <= u * u) by (apply Rmult_le_pos; lra). assert (u * wr >= 0) by (apply Rle_ge, Rmult_le_pos; lra).
    assert (M * (u * (wr + a * wr + u * u)) <= M * (2 * (u * wr) + u * u)) by (apply Rmult_le_compat_l; lra).
    assert (M * (u * u) <= M * (/ 1000000000 * u)) by (apply Rmult_le_compat_l; lra). lra. }
  (* the sum *)
  assert (D4 : Rabs (B2R c + P - (S0 + wr * qr)) <= M * ((a + 2 * u) * (W + wr) + 2 * u * INR r + / 10 * u)).
  { replace (B2R c + P - (S0 + wr * qr)) with ((B2R c - S0) + (P - wr * qr)) by ring. apply Rle_trans with (1 := Rabs_triang _ _). lra. }
  assert (G1 : (a + 2 * u) * (W + wr) <= (1202 * u) * 1) by (apply Rmult_le_compat; lra).
  assert (G2 : 2 * u * INR r <= 2 * u * 200) by (apply Rmult_le_compat_l; lra).
  assert (D5 : Rabs (B2R c + P) <= M * (3 / 2)).
  { replace (B2R c + P) with ((B2R c + P - (S0 + wr * qr)) + (S0 + wr * qr)) by ring. apply Rle_trans with (1 := Rabs_triang _ _).
    assert (M * ((a + 2 * u) * (W + wr) + 2 * u * INR r + / 10 * u) <= M * (/ 2)) by (apply Rmult_le_compat_l; lra).
    assert (M * (W + wr) <= M * 1) by (apply Rmult_le_compat_l; lra). lra. }
  assert (Bs : Rabs (B2R c + P) <= bp 1023) by lra.
  destruct (fadd_val c (fmul B64 x n) Fc Fp Bs) as [Fs Vs]. split; [exact Fs|]. rewrite Vs. fold P.
  pose proof (rnd_sum (B2R c) P (fmt_B c) (fmt_B (fmul B64 x n))) as Rs.
  assert (u * Rabs (B2R c + P) <= u * (M * (3 / 2))) by (apply Rmult_le_compat_l; lra).
  rewrite !rsum_S. fold wr qr W S0. rewrite S_INR.
  replace (rndF (B2R c + P) - (S0 + wr * qr)) with ((rndF (B2R c + P) - (B2R c + P)) + (B2R c + P - (S0 + wr * qr))) by ring.
  apply Rle_trans with (1 := Rabs_triang _ _).
  assert (0 <= M * u) by (apply Rmult_le_pos; lra). lra.
Qed.
End Accum.

Definition coords_le (M : R) (v : vec B64) : Prop := Rabs (rx (rvec v)) <= M /\ Rabs (ry (rvec v)) <= M /\ Rabs (rz (rvec v)) <= M.
Lemma curvePoint64 (U : list Z) (P : list (vec B64)) n p (uf : b64) fuel M :
  (0 <= p <= n)%Z -> (p <= 180)%Z -> (n + p < Z.of_nat (length U))%Z -> (n + 1 < Z.of_nat (length U))%Z ->
  (n < Z.of_nat (length P))%Z -> nondecreasing U -> (forall k, In k U -> (Z.abs k < 2 ^ 53)%Z) -> is_finite uf = true ->
  knot U p <= B2R uf <= knot U (n + 1) -> (B2R uf = knot U (n + 1) -> knot U n < B2R uf) ->
  (Z.to_nat (n + 1 - p) <= fuel)%nat -> bp (-900) <= M <= bp 900 -> (forall v, In v P -> fin_vec v /\ coords_le M v) ->
  exists i C, (p <= i <= n)%Z /\ knot U i <= B2R uf <= knot U (i + 1) /\ knot U i < knot U (i + 1) /\
    ((B2R uf = knot U (n + 1) -> i = n) /\ (B2R uf <> knot U (n + 1) -> B2R uf < knot U (i + 1))) /\
    curvePoint (A := B64) fuel n p U P uf = Ok C /\ fin_vec C /\
    let E := vsum (fun r => rscale (bpiece (knot U) i (Z.to_nat p) (i - p + r) (B2R uf)) (rvec (nth (Z.to_nat (i - p + r)) P Zero))) (Z.to_nat (p + 1)) in
    Rabs (rx (rvec C) - rx E) <= (8 * IZR p + 5) * u * M /\ Rabs (ry (rvec C) - ry E) <= (8 * IZR p + 5) * u * M /\
    Rabs (rz (rvec C) - rz E) <= (8 * IZR p + 5) * u * M.
Proof.
  intros Hp Hp2 HU HU1 HP Mono HK Fu Hu Hend Hf HM HV. unfold curvePoint.
  destruct (findSpan_ok (A := B64) U uf (B2R uf)) with (n := n) (p := p) (fuel := fuel) as (i & Ei & Hi & He & Hne); auto.
  { intros k Hk. specialize (HK k Hk). cbn [fofZ B64]. rewrite flt_bR by (auto using bfin_ofZ). now rewrite bR_ofZ. }
  { intros k Hk. specialize (HK k Hk). cbn [fofZ B64]. rewrite fle_bR by (auto using bfin_ofZ). now rewrite bR_ofZ. }
  { intros k Hk. specialize (HK k Hk). cbn [fofZ B64]. rewrite feq_bR by (auto using bfin_ofZ). now rewrite bR_ofZ. }
  assert (Hspan : knot U i <= B2R uf <= knot U (i + 1) /\ knot U i < knot U (i + 1)).
  { destruct (Req_dec (B2R uf) (knot U (n + 1))) as [E|E].
    - specialize (He E). subst i. specialize (Hend E). repeat split; try lra.
    - specialize (Hne E). repeat split; lra. }
  destruct Hspan as (S1 & S2).
  rewrite Ei. cbn [rbind].
  destruct (basis_acc U i p ltac:(lia) ltac:(lia) ltac:(lia) ltac:(lia) ltac:(lia) HK Mono S2 uf Fu S1) as (N & EN & LN & HN).
  rewrite EN. cbn [rbind].
  set (w := fun r => bpiece (knot U) i (Z.to_nat p) (i - p + r) (B2R uf)).
  set (Q := fun r => nth (Z.to_nat (i - p + r)) P (Zero : vec B64)).
  pose proof (basis_mono U i p ltac:(lia) ltac:(lia) ltac:(lia) Mono) as Hmono.
  assert (Ep : Z.to_nat (p + 1) = S (Z.to_nat p)) by lia.
  assert (Ws : rsum w (Z.to_nat (p + 1)) = 1).
  { rewrite <- (piece_sum (knot U) i (Z.to_nat p) Hmono S2 (B2R uf) (Z.to_nat p) (le_n _)), Ep. apply rsum_ext. intros k Hk. unfold w. rewrite Z2Nat.id by lia. reflexivity. }
  assert (Wn : forall k, (0 <= k < Z.of_nat (Z.to_nat (p + 1)))%Z -> 0 <= w k).
  { intros k Hk. pose proof (piece_nonneg (knot U) i (Z.to_nat p) Hmono S2 (B2R uf) S1 (Z.to_nat p) k (le_n _)) as NN. rewrite Z2Nat.id in NN by lia. apply NN. lia. }
  assert (HQ : forall k, (0 <= k < Z.of_nat (Z.to_nat (p + 1)))%Z -> In (Q k) P) by (intros; apply nth_In; lia).
  pose proof u_pos as UP. assert (IP : 0 <= IZR p <= 180) by (split; apply IZR_le; lia).
  assert (Ha : 0 <= (6 * IZR p + 1) * u <= 1200 * u) by (split; [apply Rmult_le_pos; lra|apply Rmult_le_compat_r; lra]).
  set (a := (6 * IZR p + 1) * u) in *. set (m := Z.to_nat (p + 1)) in *. assert (Hm : (m <= 200)%nat) by lia.
  destruct (forTo_inv (fun r (C : vec B64) => close M a w (fun k => rx (rvec (Q k))) (Z.to_nat r) (vx C) /\
       close M a w (fun k => ry (rvec (Q k))) (Z.to_nat r) (vy C) /\ close M a w (fun k => rz (rvec (Q k))) (Z.to_nat r) (vz C))
     (fun i0 C => let! Q := zget P (i - p + i0) in let! Ni := zget N i0 in Ok (vec3Add C (vec3Scaled Q Ni)))%res
     0 p (mkvec (fofZ B64 0) (fofZ B64 0) (fofZ B64 0))) as (C & EC & HC).
  - lia.
  - cbn [vx vy vz]. change (Z.to_nat 0) with 0%nat. unfold close. cbn [rsum INR]. change (B2R (fofZ B64 0 : b64)) with 0. rewrite Rminus_0_r, Rabs_R0, !Rmult_0_r, Rplus_0_r, Rmult_0_r. repeat split; try reflexivity; lra.
  - intros r C Hr (C1 & C2 & C3). rewrite (zget_nth _ _ (Zero : vec B64)) by lia. cbn [rbind]. fold (Q r).
    destruct (HN r Hr) as (x & Ex & Fx & Px & Ax). rewrite Ex. cbn [rbind]. eexists. split; [reflexivity|].
    replace (Z.to_nat (r + 1)) with (S (Z.to_nat r)) by lia.
    assert (Er : Z.of_nat (Z.to_nat r) = r) by lia.
    assert (Ax' : Rabs (B2R x - w (Z.of_nat (Z.to_nat r))) <= a * w (Z.of_nat (Z.to_nat r)) + bp (-115)).
    { rewrite Er. apply Rle_trans with (1 := Ax). apply Rplus_le_compat_l. apply bpow_le. lia. }
    assert (Rm : (Z.to_nat r < m)%nat) by lia.
    assert (LQ : forall f : rv -> R, (forall v, In v P -> Rabs (f (rvec v)) <= M) -> forall k, (0 <= k < Z.of_nat m)%Z -> Rabs (f (rvec (Q k))) <= M) by (intros f Hfv k Hk; apply Hfv, HQ, Hk).
    destruct (HV (Q r) (HQ r ltac:(lia))) as [(F1 & F2 & F3) _].
    unfold vec3Add, vec3Scaled. cbn [vx vy vz]. split; [|split].
    + apply (close_step M a w _ m HM Ha Hm Wn Ws); auto; [apply (LQ rx); intros v Hv; apply HV; auto|rewrite Er; reflexivity].
    + apply (close_step M a w _ m HM Ha Hm Wn Ws); auto; [apply (LQ ry); intros v Hv; apply HV; auto|rewrite Er; reflexivity].
    + apply (close_step M a w _ m HM Ha Hm Wn Ws); auto; [apply (LQ rz); intros v Hv; apply HV; auto|rewrite Er; reflexivity].
  - exists i, C. split; [exact Hi|]. split; [exact S1|]. split; [exact S2|]. split; [split; [exact He|intros Ne; apply (Hne Ne)]|]. split; [exact EC|]. destruct HC as ((F1 & C1) & (F2 & C2) & (F3 & C3)).
    split; [repeat split; assumption|]. fold m in C1, C2, C3. rewrite Ws in C1, C2, C3.
    assert (EM : M * ((a + 2 * u) * 1 + 2 * u * INR m) = (8 * IZR p + 5) * u * M).
    { unfold a. replace (INR m) with (IZR p + 1); [ring|]. unfold m. rewrite INR_IZR_INZ, Z2Nat.id by lia. rewrite plus_IZR. reflexivity. }
    rewrite EM in C1, C2, C3. cbv zeta.
    rewrite (vsum_coord rx) with (w := w) (Q := fun r => rvec (Q r)) by (reflexivity || (intros; reflexivity)).
    rewrite (vsum_coord ry) with (w := w) (Q := fun r => rvec (Q r)) by (reflexivity || (intros; reflexivity)).
    rewrite (vsum_coord rz) with (w := w) (Q := fun r => rvec (Q r)) by (reflexivity || (intros; reflexivity)).
    repeat split; assumption.
Qed.

(** ** A parameter that is not a number *)
Definition isnan (x : B64) : Prop := is_nan (x : b64) = true.
Lemma nan_sub (x y : b64) : is_nan x = true \/ is_nan y = true -> isnan (fsub B64 x y).
Proof. unfold isnan. destruct x, y; simpl; intros [H|H]; try discriminate; reflexivity. Qed.
Lemma nan_div (x y : b64) : is_nan x = true \/ is_nan y = true -> isnan (fdiv B64 x y).
Proof. unfold isnan. destruct x, y; simpl; intros [H|H]; try discriminate; reflexivity. Qed.
Lemma basisFuns_nan (U : list Z) i p (uf : B64) : isnan uf -> (1 <= p)%Z -> (0 <= i + 1 - p)%Z -> (i + p < Z.of_nat (length U))%Z ->
  exists N : list B64, basisFuns (A := B64) i uf p U = Ok N /\ length N = Z.to_nat (p + 1) /\
    forall r, (0 <= r <= p)%Z -> exists x, zget N r = Ok x /\ isnan x.
Proof.
  intros Nu Hp Hlo Hhi. unfold basisFuns. rewrite !make_ok by lia. cbn [rbind].
  rewrite zset_in_range by (rewrite repeat_length; lia). cbn [rbind].
  destruct (forTo_inv (fun j (s : list B64 * list B64 * list B64) =>
      let '(N, lft, rgt) := s in length N = Z.to_nat (p + 1) /\ length lft = Z.to_nat (p + 1) /\
      length rgt = Z.to_nat (p + 1) /\
      (forall k, (1 <= k < j)%Z -> exists x, zget lft k = Ok x /\ isnan x) /\
      (forall k, (1 <= k < j)%Z -> exists x, zget rgt k = Ok x /\ isnan x) /\
      ((1 < j)%Z -> forall r, (0 <= r < j)%Z -> exists x, zget N r = Ok x /\ isnan x))
    (basisOuter (A := B64) i uf U) 1 p
    (list_upd (repeat (fofZ B64 0) (Z.to_nat (p + 1))) (Z.to_nat 0) (fofZ B64 1),
       repeat (fofZ B64 0) (Z.to_nat (p + 1)), repeat (fofZ B64 0) (Z.to_nat (p + 1))))
    as ([[N lft] rgt] & E & LN & _ & _ & _ & _ & HN).
  - lia.
  - rewrite list_upd_length, repeat_length. repeat (split; [reflexivity||(intros; lia)|]). intros; lia.
  - intros j [[N lft] rgt] Hj (LN & LL & LR & HL & HR & HN). unfold basisOuter.
    destruct (knot_get U (i + 1 - j)) as (a & Ea & _ & Ka); [lia|]. rewrite Ea. cbn [rbind].
    rewrite zset_in_range by lia. cbn [rbind].
    destruct (knot_get U (i + j)) as (b & Eb & _ & Kb); [lia|]. rewrite Eb. cbn [rbind].
    rewrite zset_in_range by lia. cbn [rbind].
    set (xl := fsub B64 uf (fofZ B64 a)) in *. set (xr := fsub B64 (fofZ B64 b) uf) in *.
    assert (Nl : isnan xl) by (apply nan_sub; left; exact Nu). assert (Nr : isnan xr) by (apply nan_sub; right; exact Nu).
    assert (HL' : forall k, (1 <= k <= j)%Z -> exists x, zget (list_upd lft (Z.to_nat j) xl) k = Ok x /\ isnan x).
    { intros k Hk. rewrite zget_upd by lia. destruct (Z.eq_dec j k) as [<-|]; [|apply HL; lia]. exists xl. split; [reflexivity|exact Nl]. }
    assert (HR' : forall k, (1 <= k <= j)%Z -> exists x, zget (list_upd rgt (Z.to_nat j) xr) k = Ok x /\ isnan x).
    { intros k Hk. rewrite zget_upd by lia. destruct (Z.eq_dec j k) as [<-|]; [|apply HR; lia]. exists xr. split; [reflexivity|exact Nr]. }
    set (lft' := list_upd lft (Z.to_nat j) xl) in *. set (rgt' := list_upd rgt (Z.to_nat j) xr) in *.
    assert (LL' : length lft' = Z.to_nat (p + 1)) by (unfold lft'; now rewrite list_upd_length).
    assert (LR' : length rgt' = Z.to_nat (p + 1)) by (unfold rgt'; now rewrite list_upd_length).
    destruct (forTo_inv (fun r (s : list B64 * B64) => length (fst s) = Z.to_nat (p + 1) /\ ((1 <= r)%Z -> isnan (snd s)) /\
       forall q, (0 <= q < r)%Z -> exists x, zget (fst s) q = Ok x /\ isnan x)
      (basisInner lft' rgt' j) 0 (j - 1) (N, fofZ B64 0)) as ([N' sv] & E' & LN' & Ns & HN').
    + lia.
    + cbn [fst snd]. split; [exact LN|]. split; intros; lia.
    + intros r [M0 s0] Hr (L0 & S0 & Q1). cbn [fst snd] in *. unfold basisInner.
      rewrite (zget_nth _ _ (fofZ B64 0)) by lia. cbn [rbind].
      destruct (HR' (r + 1)%Z ltac:(lia)) as (rr & Er & Ar). rewrite Er. cbn [rbind].
      destruct (HL' (j - r)%Z ltac:(lia)) as (lj & El & Al). rewrite El. cbn [rbind].
      set (tmp := fdiv B64 _ _). rewrite zset_in_range by lia. cbn [rbind]. eexists. split; [reflexivity|]. cbn [fst snd].
      split; [now rewrite list_upd_length|]. split; [intros _; apply nan_mul; left; exact Al|].
      intros q Hq. rewrite zget_upd by lia. destruct (Z.eq_dec r q) as [<-|Nq]; [|apply Q1; lia].
      eexists. split; [reflexivity|]. apply nan_add. right. apply nan_mul. left. exact Ar.
    + rewrite E'. cbn [rbind]. cbn [fst snd] in *. rewrite zset_in_range by lia. cbn [rbind].
      eexists. split; [reflexivity|]. cbv beta iota. rewrite !list_upd_length.
      repeat (split; [assumption|]). split; [intros k Hk; apply HL'; lia|]. split; [intros k Hk; apply HR'; lia|].
      intros _ r Hr. rewrite zget_upd by lia. destruct (Z.eq_dec j r) as [<-|]; [exists sv; split; [reflexivity|apply Ns; lia]|].
      apply HN'. lia.
  - rewrite E. cbn [rbind]. exists N. split; [reflexivity|]. split; [exact LN|]. intros r Hr. apply HN; lia.
Qed.
Lemma findSpan_nan (U : list Z) n p (uf : B64) fuel : isnan uf -> (0 <= p <= n)%Z -> (n + 1 < Z.of_nat (length U))%Z -> (1 <= fuel)%nat ->
  findSpan (A := B64) fuel n p uf U = Ok ((p + n + 1) / 2)%Z.
Proof.
  intros Nu Hp HU Hf. destruct fuel as [|fuel]; [lia|]. unfold findSpan.
  destruct (knot_get U (n + 1)) as (b & Eb & _ & _); [lia|]. rewrite Eb. cbn [rbind].
  assert (Q1 : forall y, feq B64 uf y = false) by (unfold isnan in Nu; destruct uf; try discriminate; reflexivity).
  assert (Q2 : forall y, flt B64 uf y = false) by (unfold isnan in Nu; destruct uf; try discriminate; reflexivity).
  assert (Q3 : forall y : B64, fle B64 y uf = false) by (unfold isnan in Nu; destruct uf; try discriminate; intros [| | |]; reflexivity).
  rewrite Q1. cbn [findSpanLoop]. rewrite Z.quot_div_nonneg by lia. replace (p + (n + 1))%Z with (p + n + 1)%Z by lia.
  assert (0 <= (p + n + 1) / 2 <= n)%Z by (split; [apply Z.div_pos; lia|]; apply Z.lt_succ_r, Z.div_lt_upper_bound; lia).
  destruct (knot_get U ((p + n + 1) / 2)) as (a & Ea & _ & _); [lia|]. rewrite Ea. cbn [rbind]. rewrite Q2.
  destruct (knot_get U ((p + n + 1) / 2 + 1)) as (c & Ec & _ & _); [lia|]. rewrite Ec. cbn [rbind]. rewrite Q3. reflexivity.
Qed.
Lemma curvePoint_nan (U : list Z) (P : list (vec B64)) n p (uf : B64) fuel : isnan uf -> (1 <= p <= n)%Z ->
  (n + p < Z.of_nat (length U))%Z -> (n < Z.of_nat (length P))%Z -> (1 <= fuel)%nat ->
  exists C, curvePoint (A := B64) fuel n p U P uf = Ok C /\ isnan (vx C) /\ isnan (vy C) /\ isnan (vz C).
Proof.
  intros Nu Hp HU HP Hf. unfold curvePoint. rewrite (findSpan_nan U n p uf fuel Nu) by lia. cbn [rbind]. set (i := ((p + n + 1) / 2)%Z).
  assert (p <= i <= n)%Z by (unfold i; split; [apply Z.div_le_lower_bound; lia|]; apply Z.lt_succ_r, Z.div_lt_upper_bound; lia).
  destruct (basisFuns_nan U i p uf Nu) as (N & EN & LN & HN); try lia. rewrite EN. cbn [rbind].
  match goal with |- exists C, forTo _ _ ?z ?f = _ /\ _ =>
    destruct (forTo_inv (fun r (C : vec B64) => (1 <= r)%Z -> isnan (vx C) /\ isnan (vy C) /\ isnan (vz C)) f 0 p z) as (C & EC & HC) end.
  - lia.
  - intros; lia.
  - intros r C Hr _. rewrite (zget_nth _ _ (Zero : vec B64)) by lia. cbn [rbind]. destruct (HN r Hr) as (x & Ex & Nx). rewrite Ex. cbn [rbind].
    eexists. split; [reflexivity|]. intros _. repeat split; apply nan_add; right; apply nan_mul; right; exact Nx.
  - exists C. split; [exact EC|]. apply HC. lia.
Qed.
(** an infinite parameter *)
Lemma inf_lt sgn (x : B64) : bfin x -> flt B64 (B754_infinity sgn : b64) x = sgn.
Proof. unfold bfin. destruct x; try discriminate; destruct sgn; reflexivity. Qed.
Lemma inf_le sgn (x : B64) : bfin x -> fle B64 x (B754_infinity sgn : b64) = negb sgn.
Proof. unfold bfin. destruct x; try discriminate; destruct sgn; reflexivity. Qed.
Lemma inf_eq sgn (x : B64) : bfin x -> feq B64 (B754_infinity sgn : b64) x = false.
Proof. unfold bfin. destruct x; try discriminate; destruct sgn; reflexivity. Qed.
Lemma findSpan_inf (U : list Z) n p fuel : (forall k, In k U -> (Z.abs k < 2 ^ 53)%Z) -> nondecreasing U ->
  (0 <= p <= n)%Z -> (n + 1 < Z.of_nat (length U))%Z -> forall sgn, findSpan (A := B64) fuel n p (B754_infinity sgn : b64) U = Diverge.
Proof.
  intros HU M Hp Hn sgn. set (ur := if sgn then - 2 ^ 54 else 2 ^ 54).
  assert (B : forall k, In k U -> - 2 ^ 53 < IZR k < 2 ^ 53).
  { intros k Hk. specialize (HU k Hk). rewrite (pow_IZR 2 53). change (2 ^ Z.of_nat 53)%Z with (2 ^ 53)%Z. rewrite <- opp_IZR. split; apply IZR_lt; lia. }
  assert (V : ur < - 2 ^ 53 \/ 2 ^ 53 < ur) by (unfold ur; destruct sgn; [left|right]; lra).
  assert (K : forall j, (0 <= j < Z.of_nat (length U))%Z -> - 2 ^ 53 < knot U j < 2 ^ 53).
  { intros j Hj. destruct (knot_get U j Hj) as (k & _ & I & <-). apply B. exact I. }
  apply (findSpan_diverges (A := B64) U _ ur); auto.
  - intros k Hk. pose proof (B k Hk). pose proof (bfin_ofZ k (HU k Hk)) as F. rewrite (inf_lt sgn (fofZ B64 k) F).
    symmetry. unfold ur. destruct sgn; [apply Rltb_true|apply Rltb_false]; lra.
  - intros k Hk. pose proof (B k Hk). pose proof (bfin_ofZ k (HU k Hk)) as F. rewrite (inf_le sgn (fofZ B64 k) F).
    symmetry. unfold ur. destruct sgn; [apply Rleb_false|apply Rleb_true]; lra.
  - intros k Hk. pose proof (B k Hk). pose proof (bfin_ofZ k (HU k Hk)) as F. rewrite (inf_eq sgn (fofZ B64 k) F).
    symmetry. apply Reqb_false. unfold ur. destruct sgn; lra.
  - pose proof (K p ltac:(lia)). pose proof (K (n + 1)%Z ltac:(lia)). lra.
Qed.
