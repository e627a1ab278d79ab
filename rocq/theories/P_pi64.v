(** No binary64 number is close to 2 pi. *)
From Coq Require Import Reals Lra Lia ZArith QArith Qreals Ratan.
From Flocq Require Import Core BinarySingleNaN.
From Verif Require Import Base Arith P_insphere_err P_insphere_b64 P_b64sc P_b64err P_b64hash P_b64rel P_b64norm.
Open Scope R_scope.
Local Instance p53t : Prec_gt_0 53 := eq_refl.
Local Instance vxt : Valid_exp (SpecFloat.fexp 53 1024) := fexp_correct 53 1024 b64_prec.

Fixpoint qpow (q : Q) (n : nat) : Q := match n with O => 1%Q | S n => Qred (q * qpow q n) end.
Lemma qpow_R q n : Q2R (qpow q n) = Q2R q ^ n.
Proof. induction n; [unfold Q2R; simpl; lra|]. cbn [qpow pow]. rewrite (Qeq_eqR _ _ (Qred_correct _)), Q2R_mult, IHn. reflexivity. Qed.
Definition rat_q (q : Q) (n : nat) : Q := (qpow q (2 * n + 1) * (1 # Pos.of_nat (2 * n + 1)))%Q.
Lemma rat_R q n : Q2R (rat_q q n) = Ratan_seq (Q2R q) n.
Proof.
  unfold rat_q, Ratan_seq. rewrite Q2R_mult, qpow_R. unfold Rdiv. f_equal. unfold Q2R. cbn [Qnum Qden]. rewrite Rmult_1_l. f_equal.
  rewrite INR_IZR_INZ. f_equal. rewrite <- positive_nat_Z, Nat2Pos.id by lia. reflexivity.
Qed.
Fixpoint sum_q (n : nat) : Q :=
  let t := fun n => ((if Nat.even n then 1 else -1) * (2 * rat_q (1 # 3) n + rat_q (1 # 7) n))%Q in
  match n with O => t O | S m => Qred (sum_q m + t n) end.
Lemma term_R n : Q2R ((if Nat.even n then 1 else -1) * (2 * rat_q (1 # 3) n + rat_q (1 # 7) n)) = tg_alt PI_2_3_7_tg n.
Proof.
  unfold tg_alt, PI_2_3_7_tg. rewrite Q2R_mult, Q2R_plus, Q2R_mult, !rat_R.
  replace (Q2R (1 # 3)) with (/ 3) by (unfold Q2R; simpl; lra). replace (Q2R (1 # 7)) with (/ 7) by (unfold Q2R; simpl; lra).
  replace (Q2R 2) with 2 by (unfold Q2R; simpl; lra). f_equal.
  assert (H : forall n, (-1) ^ n = if Nat.even n then 1 else -1).
  { clear. intros n. induction n as [|n IH]; [reflexivity|]. rewrite Nat.even_succ, <- Nat.negb_even. simpl pow. rewrite IH. destruct (Nat.even n); simpl; lra. }
  rewrite H. destruct (Nat.even n); unfold Q2R; simpl; lra.
Qed.
Lemma sum_R n : Q2R (sum_q n) = sum_f_R0 (tg_alt PI_2_3_7_tg) n.
Proof.
  induction n as [|n IH]; [apply term_R|]. cbn [sum_q]. rewrite (Qeq_eqR _ _ (Qred_correct _)), Q2R_plus, IH, term_R. reflexivity.
Qed.
(* 2 pi in units of 2^-50 *)
Lemma two_pi : 7074237752028440 + / 8 <= 2 * PI * 1125899906842624 <= 7074237752028441 - / 8.
Proof.
  destruct (PI_2_3_7_ineq 9) as [L U]. rewrite <- sum_R in L, U.
  assert (A : ((7074237752028440 + (1 # 8)) / (8 * 1125899906842624) <= sum_q (S (2 * 9)))%Q) by (apply Qle_bool_imp_le; vm_compute; reflexivity).
  assert (B : (sum_q (2 * 9) <= (7074237752028441 - (1 # 8)) / (8 * 1125899906842624))%Q) by (apply Qle_bool_imp_le; vm_compute; reflexivity).
  apply Qle_Rle in A. apply Qle_Rle in B.
  set (sa := Q2R (sum_q (S (2 * 9)))) in *. set (sb := Q2R (sum_q (2 * 9))) in *.
  assert (EA : Q2R ((7074237752028440 + (1 # 8)) / (8 * 1125899906842624)) = (7074237752028440 + / 8) / (8 * 1125899906842624)).
  { unfold Q2R. cbn. lra. }
  assert (EB : Q2R ((7074237752028441 - (1 # 8)) / (8 * 1125899906842624)) = (7074237752028441 - / 8) / (8 * 1125899906842624)).
  { unfold Q2R. cbn. lra. }
  rewrite EA in A. rewrite EB in B. lra.
Qed.
Lemma far_from_2pi (x : R) : fmt x -> 2 * PI - 1 <= x <= 2 * PI + 1 -> bp (-53) <= Rabs (x - 2 * PI).
Proof.
  intros F Hx. pose proof two_pi as T.
  assert (X4 : 4 <= x <= 8) by lra.
  assert (M : exists m : Z, x = IZR m * bp (-50)).
  { destruct (Req_dec x 8) as [->|N8]; [exists (9007199254740992)%Z; change (bp (-50)) with (/ 1125899906842624); lra|].
    unfold generic_format in F. exists (Ztrunc (scaled_mantissa radix2 (SpecFloat.fexp 53 1024) x)). rewrite F at 1. unfold F2R. cbn [Fnum Fexp]. f_equal.
    f_equal. unfold cexp. rewrite (mag_unique radix2 x 3).
    - reflexivity.
    - rewrite Rabs_pos_eq by lra. change (bp (3 - 1)) with 4. change (bp 3) with 8. lra. }
  destruct M as (m & ->). change (bp (-50)) with (/ 1125899906842624) in *. change (bp (-53)) with (/ 9007199254740992).
  destruct (Z_le_gt_dec m 7074237752028440) as [L|L].
  - apply IZR_le in L. rewrite Rabs_left1; lra.
  - assert (G : (7074237752028441 <= m)%Z) by lia. apply IZR_le in G. rewrite Rabs_pos_eq; lra.
Qed.
