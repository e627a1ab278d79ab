(** Proofs about package glTF. *)
From Coq Require Import Reals Lra Lia ZArith List.
From Flocq Require Import Core BinarySingleNaN.
From Verif Require Import Base Arith M_r3 M_shape M_gltf P_meshgeom.
Import ListNotations.
Open Scope R_scope.

Lemma fold_append {X Y} (f : X -> Y) l : forall acc, fold_left (fun a x => a ++ [f x]) l acc = acc ++ map f l.
Proof. induction l as [|x l IH]; intros acc; simpl; [now rewrite app_nil_r|]. rewrite IH, <- app_assoc. reflexivity. Qed.
Lemma transferModel_value mesh : transferModel mesh =
  mkModel (map (fun v : vec B64 => (b32_of_b64 (vx v), b32_of_b64 (vy v), b32_of_b64 (vz v))) (mVertices mesh)) (mIndices mesh).
Proof.
  unfold transferModel.
  rewrite (fold_append (fun v : vec B64 => (b32_of_b64 (vx v), b32_of_b64 (vy v), b32_of_b64 (vz v)))). reflexivity.
Qed.
Lemma exportColors_value mesh : exportColors mesh = repeat (255, 255, 255)%Z (length (mVertices mesh)).
Proof.
  unfold exportColors.
  match goal with |- ?f _ _ = _ => assert (E : forall n acc, f n acc = acc ++ repeat (255, 255, 255)%Z n) end.
  { induction n as [|n IH]; intros acc; [now rewrite app_nil_r|]. cbn [repeat]. cbv beta iota fix. 
    change (acc ++ (255, 255, 255)%Z :: repeat (255, 255, 255)%Z n) with (acc ++ [(255, 255, 255)%Z] ++ repeat (255, 255, 255)%Z n).
    rewrite app_assoc, <- IH. reflexivity. }
  apply (E _ []).
Qed.

Definition bR32 (y : b32) : R := B2R y.
Definition bfin32 (y : b32) : Prop := is_finite y = true.
Notation rnd32 := (round radix2 (SpecFloat.fexp 24 128) ZnearestE).
Lemma b32_correct (x : B64) : bfin x ->
  if Rlt_bool (Rabs (rnd32 (bR x))) (bpow radix2 128) then
    bR32 (b32_of_b64 x) = rnd32 (bR x) /\ bfin32 (b32_of_b64 x)
  else exists s, b32_of_b64 x = B754_infinity s /\ (s = true <-> bR x < 0).
Proof.
  intros Hx. destruct x as [s|s| |s m e He]; try discriminate.
  - assert (E : bR (B754_zero s : B64) = 0) by reflexivity. rewrite E, round_0 by apply valid_rnd_N.
    rewrite Rabs_R0, Rlt_bool_true by apply bpow_gt_0. split; reflexivity.
  - unfold b32_of_b64, bR32, bfin32. 
    pose proof (binary_normalize_correct 24 128 b32_prec b32_pe mode_NE (SpecFloat.cond_Zopp s (Z.pos m)) e s) as C.
    cbv zeta in C. change (round_mode mode_NE) with ZnearestE in C.
    assert (E : bR (B754_finite s m e He : B64) = F2R (Float radix2 (SpecFloat.cond_Zopp s (Z.pos m)) e)) by reflexivity.
    rewrite E. 
    destruct (Rlt_bool _ _).
    + destruct C as (C1 & C2 & _). auto.
    + match type of C with B2SF ?z = _ => destruct z as [s'|s'| |s' m' e' H'] eqn:Ez end;
        unfold BinarySingleNaN.binary_overflow in C; cbn [B2SF overflow_to_inf] in C; try discriminate.
      injection C as ->. exists (Rlt_bool (F2R (Float radix2 (SpecFloat.cond_Zopp s (Z.pos m)) e)) 0).
      split; [reflexivity|]. destruct (Rlt_bool_spec (F2R (Float radix2 (SpecFloat.cond_Zopp s (Z.pos m)) e)) 0);
        split; intros; try reflexivity; try assumption; try discriminate; lra.
Qed.

Definition mid64 : B64 := b64_lit (2 ^ 25 - 1) 103.
Definition lim32 : R := bpow radix2 128 - bpow radix2 103.
Definition max32 : R := bpow radix2 128 - bpow radix2 104.
Local Instance valid32 : Valid_exp (SpecFloat.fexp 24 128) := @fexp_correct 24 128 b32_prec.
Lemma rnd32_nearest x (z : b32) : Rabs (rnd32 x - x) <= Rabs (bR32 z - x).
Proof.
  pose proof (round_N_pt radix2 (SpecFloat.fexp 24 128) (fun x => negb (Z.even x)) x) as (_ & H).
  apply H. apply generic_format_B2R.
Qed.
Lemma fexp32_FLT e : SpecFloat.fexp 24 128 e = FLT_exp (-149) 24 e.
Proof. reflexivity. Qed.
Lemma gf_2p128 : generic_format radix2 (SpecFloat.fexp 24 128) (bpow radix2 128).
Proof. apply generic_format_bpow. vm_compute. discriminate. Qed.
Definition m32 : b32 := @binary_normalize 24 128 b32_prec b32_pe mode_NE (2 ^ 24 - 1) 104 false.
Lemma m32_R : bR32 m32 = max32.
Proof.
  assert (E : B2SF m32 = SpecFloat.S754_finite false 16777215 104) by (vm_compute; reflexivity).
  unfold bR32. rewrite <- SF2R_B2SF, E. unfold SF2R, F2R, max32. cbn [Fnum Fexp SpecFloat.cond_Zopp].
  replace (bpow radix2 128) with (16777216 * bpow radix2 104). 
  - change (bpow radix2 104) with (bpow radix2 104). lra.
  - change 128%Z with (24 + 104)%Z. rewrite bpow_plus. f_equal.
Qed.

Lemma lim32_R : bR mid64 = lim32.
Proof.
  assert (E : B2SF (mid64 : b64) = SpecFloat.S754_finite false (33554431 * 2 ^ 28) 75) by (vm_compute; reflexivity).
  unfold bR. rewrite <- SF2R_B2SF, E. unfold SF2R, F2R, lim32. cbn [Fnum Fexp SpecFloat.cond_Zopp].
  change 128%Z with (53 + 75)%Z. change 103%Z with (28 + 75)%Z. rewrite !(bpow_plus radix2 _ 75).
  rewrite <- Rmult_minus_distr_r. f_equal. rewrite <- !(IZR_Zpower radix2) by lia. rewrite <- minus_IZR. f_equal.
Qed.
Lemma mid64_round : bpow radix2 128 <= rnd32 lim32.
Proof.
  pose proof (b32_correct mid64 eq_refl) as C. rewrite lim32_R in C.
  destruct (Rlt_bool_spec (Rabs (rnd32 lim32)) (bpow radix2 128)) as [H|H].
  - destruct C as (_ & C). vm_compute in C. discriminate.
  - rewrite Rabs_pos_eq in H; [exact H|]. apply round_ge_generic; [apply valid32|apply valid_rnd_N|apply generic_format_0|].
    unfold lim32. pose proof (bpow_lt radix2 103 128 ltac:(lia)). lra.
Qed.
Lemma rnd32_opp x : rnd32 (- x) = - rnd32 x.
Proof. apply round_NE_opp. Qed.
Lemma rnd32_lt x : 0 <= x -> (rnd32 x < bpow radix2 128 <-> x < lim32).
Proof.
  intros Hx. split; intros H.
  - apply Rnot_le_lt. intros L. apply (round_le radix2 (SpecFloat.fexp 24 128) ZnearestE) in L.
    pose proof mid64_round. lra.
  - assert (P : bpow radix2 104 = 2 * bpow radix2 103) by (change 104%Z with (1 + 103)%Z; rewrite bpow_plus; reflexivity).
    pose proof (bpow_gt_0 radix2 103) as P1. pose proof (rnd32_nearest x m32) as N. rewrite m32_R in N.
    destruct (Rle_lt_dec x max32) as [L|L].
    + apply (round_le radix2 (SpecFloat.fexp 24 128) ZnearestE) in L.
      rewrite (round_generic radix2 (SpecFloat.fexp 24 128) ZnearestE max32) in L
        by (rewrite <- m32_R; apply generic_format_B2R).
      unfold max32 in L. lra.
    + apply Rnot_le_lt. intros G. unfold lim32, max32 in *. 
      rewrite (Rabs_pos_eq (rnd32 x - x)) in N by lra. rewrite Rabs_left in N by lra. lra.
Qed.
Lemma b32_finite_iff (x : B64) : bfin x -> (bfin32 (b32_of_b64 x) <-> Rabs (bR x) < lim32).
Proof.
  intros Hx. pose proof (b32_correct x Hx) as C.
  assert (E : Rabs (rnd32 (bR x)) < bpow radix2 128 <-> Rabs (bR x) < lim32).
  { rewrite <- rnd32_lt by apply Rabs_pos. 
    replace (Rabs (rnd32 (bR x))) with (rnd32 (Rabs (bR x))); [reflexivity|].
    unfold Rabs at 1. destruct (Rcase_abs (bR x)) as [L|L].
    - rewrite rnd32_opp. symmetry. apply Rabs_left1.
      apply round_le_generic; [apply valid32|apply valid_rnd_N|apply generic_format_0|lra].
    - symmetry. apply Rabs_pos_eq.
      apply round_ge_generic; [apply valid32|apply valid_rnd_N|apply generic_format_0|lra]. }
  rewrite <- E. destruct (Rlt_bool_spec (Rabs (rnd32 (bR x))) (bpow radix2 128)) as [L|L].
  - tauto.
  - destruct C as (s & -> & _). split; [discriminate|lra].
Qed.
Lemma b32_nearest (x : B64) : bfin x -> bfin32 (b32_of_b64 x) ->
  forall z : b32, bfin32 z -> Rabs (bR32 (b32_of_b64 x) - bR x) <= Rabs (bR32 z - bR x).
Proof.
  intros Hx Hf z _. pose proof (b32_correct x Hx) as C.
  destruct (Rlt_bool _ _).
  - destruct C as (-> & _). apply rnd32_nearest.
  - destruct C as (s & E & _). rewrite E in Hf. discriminate.
Qed.
Lemma b32_overflow (x : B64) : bfin x -> lim32 <= Rabs (bR x) ->
  b32_of_b64 x = B754_infinity (Rlt_bool (bR x) 0).
Proof.
  intros Hx H. pose proof (b32_correct x Hx) as C. pose proof (b32_finite_iff x Hx) as F.
  destruct (Rlt_bool (Rabs _) _) in C.
  - destruct C as (_ & C). apply F in C. lra.
  - destruct C as (s & -> & S). f_equal. destruct (Rlt_bool_spec (bR x) 0) as [L|L]; destruct s; auto.
    + exact (proj2 S L).
    + exfalso. apply (Rlt_not_le _ _ (proj1 S eq_refl)). exact L.
Qed.
