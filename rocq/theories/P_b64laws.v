(** Laws of binary64 that hold for all values, special values included, and the order of the values
    that are not NaN. *)
From Coq Require Import Reals Lra Lia ZArith QArith Bool List.
From Flocq Require Import Core BinarySingleNaN.
From Verif Require Import Base Arith M_r3.
Import ListNotations.
Open Scope R_scope.

(** ** the order without NaN *)
Definition val (x : b64) : xr :=
  match x with
  | B754_nan => NaN
  | B754_infinity false => PInf
  | B754_infinity true => NInf
  | _ => Fin (B2R x)
  end.
Lemma val_fin (x : b64) : is_finite x = true -> val x = Fin (B2R x).
Proof. destruct x; easy. Qed.
Lemma val_lt (x y : b64) : flt B64 x y = xltb (val x) (val y).
Proof.
  destruct (is_finite x) eqn:Fx; [destruct (is_finite y) eqn:Fy|].
  - rewrite !val_fin by auto. cbn [flt B64 xltb]. rewrite Bltb_correct by auto.
    destruct (Rltb_spec (B2R x) (B2R y)); [apply Rlt_bool_true|apply Rlt_bool_false]; auto.
  - rewrite (val_fin x) by auto. destruct x as [[]|[]| |[] mx ex Bx], y as [[]|[]| |[] my ey By]; try easy.
  - destruct x as [[]|[]| |[] mx ex Bx], y as [[]|[]| |[] my ey By]; try easy.
Qed.
Lemma val_le (x y : b64) : fle B64 x y = xleb (val x) (val y).
Proof.
  destruct (is_finite x) eqn:Fx; [destruct (is_finite y) eqn:Fy|].
  - rewrite !val_fin by auto. cbn [fle B64 xleb]. rewrite Bleb_correct by auto.
    destruct (Rleb_spec (B2R x) (B2R y)); [apply Rle_bool_true|apply Rle_bool_false]; auto.
  - rewrite (val_fin x) by auto. destruct x as [[]|[]| |[] mx ex Bx], y as [[]|[]| |[] my ey By]; try easy.
  - destruct x as [[]|[]| |[] mx ex Bx], y as [[]|[]| |[] my ey By]; try easy.
Qed.

(** a total preorder on the values satisfying [ok] *)
Record ordered (A : Arith) (ok : A -> Prop) : Prop := mkord {
  o_lt : forall x y, ok x -> ok y -> flt A x y = negb (fle A y x);
  o_ok : forall x y, flt A x y = true -> ok x /\ ok y;
  o_total : forall x y, ok x -> ok y -> fle A x y = true \/ fle A y x = true;
  o_trans : forall x y z, ok x -> ok y -> ok z -> fle A x y = true -> fle A y z = true -> fle A x z = true }.
Definition numberX (x : XR) : Prop := x <> NaN.
Definition number64 (x : B64) : Prop := is_nan (x : b64) = false.
Lemma val_nan (x : b64) : is_nan x = false -> val x <> NaN.
Proof. destruct x as [[]|[]| |[] mx ex Bx]; simpl; easy. Qed.
Lemma ordX : ordered XR numberX.
Proof.
  split; unfold numberX; cbn [flt fle XR].
  - intros [x| | |] [y| | |] Hx Hy; try easy. simpl. destruct (Rltb_spec x y), (Rleb_spec y x); auto; lra.
  - intros [x| | |] [y| | |]; easy.
  - intros [x| | |] [y| | |] Hx Hy; try easy; auto. simpl. rewrite !Rleb_true. lra.
  - intros [x| | |] [y| | |] [z| | |] Hx Hy Hz; try easy. simpl. rewrite !Rleb_true. lra.
Qed.
Lemma ord64 : ordered B64 number64.
Proof.
  destruct ordX as [L Ok_ Rf T]. unfold number64. split.
  - intros x y Hx Hy. rewrite val_lt, val_le. apply L; apply val_nan; auto.
  - intros x y. rewrite val_lt. destruct x as [[]|[]| |[] mx ex Bx], y as [[]|[]| |[] my ey By]; easy.
  - intros x y Hx Hy. rewrite !val_le. apply Rf; apply val_nan; auto.
  - intros x y z Hx Hy Hz. rewrite !val_le. apply T; apply val_nan; auto.
Qed.

(** ** commutativity, bit for bit *)
Lemma SF2B_eq (x y : SpecFloat.spec_float) Hx Hy : x = y -> @SF2B 53 1024 x Hx = SF2B y Hy.
Proof. intros ->. apply B2SF_inj. rewrite !B2SF_SF2B. reflexivity. Qed.
Lemma fmul_comm (x y : B64) : fmul B64 x y = fmul B64 y x.
Proof.
  cbn [fmul B64]. destruct x as [sx|sx| |sx mx ex Bx], y as [sy|sy| |sy my ey By]; cbn [Bmult]; try reflexivity; try (rewrite xorb_comm; reflexivity).
  apply SF2B_eq. rewrite xorb_comm, Pos.mul_comm, Z.add_comm. reflexivity.
Qed.
Lemma naive_comm sx mx ex sy my ey e : Fplus_naive sx mx ex sy my ey e = Fplus_naive sy my ey sx mx ex e.
Proof. unfold Fplus_naive. apply Z.add_comm. Qed.
Lemma fadd_comm (x y : B64) : fadd B64 x y = fadd B64 y x.
Proof.
  cbn [fadd B64]. destruct x as [[]|[]| |sx mx ex Bx], y as [[]|[]| |sy my ey By]; cbn [Bplus]; try reflexivity.
  rewrite Z.min_comm, naive_comm. reflexivity.
Qed.
Lemma fsub_anti (x y : B64) : fsub B64 x y = fneg B64 (fsub B64 y x) \/
  fsub B64 x y = fofZ B64 0 /\ fsub B64 y x = fofZ B64 0.
Proof.
  destruct (is_finite (x : b64)) eqn:Fx; [destruct (is_finite (y : b64)) eqn:Fy|].
  2:{ left. cbn [fsub fneg B64]. destruct x as [[]|[]| |[] mx ex Bx], y as [[]|[]| |[] my ey By]; try easy. }
  2:{ left. cbn [fsub fneg B64]. destruct x as [[]|[]| |[] mx ex Bx], y as [[]|[]| |[] my ey By]; try easy. }
  cbn [fsub fneg B64].
  pose proof (Bminus_correct 53 1024 b64_prec b64_pe mode_NE x y Fx Fy) as C.
  pose proof (Bminus_correct 53 1024 b64_prec b64_pe mode_NE y x Fy Fx) as D.
  assert (E : round radix2 (SpecFloat.fexp 53 1024) (round_mode mode_NE) (B2R y - B2R x) = - round radix2 (SpecFloat.fexp 53 1024) (round_mode mode_NE) (B2R x - B2R y)).
  { rewrite <- round_NE_opp. f_equal. ring. }
  rewrite E, Rabs_Ropp in D.
  assert (R0 : B2R x - B2R y = 0 -> round radix2 (SpecFloat.fexp 53 1024) (round_mode mode_NE) (B2R x - B2R y) = 0).
  { intros ->. apply round_0. typeclasses eauto. }
  set (r := round _ _ _ (B2R x - B2R y)) in *. clearbody r. clear E.
  destruct (Rlt_bool (Rabs r) (bpow radix2 1024)).
  - destruct C as (C1 & C2 & C3), D as (D1 & D2 & D3).
    assert (FO : is_finite (Bopp (@Bminus 53 1024 b64_prec b64_pe mode_NE y x)) = true) by (rewrite is_finite_Bopp; auto).
    assert (EO : B2R (Bopp (@Bminus 53 1024 b64_prec b64_pe mode_NE y x)) = r) by (rewrite B2R_Bopp, D1; ring).
    assert (NO : Bsign (Bopp (@Bminus 53 1024 b64_prec b64_pe mode_NE y x)) = negb (Bsign (@Bminus 53 1024 b64_prec b64_pe mode_NE y x))).
    { apply Bsign_Bopp. destruct (@Bminus 53 1024 b64_prec b64_pe mode_NE y x); easy. }
    destruct (Req_dec (B2R x - B2R y) 0) as [Z|N].
    + assert (Z' : B2R y - B2R x = 0) by lra. rewrite Z, Rcompare_Eq in C3 by auto. rewrite Z', Rcompare_Eq in D3 by auto.
      assert (C0 : is_nan (@Bminus 53 1024 b64_prec b64_pe mode_NE x y) = false) by (destruct (@Bminus 53 1024 b64_prec b64_pe mode_NE x y); easy).
      destruct (Bool.bool_dec (Bsign x && negb (Bsign y)) (negb (Bsign y && negb (Bsign x)))) as [Es|Es].
      * left. apply B2R_Bsign_inj; auto; congruence.
      * right. specialize (R0 Z). split; apply B2R_Bsign_inj; auto; cbn [fofZ B64].
        -- rewrite C1, R0. reflexivity.
        -- rewrite C3. destruct (Bsign x), (Bsign y); try reflexivity; destruct Es; reflexivity.
        -- rewrite D1, R0. simpl. ring.
        -- rewrite D3. destruct (Bsign x), (Bsign y); try reflexivity; destruct Es; reflexivity.
    + left. apply B2R_Bsign_inj; auto; try congruence. rewrite NO, C3, D3.
      destruct (Rcompare_spec (B2R x - B2R y) 0), (Rcompare_spec (B2R y - B2R x) 0); auto; lra.
  - left. destruct C as [C1 C2], D as [D1 D2]. apply B2SF_inj. rewrite C1.
    assert (B2SF (Bopp (@Bminus 53 1024 b64_prec b64_pe mode_NE y x)) = SpecFloat.SFopp (binary_overflow 53 1024 mode_NE (Bsign y))) as ->.
    { rewrite <- D1. destruct (@Bminus 53 1024 b64_prec b64_pe mode_NE y x); reflexivity. }
    rewrite C2. destruct (Bsign y); reflexivity.
Qed.

Lemma fmul_opp (x : B64) : fmul B64 (fneg B64 x) (fneg B64 x) = fmul B64 x x.
Proof.
  cbn [fmul fneg B64]. destruct x as [[]|[]| |sx mx ex Bx]; cbn [Bopp Bmult]; try reflexivity.
  apply SF2B_eq. destruct sx; reflexivity.
Qed.
Lemma sq_sub (x y : B64) : fmul B64 (fsub B64 x y) (fsub B64 x y) = fmul B64 (fsub B64 y x) (fsub B64 y x).
Proof. destruct (fsub_anti x y) as [->|[-> ->]]; [apply fmul_opp|reflexivity]. Qed.

(** ** signs *)
(* not NaN and the sign bit is clear *)
Definition pos64 (x : b64) : Prop := is_nan x = false /\ Bsign x = false.
Lemma pos64_le (x : B64) : pos64 x -> fle B64 (fofZ B64 0) x = true.
Proof. intros [N S]. destruct x as [[]|[]| |[] mx ex Bx]; try discriminate; reflexivity. Qed.
Lemma pos64_ge (x : b64) : pos64 x -> 0 <= B2R x.
Proof.
  intros [N S]. destruct x as [[]|[]| |[] mx ex Bx]; try discriminate; simpl; try lra.
  apply F2R_ge_0. simpl. lia.
Qed.
Lemma overflow_NE s (x : b64) : B2SF x = binary_overflow 53 1024 mode_NE s -> x = B754_infinity s.
Proof. intros E. apply B2SF_inj. rewrite E. reflexivity. Qed.
Lemma pos64_sq (x : b64) : is_nan x = false -> pos64 (fmul B64 x x).
Proof.
  intros N. cbn [fmul B64]. destruct x as [[]|[]| |sx mx ex Bx]; try discriminate; try (split; reflexivity).
  pose proof (Bmult_correct 53 1024 b64_prec b64_pe mode_NE (B754_finite sx mx ex Bx) (B754_finite sx mx ex Bx)) as C.
  destruct Rlt_bool.
  - destruct C as (_ & C2 & C3). assert (Nn : is_nan (@Bmult 53 1024 b64_prec b64_pe mode_NE (B754_finite sx mx ex Bx) (B754_finite sx mx ex Bx)) = false).
    { destruct (@Bmult 53 1024 b64_prec b64_pe mode_NE (B754_finite sx mx ex Bx) (B754_finite sx mx ex Bx)); try easy. }
    split; auto. rewrite C3 by auto. apply xorb_nilpotent.
  - apply overflow_NE in C. rewrite C. split; auto. simpl. apply xorb_nilpotent.
Qed.
Lemma pos64_add (x y : b64) : pos64 x -> pos64 y -> pos64 (fadd B64 x y).
Proof.
  intros Px Py. cbn [fadd B64].
  destruct (is_finite x) eqn:Fx; [destruct (is_finite y) eqn:Fy|].
  - pose proof (Bplus_correct 53 1024 b64_prec b64_pe mode_NE x y Fx Fy) as C. destruct Rlt_bool.
    + destruct C as (_ & C2 & C3). split; [destruct (@Bplus 53 1024 b64_prec b64_pe mode_NE x y); easy|].
      rewrite C3. pose proof (pos64_ge x Px) as Hx. pose proof (pos64_ge y Py) as Hy. destruct Px as [_ ->], Py as [_ ->].
      destruct (Rcompare_spec (B2R x + B2R y) 0); auto; lra.
    + destruct C as [C1 C2]. apply overflow_NE in C1. rewrite C1. destruct Px as [_ ->]. split; reflexivity.
  - destruct Px, Py. destruct x as [[]|[]| |[] mx ex Bx], y as [[]|[]| |[] my ey By]; try discriminate; split; reflexivity.
  - destruct Px, Py. destruct x as [[]|[]| |[] mx ex Bx], y as [[]|[]| |[] my ey By]; try discriminate; split; reflexivity.
Qed.
Lemma pos64_sqrt (x : b64) : pos64 x -> pos64 (fsqrt B64 x).
Proof.
  intros [N S]. cbn [fsqrt B64]. destruct (Bsqrt_correct 53 1024 b64_prec b64_pe mode_NE x) as (_ & F & G).
  assert (Nn : is_nan (@Bsqrt 53 1024 b64_prec b64_pe mode_NE x) = false).
  { destruct x as [[]|[]| |[] mx ex Bx]; try discriminate; try reflexivity.
    destruct (@Bsqrt 53 1024 b64_prec b64_pe mode_NE (B754_finite false mx ex Bx)); easy. }
  split; auto. rewrite G; auto.
Qed.
(** *** NaN *)
Lemma nan_add (x y : b64) : is_nan x = true \/ is_nan y = true -> is_nan (fadd B64 x y : b64) = true.
Proof. intros [H|H]; [destruct x|destruct y]; try discriminate; [reflexivity|destruct x as [[]|[]| |[] mx ex Bx]; reflexivity]. Qed.
Lemma nan_mul (x y : b64) : is_nan x = true \/ is_nan y = true -> is_nan (fmul B64 x y : b64) = true.
Proof. intros [H|H]; [destruct x|destruct y]; try discriminate; [reflexivity|destruct x as [[]|[]| |[] mx ex Bx]; reflexivity]. Qed.
Lemma nan_sqrt (x : b64) : is_nan x = true -> is_nan (fsqrt B64 x : b64) = true.
Proof. intros H. destruct x; easy. Qed.
(* infinities of one sign, or a NaN *)
Definition no_diff (x y : b64) : Prop := is_nan x = true \/ is_nan y = true \/ x = y /\ is_finite x = false.
Lemma nan_sub (x y : b64) : is_nan (fsub B64 x y : b64) = true <-> no_diff x y.
Proof.
  unfold no_diff. destruct (is_finite x) eqn:Fx; [destruct (is_finite y) eqn:Fy|].
  - split.
    + cbn [fsub B64]. intros N. exfalso. pose proof (Bminus_correct 53 1024 b64_prec b64_pe mode_NE x y Fx Fy) as C. destruct Rlt_bool.
      * destruct C as (_ & C & _). destruct (@Bminus 53 1024 b64_prec b64_pe mode_NE x y); easy.
      * destruct C as [C _]. apply overflow_NE in C. rewrite C in N. easy.
    + intros [H|[H|[_ H]]]; [destruct x|destruct y|]; easy.
  - cbn [fsub B64]. destruct x as [[]|[]| |[] mx ex Bx], y as [[]|[]| |[] my ey By]; try discriminate; simpl; intuition; try easy.
  - cbn [fsub B64]. destruct x as [[]|[]| |[] mx ex Bx], y as [[]|[]| |[] my ey By]; try discriminate; simpl; intuition; try easy.
Qed.
Lemma fsub_self (x : B64) : is_finite (x : b64) = true -> fsub B64 x x = fofZ B64 0.
Proof.
  intros F. cbn [fsub fofZ B64]. pose proof (Bminus_correct 53 1024 b64_prec b64_pe mode_NE x x F F) as C.
  rewrite Rminus_diag_eq in C by auto. rewrite round_0, Rabs_R0, Rlt_bool_true in C by (try apply bpow_gt_0; typeclasses eauto).
  destruct C as (C1 & C2 & C3). rewrite Rcompare_Eq in C3 by auto. apply B2R_Bsign_inj; auto. rewrite C3. destruct (Bsign x); reflexivity.
Qed.
