(** The two ends of a clamped curve in binary64. *)
From Coq Require Import Reals Lra Lia ZArith QArith Bool List.
From Flocq Require Import Core Relative Plus_error BinarySingleNaN.
From Verif Require Import Base Arith M_r3 Spec_r3 M_nurbs Spec_nurbs P_meshgeom P_tri3 P_nurbs P_nurbs2 P_insphere_err P_insphere_b64 P_b64sc P_b64err P_b64hash P_b64rel P_b64norm P_b64laws P_b64nurbs.
Import ListNotations.
Open Scope R_scope.
Local Instance p53c : Prec_gt_0 53 := eq_refl.
Local Instance vxc : Valid_exp (SpecFloat.fexp 53 1024) := fexp_correct 53 1024 b64_prec.

(* x is finite with value v *)
Definition fval (x : B64) (v : R) : Prop := is_finite (x : b64) = true /\ B2R (x : b64) = v.
Lemma fval_fmt x v : fval x v -> generic_format radix2 (SpecFloat.fexp 53 1024) v.
Proof. intros [_ <-]. apply generic_format_B2R. Qed.
Lemma fval_lt x v : fval x v -> Rabs v < bp 1024.
Proof. intros [_ <-]. apply abs_B2R_lt_emax. Qed.
Lemma fv_add x y a b : fval x a -> fval y b -> Rabs (rndF (a + b)) < bp 1024 -> fval (fadd B64 x y) (rndF (a + b)).
Proof.
  intros [Fx Vx] [Fy Vy] H. subst a b. pose proof (Bplus_correct 53 1024 b64_prec b64_pe mode_NE x y Fx Fy) as C.
  rewrite Rlt_bool_true in C by exact H. destruct C as (C1 & C2 & _). split; [exact C2|exact C1].
Qed.
Lemma fv_mul x y a b : fval x a -> fval y b -> Rabs (rndF (a * b)) < bp 1024 -> fval (fmul B64 x y) (rndF (a * b)).
Proof.
  intros [Fx Vx] [Fy Vy] H. subst a b. pose proof (Bmult_correct 53 1024 b64_prec b64_pe mode_NE x y) as C.
  rewrite Rlt_bool_true in C by exact H. destruct C as (C1 & C2 & _). rewrite Fx, Fy in C2. split; [exact C2|exact C1].
Qed.
Lemma fv_div x y a b : fval x a -> fval y b -> b <> 0 -> Rabs (rndF (a / b)) < bp 1024 -> fval (fdiv B64 x y) (rndF (a / b)).
Proof.
  intros [Fx Vx] [Fy Vy] N H. subst a b. pose proof (Bdiv_correct 53 1024 b64_prec b64_pe mode_NE x y N) as C.
  rewrite Rlt_bool_true in C by exact H. destruct C as (C1 & C2 & _). rewrite Fx in C2. split; [exact C2|exact C1].
Qed.
Lemma fv_sub x y a b : fval x a -> fval y b -> Rabs (rndF (a - b)) < bp 1024 -> fval (fsub B64 x y) (rndF (a - b)).
Proof.
  intros [Fx Vx] [Fy Vy] H. subst a b. pose proof (Bminus_correct 53 1024 b64_prec b64_pe mode_NE x y Fx Fy) as C.
  rewrite Rlt_bool_true in C by exact H. destruct C as (C1 & C2 & _). split; [exact C2|exact C1].
Qed.
(* additions of zero, products with zero and one: exact for every finite value *)
Lemma fv_add0 x y a : fval x a -> fval y 0 -> fval (fadd B64 x y) a.
Proof.
  intros X Y. pose proof (rndF_id a (fval_fmt _ _ X)) as E. rewrite <- E. rewrite <- (Rplus_0_r a) at 1. apply fv_add; auto.
  rewrite Rplus_0_r, E. apply (fval_lt x); auto.
Qed.
Lemma fv_0add x y a : fval x 0 -> fval y a -> fval (fadd B64 x y) a.
Proof.
  intros X Y. pose proof (rndF_id a (fval_fmt _ _ Y)) as E. rewrite <- E. rewrite <- (Rplus_0_l a) at 1. apply fv_add; auto.
  rewrite Rplus_0_l, E. apply (fval_lt y); auto.
Qed.
Lemma rnd00 : rndF 0 = 0. Proof. apply rndF_id. apply generic_format_0. Qed.
Lemma abs0lt : Rabs 0 < bp 1024. Proof. rewrite Rabs_R0. apply bpow_gt_0. Qed.
Lemma fv_mul0 x y a : fval x a -> fval y 0 -> fval (fmul B64 x y) 0.
Proof.
  intros X Y. rewrite <- rnd00. rewrite <- (Rmult_0_r a) at 1. apply fv_mul; auto.
  rewrite Rmult_0_r, rnd00. apply abs0lt.
Qed.
Lemma fv_0mul x y a : fval x 0 -> fval y a -> fval (fmul B64 x y) 0.
Proof.
  intros X Y. rewrite <- rnd00. rewrite <- (Rmult_0_l a) at 1. apply fv_mul; auto.
  rewrite Rmult_0_l, rnd00. apply abs0lt.
Qed.
Lemma fv_mul1 x y a : fval x a -> fval y 1 -> fval (fmul B64 x y) a.
Proof.
  intros X Y. pose proof (rndF_id a (fval_fmt _ _ X)) as E. rewrite <- E. rewrite <- (Rmult_1_r a) at 1. apply fv_mul; auto.
  rewrite Rmult_1_r, E. apply (fval_lt x); auto.
Qed.
Lemma fv_1mul x y a : fval x 1 -> fval y a -> fval (fmul B64 x y) a.
Proof.
  intros X Y. pose proof (rndF_id a (fval_fmt _ _ Y)) as E. rewrite <- E. rewrite <- (Rmult_1_l a) at 1. apply fv_mul; auto.
  rewrite Rmult_1_l, E. apply (fval_lt y); auto.
Qed.
Lemma fv_0div x y b : fval x 0 -> fval y b -> b <> 0 -> fval (fdiv B64 x y) 0.
Proof.
  intros X Y N. assert (E : 0 / b = 0) by (unfold Rdiv; ring). rewrite <- rnd00. rewrite <- E at 1. apply fv_div; auto.
  rewrite E, rnd00. apply abs0lt.
Qed.
Lemma fv_ofZ z : (Z.abs z < 2 ^ 53)%Z -> fval (fofZ B64 z) (IZR z).
Proof. intros H. split; [exact (bfin_ofZ z H)|exact (bR_ofZ z H)]. Qed.

(** ** One step of the basis recurrence at a clamped end *)
Definition hop (G x : R) : R := rndF (G * rndF (x / G)).
Fixpoint hops (n : nat) (G : R) : R := match n with O => 1 | S n => hop G (hops n G) end.
Definition gapr (G : R) : Prop := 1 <= G <= bp 54.
Lemma fmt1 : generic_format radix2 (SpecFloat.fexp 53 1024) 1.
Proof. apply (fval_fmt (fofZ B64 1)). apply (fv_ofZ 1). reflexivity. Qed.
Lemma rnd_ulp1 : rndF (1 + u) <= 1.
Proof.
  assert (V : fval (b64_lit 1 (-53) : B64) u).
  { split; [reflexivity|]. cbn. unfold Defs.F2R. cbn. unfold u53. lra. }
  assert (W := fv_ofZ 1 ltac:(reflexivity)).
  assert (X : Rabs (rndF (1 + u)) < bp 1024).
  { pose proof u_pos as UP. assert (0 <= rndF (1 + u)) by (apply rnd_pos; lra). rewrite Rabs_pos_eq by lra.
    apply Rle_lt_trans with (IZR 2); [|change (IZR 2) with (bp 1); apply bpow_lt; lia].
    apply rndF_le; [apply (fval_fmt (fofZ B64 2)); apply (fv_ofZ 2); reflexivity|lra]. }
  pose proof (fv_add _ _ _ _ W V X) as [_ E].
  assert (Q : B2SF (fadd B64 (fofZ B64 1) (b64_lit 1 (-53)) : b64) = B2SF (fofZ B64 1 : b64)) by (vm_compute; reflexivity).
  apply B2SF_inj in Q. rewrite Q in E. destruct W as [_ W]. rewrite W in E. lra.
Qed.
Section Hop.
Variable G : R.
Hypothesis HG : gapr G.
Hypothesis FG : generic_format radix2 (SpecFloat.fexp 53 1024) G.
Lemma bp54 : 1 <= bp 54. Proof. change 1 with (bp 0). apply bpow_le. lia. Qed.
Lemma hop_mono x y : x <= y -> hop G x <= hop G y.
Proof.
  intros H. unfold hop. destruct HG. apply rndF_mono. apply Rmult_le_compat_l; [lra|]. apply rndF_mono.
  apply Rmult_le_compat_r; [|exact H]. left. apply Rinv_0_lt_compat. lra.
Qed.
Lemma hop_nonneg x : 0 <= x -> 0 <= hop G x.
Proof.
  intros H. unfold hop. destruct HG. apply rnd_pos. apply Rmult_le_pos; [lra|]. apply rnd_pos. apply Rmult_le_pos; [lra|].
  left. apply Rinv_0_lt_compat. lra.
Qed.
Lemma hop1_le : hop G 1 <= 1.
Proof.
  unfold hop. destruct HG as [G1 G2]. pose proof u_pos as UP. assert (I : 0 < 1 / G) by (apply Rdiv_lt_0_compat; lra).
  assert (B : bp (-1022) <= Rabs (1 / G)).
  { rewrite Rabs_pos_eq by lra. apply Rle_trans with (bp (-54)); [apply bpow_le; lia|].
    unfold Rdiv. rewrite Rmult_1_l. change (-54)%Z with (- (54))%Z. rewrite bpow_opp. apply Rinv_le; lra. }
  pose proof (rnd_big _ B) as E. rewrite (Rabs_pos_eq (1 / G)) in E by lra. apply Raux.Rabs_le_inv in E.
  apply Rle_trans with (rndF (1 + u)); [|apply rnd_ulp1]. apply rndF_mono.
  replace (1 + u) with (G * (1 / G + u * (1 / G))) by (field; lra). apply Rmult_le_compat_l; lra.
Qed.
Lemma hops_range n : 0 <= hops n G <= 1.
Proof.
  induction n as [|n IH]; cbn [hops]; [lra|]. split; [apply hop_nonneg; lra|].
  apply Rle_trans with (hop G 1); [apply hop_mono; lra|apply hop1_le].
Qed.
Lemma hops_one n : hop G 1 = 1 -> hops n G = 1.
Proof. intros H. induction n as [|n IH]; cbn [hops]; [reflexivity|]. now rewrite IH. Qed.
Lemma hops_lt n : hop G 1 <> 1 -> hops (S n) G < 1.
Proof.
  intros H. pose proof hop1_le. cbn [hops]. apply Rle_lt_trans with (hop G 1); [|lra]. apply hop_mono. apply hops_range.
Qed.
Lemma fv_hop x g a t : fval x a -> fval g G -> fval t G -> 0 <= a <= 1 -> fval (fmul B64 g (fdiv B64 x t)) (hop G a).
Proof.
  intros X Y T Ha. destruct HG as [G1 G2]. pose proof bp54.
  assert (Q : 0 <= a / G <= 1).
  { split; [apply Rmult_le_pos; [lra|left; apply Rinv_0_lt_compat; lra]|]. apply Rmult_le_reg_r with G; [lra|].
    replace (a / G * G) with a by (field; lra). lra. }
  assert (Q2 : 0 <= rndF (a / G) <= 1) by (split; [apply rnd_pos; lra|apply rndF_le; [apply fmt1|lra]]).
  assert (O1 : 1 < bp 1024) by (change 1 with (bp 0); apply bpow_lt; lia).
  pose proof (fv_div _ _ _ _ X T ltac:(lra) ltac:(rewrite Rabs_pos_eq by lra; lra)) as D.
  apply fv_mul; auto. pose proof (hop_nonneg a ltac:(lra)) as HN. unfold hop in HN. rewrite Rabs_pos_eq by lra.
  apply Rle_lt_trans with (hop G 1); [apply (hop_mono a 1); lra|]. pose proof hop1_le. lra.
Qed.
End Hop.

(** ** The left end: basis values are (hops p, 0, ..., 0) *)
Definition posv (x : B64) : Prop := exists v, fval x v /\ 1 <= v.
Lemma inner_left (lft rgt N : list B64) (j L : Z) (G a : R) : (1 <= j < L)%Z -> length N = Z.to_nat L ->
  gapr G -> 0 <= a <= 1 ->
  (forall k, (1 <= k <= j)%Z -> exists x, zget lft k = Ok x /\ fval x 0) ->
  (forall k, (1 <= k <= j)%Z -> exists x, zget rgt k = Ok x /\ posv x /\ (k = 1%Z -> fval x G)) ->
  (exists x, zget N 0 = Ok x /\ fval x a) ->
  (forall r, (1 <= r < j)%Z -> exists x, zget N r = Ok x /\ fval x 0) ->
  exists (N' : list B64) sv, forTo 0 (j - 1) (N, fofZ B64 0) (basisInner lft rgt j) = Ok (N', sv) /\ fval sv 0 /\ length N' = Z.to_nat L /\
    (exists x, zget N' 0 = Ok x /\ fval x (hop G a)) /\ (forall r, (1 <= r < j)%Z -> exists x, zget N' r = Ok x /\ fval x 0).
Proof.
  intros Hj LN HG Ha HL HR H0 H1.
  destruct (forTo_inv (fun r (s : list B64 * B64) => length (fst s) = Z.to_nat L /\ fval (snd s) 0 /\
      (exists x, zget (fst s) 0 = Ok x /\ fval x (if Z.eq_dec r 0 then a else hop G a)) /\
      (forall q, (1 <= q < j)%Z -> exists x, zget (fst s) q = Ok x /\ fval x 0))
    (basisInner lft rgt j) 0 (j - 1) (N, fofZ B64 0)) as ([N' sv] & E & LN' & Es & E0 & E1).
  - lia.
  - cbn [fst snd]. split; [exact LN|]. split; [apply (fv_ofZ 0); reflexivity|]. split; [exact H0|exact H1].
  - intros r [M0 s0] Hr (L0 & S0 & Q0 & Q1). cbn [fst snd] in *. unfold basisInner.
    destruct (HR (r + 1)%Z ltac:(lia)) as (rr & Er & (vr & Vr & Pr) & Gr).
    destruct (HL (j - r)%Z ltac:(lia)) as (lj & El & Vl).
    destruct (Z.eq_dec r 0) as [->|Nr].
    + destruct Q0 as (x & Ex & Vx). rewrite Ex. cbn [rbind]. rewrite Er. cbn [rbind]. rewrite El. cbn [rbind].
      specialize (Gr ltac:(lia)). pose proof (fv_add0 _ _ _ Gr Vl) as D.
      pose proof (fv_hop G HG x rr a _ Vx Gr D Ha) as T.
      assert (Dt : exists v, fval (fdiv B64 x (fadd B64 rr lj)) v).
      { exists (rndF (a / G)). destruct HG as [G1 G2]. assert (Q : 0 <= a / G <= 1).
        { split; [apply Rmult_le_pos; [lra|left; apply Rinv_0_lt_compat; lra]|]. apply Rmult_le_reg_r with G; [lra|].
          replace (a / G * G) with a by (field; lra). lra. }
        apply fv_div; auto; [lra|]. rewrite Rabs_pos_eq by (apply rnd_pos; lra).
        apply Rle_lt_trans with 1; [apply rndF_le; [apply fmt1|lra]|]. change 1 with (bp 0). apply bpow_lt. lia. }
      destruct Dt as (dv & Dt).
      rewrite zset_in_range by lia. cbn [rbind]. eexists. split; [reflexivity|]. cbn [fst snd]. split; [now rewrite list_upd_length|].
      split; [apply (fv_0mul _ _ dv); assumption|]. split.
      * rewrite zget_upd by lia. destruct (Z.eq_dec 0 0); [|lia]. eexists. split; [reflexivity|].
        apply fv_0add; assumption.
      * intros q Hq. rewrite zget_upd by lia. destruct (Z.eq_dec 0 q); [lia|apply Q1; lia].
    + destruct (Q1 r ltac:(lia)) as (x & Ex & Vx). rewrite Ex. cbn [rbind]. rewrite Er. cbn [rbind]. rewrite El. cbn [rbind].
      pose proof (fv_add0 _ _ _ Vr Vl) as D. pose proof (fv_0div _ _ _ Vx D ltac:(lra)) as T.
      rewrite zset_in_range by lia. cbn [rbind]. eexists. split; [reflexivity|]. cbn [fst snd]. split; [now rewrite list_upd_length|].
      split; [apply (fv_mul0 _ _ 0); assumption|]. split.
      * rewrite zget_upd by lia. destruct (Z.eq_dec r 0); [lia|]. destruct (Z.eq_dec (r + 1) 0); [lia|]. exact Q0.
      * intros q Hq. rewrite zget_upd by lia. destruct (Z.eq_dec r q) as [<-|]; [|apply Q1; lia].
        eexists. split; [reflexivity|]. apply fv_0add; [assumption|]. apply (fv_mul0 _ _ vr); assumption.
  - exists N', sv. cbn [fst snd] in *. split; [exact E|]. split; [exact Es|]. split; [exact LN'|]. split; [|exact E1].
    destruct (Z.eq_dec (j - 1 + 1) 0); [lia|]. exact E0.
Qed.
(** ** The right end: basis values are (0, ..., 0, hops p) *)
Lemma inner_right (lft rgt N : list B64) (j L : Z) (G a : R) : (1 <= j < L)%Z -> length N = Z.to_nat L ->
  gapr G -> 0 <= a <= 1 ->
  (forall k, (1 <= k <= j)%Z -> exists x, zget rgt k = Ok x /\ fval x 0) ->
  (forall k, (1 <= k <= j)%Z -> exists x, zget lft k = Ok x /\ posv x /\ (k = 1%Z -> fval x G)) ->
  (forall r, (0 <= r < j)%Z -> exists x, zget N r = Ok x /\ fval x (if Z.eq_dec r (j - 1) then a else 0)) ->
  exists (N' : list B64) sv, forTo 0 (j - 1) (N, fofZ B64 0) (basisInner lft rgt j) = Ok (N', sv) /\ fval sv (hop G a) /\ length N' = Z.to_nat L /\
    (forall r, (0 <= r < j)%Z -> exists x, zget N' r = Ok x /\ fval x 0).
Proof.
  intros Hj LN HG Ha HR HL H1.
  destruct (forTo_inv (fun r (s : list B64 * B64) => length (fst s) = Z.to_nat L /\ fval (snd s) (if Z.eq_dec r j then hop G a else 0) /\
      (forall q, (0 <= q < r)%Z -> exists x, zget (fst s) q = Ok x /\ fval x 0) /\
      (forall q, (r <= q < j)%Z -> exists x, zget (fst s) q = Ok x /\ fval x (if Z.eq_dec q (j - 1) then a else 0)))
    (basisInner lft rgt j) 0 (j - 1) (N, fofZ B64 0)) as ([N' sv] & E & LN' & Es & E0 & E1).
  - lia.
  - cbn [fst snd]. split; [exact LN|]. split; [destruct (Z.eq_dec 0 j); [lia|]; apply (fv_ofZ 0); reflexivity|].
    split; [intros; lia|exact H1].
  - intros r [M0 s0] Hr (L0 & S0 & Q0 & Q1). cbn [fst snd] in *. unfold basisInner.
    destruct (Z.eq_dec r j) as [|_]; [lia|].
    destruct (HR (r + 1)%Z ltac:(lia)) as (rr & Er & Vr).
    destruct (HL (j - r)%Z ltac:(lia)) as (lj & El & (vl & Vl & Pl) & Gl).
    destruct (Q1 r ltac:(lia)) as (x & Ex & Vx). rewrite Ex. cbn [rbind]. rewrite Er. cbn [rbind]. rewrite El. cbn [rbind].
    pose proof (fv_0add _ _ _ Vr Vl) as D.
    assert (T : exists v, fval (fdiv B64 x (fadd B64 rr lj)) v /\ fval (fmul B64 lj (fdiv B64 x (fadd B64 rr lj))) (if Z.eq_dec (r + 1) j then hop G a else 0)).
    { destruct (Z.eq_dec r (j - 1)) as [Ej|Nj].
      - destruct (Z.eq_dec (r + 1) j) as [_|]; [|lia]. specialize (Gl ltac:(lia)).
        assert (EG : vl = G) by (destruct Gl as [_ G1], Vl as [_ G2]; congruence). subst vl.
        exists (rndF (a / G)). split; [|apply fv_hop; assumption].
        destruct HG as [G1 G2]. assert (Q : 0 <= a / G <= 1).
        { split; [apply Rmult_le_pos; [lra|left; apply Rinv_0_lt_compat; lra]|]. apply Rmult_le_reg_r with G; [lra|].
          replace (a / G * G) with a by (field; lra). lra. }
        apply fv_div; auto; [lra|]. rewrite Rabs_pos_eq by (apply rnd_pos; lra).
        apply Rle_lt_trans with 1; [apply rndF_le; [apply fmt1|lra]|]. change 1 with (bp 0). apply bpow_lt. lia.
      - destruct (Z.eq_dec (r + 1) j) as [|_]; [lia|]. exists 0.
        pose proof (fv_0div _ _ _ Vx D ltac:(lra)) as T. split; [exact T|]. apply (fv_mul0 _ _ vl); assumption. }
    destruct T as (v & T1 & T2).
    rewrite zset_in_range by lia. cbn [rbind]. eexists. split; [reflexivity|]. cbn [fst snd]. split; [now rewrite list_upd_length|].
    split; [exact T2|]. split.
    + intros q Hq. rewrite zget_upd by lia. destruct (Z.eq_dec r q) as [<-|]; [|apply Q0; lia].
      eexists. split; [reflexivity|]. apply fv_0add; [assumption|]. apply (fv_0mul _ _ v); assumption.
    + intros q Hq. rewrite zget_upd by lia. destruct (Z.eq_dec r q) as [<-|]; [lia|apply Q1; lia].
  - exists N', sv. cbn [fst snd] in *. replace (j - 1 + 1)%Z with j in * by lia. split; [exact E|].
    destruct (Z.eq_dec j j) as [_|]; [|lia]. split; [exact Es|]. split; [exact LN'|exact E0].
Qed.

(** ** The basis functions at the two ends *)
Section Ends.
Variable U : list Z.
Variable i p : Z.
Hypothesis Hp : (1 <= p)%Z.
Hypothesis Hlo : (0 <= i + 1 - p)%Z.
Hypothesis Hhi : (i + p < Z.of_nat (length U))%Z.
Hypothesis HU : forall k, In k U -> (Z.abs k < 2 ^ 53)%Z.
Hypothesis Mono : nondecreasing U.
Hypothesis Hspan : knot U i < knot U (i + 1).
Notation t := (knot U).
Definition gapv : R := rndF (t (i + 1) - t i).

Lemma knot_fv k z : (0 <= k < Z.of_nat (length U))%Z -> zget U k = Ok z -> fval (fofZ B64 z) (t k).
Proof.
  intros Hk E. destruct (knot_get U k Hk) as (z' & E' & I & <-). assert (z = z') by congruence. subst z'. apply fv_ofZ. apply HU, I.
Qed.
Lemma knot_lt1 a b : (0 <= a < Z.of_nat (length U))%Z -> (0 <= b < Z.of_nat (length U))%Z -> t a < t b -> 1 <= t b - t a.
Proof.
  intros Ha Hb H. destruct (knot_get U a Ha) as (x & _ & _ & Ex), (knot_get U b Hb) as (y & _ & _ & Ey). rewrite <- Ex, <- Ey in *.
  apply lt_IZR in H. rewrite <- minus_IZR. apply IZR_le. lia.
Qed.
Lemma diff_bound a b : (0 <= a < Z.of_nat (length U))%Z -> (0 <= b < Z.of_nat (length U))%Z -> Rabs (t b - t a) <= bp 54.
Proof.
  intros Ha Hb. destruct (knot_get U a Ha) as (x & _ & Ix & Ex), (knot_get U b Hb) as (y & _ & Iy & Ey). rewrite <- Ex, <- Ey in *.
  apply HU in Ix. apply HU in Iy. rewrite <- minus_IZR, <- abs_IZR. change (bp 54) with (IZR (2 ^ 54)). apply IZR_le. lia.
Qed.
Lemma diff_rnd a b : (0 <= a < Z.of_nat (length U))%Z -> (0 <= b < Z.of_nat (length U))%Z -> t a < t b -> 1 <= rndF (t b - t a) <= bp 54.
Proof.
  intros Ha Hb H. pose proof (knot_lt1 a b Ha Hb H). pose proof (diff_bound a b Ha Hb) as B. rewrite Rabs_pos_eq in B by lra.
  split; [apply rndF_ge; [apply fmt1|lra]|]. apply rndF_le; [|lra]. apply generic_format_bpow. vm_compute. discriminate.
Qed.
Lemma gap_ok : gapr gapv.
Proof. apply diff_rnd; auto; lia. Qed.
Lemma diff_lt a b : (0 <= a < Z.of_nat (length U))%Z -> (0 <= b < Z.of_nat (length U))%Z -> t a < t b -> Rabs (rndF (t b - t a)) < bp 1024.
Proof.
  intros Ha Hb H. pose proof (diff_rnd a b Ha Hb H). rewrite Rabs_pos_eq by lra. apply Rle_lt_trans with (bp 54); [lra|]. apply bpow_lt. lia.
Qed.
Lemma fv_same x y a : fval x a -> fval y a -> fval (fsub B64 x y) 0.
Proof.
  intros X Y. assert (E : a - a = 0) by ring. rewrite <- rnd00. rewrite <- E at 1. apply fv_sub; auto. rewrite E, rnd00. apply abs0lt.
Qed.

Lemma basis_left (uf : b64) : fval uf (t i) -> (forall k, (1 <= k <= p)%Z -> t (i + 1 - k) = t i) ->
  exists N : list B64, basisFuns (A := B64) i uf p U = Ok N /\ length N = Z.to_nat (p + 1) /\
    forall r, (0 <= r <= p)%Z -> exists x, zget N r = Ok x /\ fval x (if Z.eq_dec r 0 then hops (Z.to_nat p) gapv else 0).
Proof.
  intros Hu Hc. pose proof gap_ok as HG. unfold basisFuns. rewrite !make_ok by lia. cbn [rbind].
  rewrite zset_in_range by (rewrite repeat_length; lia). cbn [rbind].
  destruct (forTo_inv (fun j (s : list B64 * list B64 * list B64) =>
      let '(N, lft, rgt) := s in length N = Z.to_nat (p + 1) /\ length lft = Z.to_nat (p + 1) /\
      length rgt = Z.to_nat (p + 1) /\
      (forall k, (1 <= k < j)%Z -> exists x, zget lft k = Ok x /\ fval x 0) /\
      (forall k, (1 <= k < j)%Z -> exists x, zget rgt k = Ok x /\ posv x /\ (k = 1%Z -> fval x gapv)) /\
      (exists x, zget N 0 = Ok x /\ fval x (hops (Z.to_nat (j - 1)) gapv)) /\
      (forall r, (1 <= r < j)%Z -> exists x, zget N r = Ok x /\ fval x 0))
    (basisOuter (A := B64) i uf U) 1 p
    (list_upd (repeat (fofZ B64 0) (Z.to_nat (p + 1))) (Z.to_nat 0) (fofZ B64 1),
       repeat (fofZ B64 0) (Z.to_nat (p + 1)), repeat (fofZ B64 0) (Z.to_nat (p + 1))))
    as ([[N lft] rgt] & E & LN & _ & _ & _ & _ & H0 & H1).
  - lia.
  - rewrite list_upd_length, repeat_length. repeat (split; [reflexivity||(intros; lia)|]). split; [|intros; lia].
    rewrite zget_upd by (rewrite repeat_length; lia). eexists. split; [reflexivity|]. cbn [Z.to_nat Z.sub]. change (hops (Z.to_nat (1 - 1)) gapv) with 1. apply (fv_ofZ 1). reflexivity.
  - intros j [[N lft] rgt] Hj (LN & LL & LR & HL & HR & H0 & H1). unfold basisOuter.
    destruct (knot_get U (i + 1 - j)) as (a & Ea & _ & Ka); [lia|]. rewrite Ea. cbn [rbind].
    rewrite zset_in_range by lia. cbn [rbind].
    destruct (knot_get U (i + j)) as (b & Eb & _ & Kb); [lia|]. rewrite Eb. cbn [rbind].
    rewrite zset_in_range by lia. cbn [rbind].
    pose proof (knot_fv (i + 1 - j)%Z a ltac:(lia) Ea) as Va. pose proof (knot_fv (i + j)%Z b ltac:(lia) Eb) as Vb. rewrite Hc in Va by lia.
    pose proof (Mono (i + 1)%Z (i + j)%Z ltac:(lia) ltac:(lia)) as M1.
    pose proof (fv_same _ _ _ Hu Va) as Vl. pose proof (fv_sub _ _ _ _ Vb Hu (diff_lt i (i + j) ltac:(lia) ltac:(lia) ltac:(lra))) as Vr.
    pose proof (diff_rnd i (i + j) ltac:(lia) ltac:(lia) ltac:(lra)) as Pr.
    set (xl := fsub B64 uf (fofZ B64 a)) in *. set (xr := fsub B64 (fofZ B64 b) uf) in *.
    assert (HL' : forall k, (1 <= k <= j)%Z -> exists x, zget (list_upd lft (Z.to_nat j) xl) k = Ok x /\ fval x 0).
    { intros k Hk. rewrite zget_upd by lia. destruct (Z.eq_dec j k) as [<-|]; [|apply HL; lia]. exists xl. split; [reflexivity|exact Vl]. }
    assert (HR' : forall k, (1 <= k <= j)%Z -> exists x, zget (list_upd rgt (Z.to_nat j) xr) k = Ok x /\ posv x /\ (k = 1%Z -> fval x gapv)).
    { intros k Hk. rewrite zget_upd by lia. destruct (Z.eq_dec j k) as [<-|]; [|apply HR; lia]. exists xr. split; [reflexivity|].
      split; [exists (rndF (t (i + j) - t i)); split; [exact Vr|lra]|]. intros ->. exact Vr. }
    destruct (inner_left (list_upd lft (Z.to_nat j) xl) (list_upd rgt (Z.to_nat j) xr) N j (p + 1) gapv (hops (Z.to_nat (j - 1)) gapv) ltac:(lia) LN HG (hops_range _ HG _) HL' HR' H0 H1)
      as (N' & sv & E' & Vs & LN' & H0' & H1').
    rewrite E'. cbn [rbind]. rewrite zset_in_range by lia. cbn [rbind].
    eexists. split; [reflexivity|]. cbv beta iota; rewrite !list_upd_length.
    repeat (split; [assumption|]). split; [intros k Hk; apply HL'; lia|]. split; [intros k Hk; apply HR'; lia|]. split.
    + rewrite zget_upd by lia. destruct (Z.eq_dec j 0); [lia|]. replace (Z.to_nat (j + 1 - 1)) with (S (Z.to_nat (j - 1))) by lia. exact H0'.
    + intros r Hr. rewrite zget_upd by lia. destruct (Z.eq_dec j r) as [<-|]; [exists sv; split; [reflexivity|exact Vs]|]. apply H1'; lia.
  - rewrite E. cbn [rbind]. exists N. split; [reflexivity|]. split; [exact LN|]. intros r Hr. replace (p + 1 - 1)%Z with p in H0 by lia.
    destruct (Z.eq_dec r 0) as [->|]; [exact H0|apply H1; lia].
Qed.
Lemma basis_right (uf : b64) : fval uf (t (i + 1)) -> (forall k, (1 <= k <= p)%Z -> t (i + k) = t (i + 1)) ->
  exists N : list B64, basisFuns (A := B64) i uf p U = Ok N /\ length N = Z.to_nat (p + 1) /\
    forall r, (0 <= r <= p)%Z -> exists x, zget N r = Ok x /\ fval x (if Z.eq_dec r p then hops (Z.to_nat p) gapv else 0).
Proof.
  intros Hu Hc. pose proof gap_ok as HG. unfold basisFuns. rewrite !make_ok by lia. cbn [rbind].
  rewrite zset_in_range by (rewrite repeat_length; lia). cbn [rbind].
  destruct (forTo_inv (fun j (s : list B64 * list B64 * list B64) =>
      let '(N, lft, rgt) := s in length N = Z.to_nat (p + 1) /\ length lft = Z.to_nat (p + 1) /\
      length rgt = Z.to_nat (p + 1) /\
      (forall k, (1 <= k < j)%Z -> exists x, zget rgt k = Ok x /\ fval x 0) /\
      (forall k, (1 <= k < j)%Z -> exists x, zget lft k = Ok x /\ posv x /\ (k = 1%Z -> fval x gapv)) /\
      (forall r, (0 <= r < j)%Z -> exists x, zget N r = Ok x /\ fval x (if Z.eq_dec r (j - 1) then hops (Z.to_nat (j - 1)) gapv else 0)))
    (basisOuter (A := B64) i uf U) 1 p
    (list_upd (repeat (fofZ B64 0) (Z.to_nat (p + 1))) (Z.to_nat 0) (fofZ B64 1),
       repeat (fofZ B64 0) (Z.to_nat (p + 1)), repeat (fofZ B64 0) (Z.to_nat (p + 1))))
    as ([[N lft] rgt] & E & LN & _ & _ & _ & _ & H1).
  - lia.
  - rewrite list_upd_length, repeat_length. repeat (split; [reflexivity||(intros; lia)|]). intros r Hr. assert (r = 0%Z) by lia. subst r.
    rewrite zget_upd by (rewrite repeat_length; lia). eexists. split; [reflexivity|]. change (hops (Z.to_nat (1 - 1)) gapv) with 1.
    destruct (Z.eq_dec 0 (1 - 1)); [|lia]. apply (fv_ofZ 1). reflexivity.
  - intros j [[N lft] rgt] Hj (LN & LL & LR & HR & HL & H1). unfold basisOuter.
    destruct (knot_get U (i + 1 - j)) as (a & Ea & _ & Ka); [lia|]. rewrite Ea. cbn [rbind].
    rewrite zset_in_range by lia. cbn [rbind].
    destruct (knot_get U (i + j)) as (b & Eb & _ & Kb); [lia|]. rewrite Eb. cbn [rbind].
    rewrite zset_in_range by lia. cbn [rbind].
    pose proof (knot_fv (i + 1 - j)%Z a ltac:(lia) Ea) as Va. pose proof (knot_fv (i + j)%Z b ltac:(lia) Eb) as Vb. rewrite Hc in Vb by lia.
    pose proof (Mono (i + 1 - j)%Z i ltac:(lia) ltac:(lia)) as M1.
    pose proof (fv_same _ _ _ Vb Hu) as Vr. pose proof (fv_sub _ _ _ _ Hu Va (diff_lt (i + 1 - j) (i + 1) ltac:(lia) ltac:(lia) ltac:(lra))) as Vl.
    pose proof (diff_rnd (i + 1 - j) (i + 1) ltac:(lia) ltac:(lia) ltac:(lra)) as Pl.
    set (xl := fsub B64 uf (fofZ B64 a)) in *. set (xr := fsub B64 (fofZ B64 b) uf) in *.
    assert (HR' : forall k, (1 <= k <= j)%Z -> exists x, zget (list_upd rgt (Z.to_nat j) xr) k = Ok x /\ fval x 0).
    { intros k Hk. rewrite zget_upd by lia. destruct (Z.eq_dec j k) as [<-|]; [|apply HR; lia]. exists xr. split; [reflexivity|exact Vr]. }
    assert (HL' : forall k, (1 <= k <= j)%Z -> exists x, zget (list_upd lft (Z.to_nat j) xl) k = Ok x /\ posv x /\ (k = 1%Z -> fval x gapv)).
    { intros k Hk. rewrite zget_upd by lia. destruct (Z.eq_dec j k) as [<-|]; [|apply HL; lia]. exists xl. split; [reflexivity|].
      split; [exists (rndF (t (i + 1) - t (i + 1 - j))); split; [exact Vl|lra]|]. intros ->. replace (i + 1 - 1)%Z with i in Vl by lia. exact Vl. }
    destruct (inner_right (list_upd lft (Z.to_nat j) xl) (list_upd rgt (Z.to_nat j) xr) N j (p + 1) gapv (hops (Z.to_nat (j - 1)) gapv) ltac:(lia) LN HG (hops_range _ HG _) HR' HL' H1)
      as (N' & sv & E' & Vs & LN' & H1').
    rewrite E'. cbn [rbind]. rewrite zset_in_range by lia. cbn [rbind].
    eexists. split; [reflexivity|]. cbv beta iota; rewrite !list_upd_length.
    repeat (split; [assumption|]). split; [intros k Hk; apply HR'; lia|]. split; [intros k Hk; apply HL'; lia|].
    intros r Hr. rewrite zget_upd by lia. replace (Z.to_nat (j + 1 - 1)) with (S (Z.to_nat (j - 1))) by lia.
    destruct (Z.eq_dec j r) as [<-|]; [exists sv; split; [reflexivity|]; destruct (Z.eq_dec j (j + 1 - 1)); [exact Vs|lia]|].
    destruct (Z.eq_dec r (j + 1 - 1)); [lia|]. apply H1'; lia.
  - rewrite E. cbn [rbind]. exists N. split; [reflexivity|]. split; [exact LN|]. intros r Hr. destruct (H1 r ltac:(lia)) as (x & Ex & Vx).
    exists x. split; [exact Ex|]. replace (p + 1 - 1)%Z with p in Vx by lia. exact Vx.
Qed.
End Ends.

(** ** The point *)
Lemma fval_self (x : B64) : is_finite (x : b64) = true -> fval x (B2R (x : b64)). Proof. intros; split; auto. Qed.
(* one non-zero weight: the sum is that point, rounded once *)
Lemma sum_one (P : list (vec B64)) (N : list B64) (o p s : Z) (w : R) : (0 <= s <= p)%Z -> (0 <= o)%Z -> (o + p < Z.of_nat (length P))%Z -> length N = Z.to_nat (p + 1) ->
  (forall v, In v P -> fin_vec v) -> 0 <= w <= 1 ->
  (forall r, (0 <= r <= p)%Z -> exists x, zget N r = Ok x /\ fval x (if Z.eq_dec r s then w else 0)) ->
  exists C : vec B64, forTo 0 p (mkvec (fofZ B64 0) (fofZ B64 0) (fofZ B64 0))
     (fun r C => let! Q := zget P (o + r) in let! Ni := zget N r in Ok (vec3Add C (vec3Scaled Q Ni)))%res = Ok C /\
    let Q := nth (Z.to_nat (o + s)) P Zero in
    fval (vx C) (rndF (B2R (vx Q : b64) * w)) /\ fval (vy C) (rndF (B2R (vy Q : b64) * w)) /\ fval (vz C) (rndF (B2R (vz Q : b64) * w)).
Proof.
  intros Hs Ho HP LN HF Hw HN. set (Q := nth (Z.to_nat (o + s)) P Zero).
  assert (Z0 := fv_ofZ 0 ltac:(reflexivity)).
  match goal with |- exists C, forTo _ _ ?z ?f = _ /\ _ =>
    destruct (forTo_inv (fun r (C : vec B64) =>
      fval (vx C) (if Z_lt_dec s r then rndF (B2R (vx Q : b64) * w) else 0) /\
      fval (vy C) (if Z_lt_dec s r then rndF (B2R (vy Q : b64) * w) else 0) /\
      fval (vz C) (if Z_lt_dec s r then rndF (B2R (vz Q : b64) * w) else 0)) f 0 p z) as (C & EC & HC) end.
  - lia.
  - cbn [vx vy vz]. destruct (Z_lt_dec s 0); [lia|]. repeat split; apply Z0.
  - intros r C Hr (C1 & C2 & C3). rewrite (zget_nth _ _ (Zero : vec B64)) by lia. cbn [rbind]. destruct (HN r Hr) as (x & Ex & Vx). rewrite Ex. cbn [rbind].
    eexists. split; [reflexivity|]. unfold vec3Add, vec3Scaled. cbn [vx vy vz].
    assert (I : In (nth (Z.to_nat (o + r)) P Zero) P) by (apply nth_In; lia). destruct (HF _ I) as (F1 & F2 & F3).
    assert (St : forall (c y : B64) b, is_finite (y : b64) = true -> fval c (if Z_lt_dec s r then b else 0) -> (r = s -> b = rndF (B2R (y : b64) * w)) ->
       fval (fadd B64 c (fmul B64 y x)) (if Z_lt_dec s (r + 1) then b else 0)).
    { intros c y b Fy Vc Eb. destruct (Z.eq_dec r s) as [->|Ns].
      - destruct (Z_lt_dec s s); [lia|]. destruct (Z_lt_dec s (s + 1)); [|lia]. rewrite (Eb eq_refl). apply fv_0add; [exact Vc|].
        apply fv_mul; [apply fval_self; exact Fy|exact Vx|].
        assert (A : Rabs (B2R (y : b64) * w) <= Rabs (B2R (y : b64))).
        { rewrite Rabs_mult, (Rabs_pos_eq w) by lra. pose proof (Rabs_pos (B2R (y : b64))). rewrite <- (Rmult_1_r (Rabs (B2R y))) at 2. apply Rmult_le_compat_l; lra. }
        apply Rle_lt_trans with (Rabs (B2R (y : b64))); [|apply abs_B2R_lt_emax].
        apply abs_round_le_generic; [typeclasses eauto|apply valid_rnd_round_mode|apply generic_format_abs, generic_format_B2R|exact A].
      - destruct (Z_lt_dec s r), (Z_lt_dec s (r + 1)); try lia; apply fv_add0; auto; apply (fv_mul0 _ _ (B2R (y : b64))); auto; apply fval_self; exact Fy. }
    split; [|split]; apply St; auto; intros ->; reflexivity.
  - exists C. split; [exact EC|]. cbv zeta. destruct (Z_lt_dec s (p + 1)) in HC; [|lia]. exact HC.
Qed.
Lemma hop_lower G x : gapr G -> / 2 <= x <= 1 -> x - 2 * u <= hop G x.
Proof.
  intros [G1 G2] Hx. pose proof u_pos as UP. assert (IG : 0 < / G) by (apply Rinv_0_lt_compat; lra).
  assert (I : / 2 * / G <= x / G) by (apply Rmult_le_compat_r; lra).
  assert (J : bp (-55) <= / 2 * / G).
  { change (-55)%Z with (- (1) + - (54))%Z. rewrite bpow_plus, !bpow_opp. change (bp 1) with 2. apply Rmult_le_compat_l; [lra|]. apply Rinv_le; lra. }
  pose proof (bpow_gt_0 radix2 (-55)) as PB. unfold hop.
  assert (B : bp (-1022) <= Rabs (x / G)) by (rewrite Rabs_pos_eq by lra; apply Rle_trans with (bp (-55)); [apply bpow_le; lia|lra]).
  pose proof (rnd_big _ B) as E. rewrite (Rabs_pos_eq (x / G)) in E by lra. apply Raux.Rabs_le_inv in E.
  set (y := rndF (x / G)) in *.
  assert (Y : x * (1 - u) <= G * y).
  { replace (x * (1 - u)) with (G * (x / G - u * (x / G))) by (field; lra). apply Rmult_le_compat_l; lra. }
  assert (XU : 0 <= (1 - x) * u) by (apply Rmult_le_pos; lra).
  assert (B2 : bp (-1022) <= Rabs (G * y)).
  { rewrite Rabs_pos_eq by lra. apply Rle_trans with (bp (-2)); [apply bpow_le; lia|]. change (bp (-2)) with (/ 4). lra. }
  pose proof (rnd_big _ B2) as E2. rewrite (Rabs_pos_eq (G * y)) in E2 by lra. apply Raux.Rabs_le_inv in E2.
  assert (C : (1 - u) * (x * (1 - u)) <= (1 - u) * (G * y)) by (apply Rmult_le_compat_l; lra).
  assert (D : x - 2 * u <= (1 - u) * (x * (1 - u))).
  { replace ((1 - u) * (x * (1 - u))) with (x - 2 * u + 2 * ((1 - x) * u) + x * (u * u)) by ring.
    assert (0 <= x * (u * u)) by (apply Rmult_le_pos; [lra|apply Rmult_le_pos; lra]). lra. }
  lra.
Qed.
Lemma hops_lower G n : gapr G -> INR n * (2 * u) <= / 2 -> 1 - INR n * (2 * u) <= hops n G.
Proof.
  intros HG. induction n as [|n IH]; intros H; cbn [hops]; [simpl; lra|]. rewrite S_INR in *. pose proof u_pos.
  assert (0 <= INR n) by apply pos_INR. specialize (IH ltac:(lra)). pose proof (hops_range G HG n) as R.
  pose proof (hop_lower G (hops n G) HG ltac:(lra)). lra.
Qed.

(** ** The curve at its two ends *)
Section CurveEnds.
Variable U : list Z.
Variable n p : Z.
Hypothesis Hp : (1 <= p <= n)%Z.
Hypothesis HL : (n + p < Z.of_nat (length U))%Z.
Hypothesis HU : forall k, In k U -> (Z.abs k < 2 ^ 53)%Z.
Hypothesis Mono : nondecreasing U.
Variable fuel : nat.
Hypothesis Hf : (Z.to_nat (n + 1 - p) <= fuel)%nat.
Variable P : list (vec B64).
Hypothesis HP : (n < Z.of_nat (length P))%Z.
Hypothesis FP : forall v, In v P -> fin_vec v.

Definition at_weight (w : R) (Q C : vec B64) : Prop :=
  fval (vx C) (rndF (B2R (vx Q : b64) * w)) /\ fval (vy C) (rndF (B2R (vy Q : b64) * w)) /\ fval (vz C) (rndF (B2R (vz Q : b64) * w)).
Lemma span64 (uf : b64) : is_finite uf = true -> knot U p <= B2R uf <= knot U (n + 1) ->
  exists i, findSpan (A := B64) fuel n p uf U = Ok i /\ (p <= i <= n)%Z /\ (B2R uf = knot U (n + 1) -> i = n) /\
     (B2R uf <> knot U (n + 1) -> knot U i <= B2R uf < knot U (i + 1)).
Proof.
  intros Fu Hu. apply (findSpan_ok (A := B64) U uf (B2R uf)); auto; try lia.
  { intros k Hk. specialize (HU k Hk). cbn [fofZ B64]. rewrite flt_bR by (auto using bfin_ofZ). now rewrite bR_ofZ. }
  { intros k Hk. specialize (HU k Hk). cbn [fofZ B64]. rewrite fle_bR by (auto using bfin_ofZ). now rewrite bR_ofZ. }
  { intros k Hk. specialize (HU k Hk). cbn [fofZ B64]. rewrite feq_bR by (auto using bfin_ofZ). now rewrite bR_ofZ. }
Qed.
Lemma curve_left (uf : b64) : fval uf (knot U p) -> knot U 1 = knot U p -> knot U p < knot U (p + 1) ->
  exists C, curvePoint (A := B64) fuel n p U P uf = Ok C /\ at_weight (hops (Z.to_nat p) (gapv U p)) (nth 0 P Zero) C.
Proof.
  intros [Fu Eu] Hc Hs. pose proof (Mono (p + 1)%Z (n + 1)%Z ltac:(lia) ltac:(lia)) as M1. unfold curvePoint.
  destruct (span64 uf Fu ltac:(lra)) as (i & Ei & Hi & He & Hne). specialize (Hne ltac:(lra)).
  assert (i = p).
  { destruct (Z.eq_dec i p) as [|N]; auto. pose proof (Mono (p + 1)%Z i ltac:(lia) ltac:(lia)). lra. }
  subst i. rewrite Ei. cbn [rbind].
  destruct (basis_left U p p ltac:(lia) ltac:(lia) ltac:(lia) HU Mono Hs uf) as (N & EN & LN & HN); [split; auto| |].
  { intros k Hk. pose proof (Mono 1%Z (p + 1 - k)%Z ltac:(lia) ltac:(lia)). pose proof (Mono (p + 1 - k)%Z p ltac:(lia) ltac:(lia)). lra. }
  rewrite EN. cbn [rbind]. replace (p - p)%Z with 0%Z by lia.
  destruct (sum_one P N 0 p 0 (hops (Z.to_nat p) (gapv U p)) ltac:(lia) ltac:(lia) ltac:(lia) LN FP) as (C & EC & HC); auto.
  { apply hops_range. apply (gap_ok U p p); auto; lia. }
  exists C. split; [exact EC|exact HC].
Qed.
Lemma curve_right (uf : b64) : fval uf (knot U (n + 1)) -> knot U (n + p) = knot U (n + 1) -> knot U n < knot U (n + 1) ->
  exists C, curvePoint (A := B64) fuel n p U P uf = Ok C /\ at_weight (hops (Z.to_nat p) (gapv U n)) (nth (Z.to_nat n) P Zero) C.
Proof.
  intros [Fu Eu] Hc Hs. pose proof (Mono p (n + 1)%Z ltac:(lia) ltac:(lia)) as M1. unfold curvePoint.
  destruct (span64 uf Fu ltac:(lra)) as (i & Ei & Hi & He & _). specialize (He Eu). subst i. rewrite Ei. cbn [rbind].
  destruct (basis_right U n p ltac:(lia) ltac:(lia) ltac:(lia) HU Mono Hs uf) as (N & EN & LN & HN); [split; auto| |].
  { intros k Hk. pose proof (Mono (n + 1)%Z (n + k)%Z ltac:(lia) ltac:(lia)). pose proof (Mono (n + k)%Z (n + p)%Z ltac:(lia) ltac:(lia)). lra. }
  rewrite EN. cbn [rbind].
  destruct (sum_one P N (n - p) p p (hops (Z.to_nat p) (gapv U n)) ltac:(lia) ltac:(lia) ltac:(lia) LN FP) as (C & EC & HC); auto.
  { apply hops_range. apply (gap_ok U n p); auto; lia. }
  exists C. split; [exact EC|]. replace (n - p + p)%Z with n in HC by lia. exact HC.
Qed.
End CurveEnds.
Lemma at_weight_one (Q C : vec B64) : at_weight 1 Q C -> fin_vec C /\ rvec C = rvec Q.
Proof.
  intros ((F1 & V1) & (F2 & V2) & (F3 & V3)). rewrite Rmult_1_r in V1, V2, V3. rewrite rndF_id in V1, V2, V3 by apply generic_format_B2R.
  split; [repeat split; assumption|]. unfold rvec. rewrite V1, V2, V3. reflexivity.
Qed.
