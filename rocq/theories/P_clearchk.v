(** An integer test that implies clearness of an input (C161): all conditions of Spec_cleartri cleared of denominators. *)
From Coq Require Import ZArith Lia List Bool Reals Lra.
From Verif Require Import Base Arith M_r3 Spec_r3 Spec_plane Spec_delaunay Spec_acc64 Spec_clear Spec_circ64 Spec_cleartri XRvec P_acc64.
From Verif Require Import Props_clearhull.
Import ListNotations.
Open Scope R_scope.

Definition zx (p : zpt) : Z := fst (fst p). Definition zy (p : zpt) : Z := snd (fst p). Definition zh (p : zpt) : Z := snd p.
Definition zd2 (a b : zpt) : Z := ((zx a - zx b) * (zx a - zx b) + (zy a - zy b) * (zy a - zy b))%Z.
Definition zor (a b c : zpt) : Z := ((zx b - zx a) * (zy c - zy a) - (zy b - zy a) * (zx c - zx a))%Z.
Definition zct (a b c : zpt) : Z := (Z.abs (zx b - zx a) * Z.abs (zy c - zy a) + Z.abs (zy b - zy a) * Z.abs (zx c - zx a))%Z.
(* the numerators of circ_terms and of the center relative to a, over 2 zor *)
Definition zN (a b c : zpt) : Z := (Z.abs (zy c - zy a) * zd2 b a + Z.abs (zy b - zy a) * zd2 c a + (Z.abs (zx b - zx a) * zd2 c a + Z.abs (zx c - zx a) * zd2 b a))%Z.
Definition zX (a b c : zpt) : Z := ((zy c - zy a) * zd2 b a - (zy b - zy a) * zd2 c a)%Z.
Definition zY (a b c : zpt) : Z := ((zx b - zx a) * zd2 c a - (zx c - zx a) * zd2 b a)%Z.
Definition zP (a b c : zpt) : Z := (zd2 a b * zd2 b c * zd2 c a)%Z.
Definition zdet (a b c p : zpt) : Z :=
  ((zx a - zx p) * ((zy b - zy p) * zd2 c p - zd2 b p * (zy c - zy p))
  - (zy a - zy p) * ((zx b - zx p) * zd2 c p - zd2 b p * (zx c - zx p))
  + zd2 a p * ((zx b - zx p) * (zy c - zy p) - (zy b - zy p) * (zx c - zx p)))%Z.
Definition zdett (a b c p : zpt) : Z :=
  (Z.abs (zx a - zx p) * (Z.abs (zy b - zy p) * zd2 c p + zd2 b p * Z.abs (zy c - zy p))
  + Z.abs (zy a - zy p) * (Z.abs (zx b - zx p) * zd2 c p + zd2 b p * Z.abs (zx c - zx p))
  + zd2 a p * (Z.abs (zx b - zx p) * Z.abs (zy c - zy p) + Z.abs (zy b - zy p) * Z.abs (zx c - zx p)))%Z.
Definition zgab (l : list zpt) (a b : zpt) : bool :=
  negb (zd2 a b =? 0)%Z && forallb (fun c => 0 <=? (zx c - zx a) * (zx c - zx b) + (zy c - zy a) * (zy c - zy b))%Z l.
Definition zmild (a b c : zpt) : bool := let w := Z.abs (zor a b c) in (zct a b c <=? 2 ^ 48 * w)%Z && (zN a b c <=? 2 ^ 400 * (2 * w))%Z.
Definition zrad (a b c d : zpt) : bool := let w := Z.abs (zor a b c) in let v := Z.abs (zor a b d) in
  (w =? 0)%Z || (v =? 0)%Z ||
  (zmild a b c && (zct a b c * (zN a b c * zN a b c) <? 2 ^ 47 * w * zP a b c)%Z &&
   ((zP a b c * (v * v) =? zP a b d * (w * w)) ||
    (zct a b c * (zN a b c * zN a b c) * (v * v * v) + zct a b d * (zN a b d * zN a b d) * (w * w * w) <? 2 ^ 47 * (w * v) * Z.abs (zP a b c * (v * v) - zP a b d * (w * w))))%Z).
Definition zD (a b c p : zpt) : Z := let w := (2 * zor a b c)%Z in
  ((w * (zx p - zx a) - zX a b c) * (w * (zx p - zx a) - zX a b c) + (w * (zy p - zy a) - zY a b c) * (w * (zy p - zy a) - zY a b c))%Z.
Definition zE (a b c : zpt) : Z := (2 ^ 5 * zct a b c * zN a b c + (Z.abs (zx a) + Z.abs (zy a)) * (2 * (zor a b c * zor a b c)))%Z.
Definition zcen (a b c p q : zpt) : bool := let w2 := (zor a b c * zor a b c)%Z in
  (w2 =? 0)%Z || (zd2 p q =? 0)%Z ||
  ((4 * (zE a b c * zE a b c) <? zd2 p q * (2 ^ 54 * w2 * (2 ^ 54 * w2)))%Z && (zD a b c p + zD a b c q + 4 * w2 * (zh p * zh p) <? 2 ^ 48 * (4 * w2) * zd2 p q)%Z).
Definition zcirc (a b c p : zpt) : bool := (zor a b c =? 0)%Z || (zdett a b c p =? 0)%Z || (12 * zdett a b c p <? 2 ^ 53 * Z.abs (zdet a b c p))%Z.
Definition zspr (a u v : zpt) : bool := ((zd2 u v =? 0) || (zd2 a u <=? 2 ^ 49 * zd2 u v))%Z.
Definition all2 {T} (l : list T) (f : T -> T -> bool) : bool := forallb (fun a => forallb (f a) l) l.
Definition all3 {T} (l : list T) (f : T -> T -> T -> bool) : bool := forallb (fun a => all2 l (f a)) l.
Definition zcheck (l : list zpt) : bool :=
  all2 l (fun a b => zh a =? zh b)%Z && all3 l zclear && all3 l zspr && all2 l (fun a b => all2 l (zcirc a b)) &&
  all2 l (fun a b => negb (zgab l a b) || (all2 l (zrad a b) && forallb (fun c => all2 l (zcen a b c)) l)).

Lemma all2_in T (l : list T) f : all2 l f = true -> forall a b, In a l -> In b l -> f a b = true.
Proof. unfold all2. intros H a b Ha Hb. rewrite forallb_forall in H. specialize (H _ Ha). rewrite forallb_forall in H. auto. Qed.
Lemma all3_in T (l : list T) f : all3 l f = true -> forall a b c, In a l -> In b l -> In c l -> f a b c = true.
Proof. unfold all3. intros H a b c Ha. rewrite forallb_forall in H. exact (all2_in _ _ _ (H _ Ha) b c). Qed.

Ltac toZ := cbn [rx ry rz zr]; fold (zx) (zy) (zh); rewrite ?plus_IZR, ?minus_IZR, ?mult_IZR, ?plus_IZR, ?minus_IZR, ?mult_IZR, ?abs_IZR, ?minus_IZR.
Lemma rx_zr p : rx (zr p) = IZR (zx p). Proof. reflexivity. Qed.
Lemma ry_zr p : ry (zr p) = IZR (zy p). Proof. reflexivity. Qed.
Lemma rz_zr p : rz (zr p) = IZR (zh p). Proof. reflexivity. Qed.
Ltac tz := repeat (rewrite ?rx_zr, ?ry_zr, ?rz_zr, ?plus_IZR, ?minus_IZR, ?mult_IZR, ?abs_IZR).
Lemma d2_zr a b : dist2xy (zr a) (zr b) = IZR (zd2 a b). Proof. unfold dist2xy, zd2. tz. ring. Qed.
Lemma ccw_zr a b c : ccw (zr a) (zr b) (zr c) = IZR (zor a b c). Proof. unfold ccw, zor. tz. ring. Qed.
Lemma ct_zr a b c : cross_terms (zr a) (zr b) (zr c) = IZR (zct a b c). Proof. unfold cross_terms, zct. tz. reflexivity. Qed.
Lemma det_zr a b c p : incircle_det (zr a) (zr b) (zr c) (zr p) = IZR (zdet a b c p). Proof. unfold incircle_det, zdet. rewrite !d2_zr. tz. reflexivity. Qed.
Lemma dett_zr a b c p : incircle_terms (zr a) (zr b) (zr c) (zr p) = IZR (zdett a b c p). Proof. unfold incircle_terms, zdett. rewrite !d2_zr. tz. reflexivity. Qed.
Lemma Nc_zr a b c : zor a b c <> 0%Z -> circ_terms (zr a) (zr b) (zr c) = IZR (zN a b c) / (2 * Rabs (IZR (zor a b c))).
Proof. intros H. unfold circ_terms, circ_x, circ_y, zN. rewrite !ccw_zr, !d2_zr. tz. field. apply Rabs_no_R0. intros Q. apply H, eq_IZR. exact Q. Qed.
Lemma same_zr a b : zd2 a b = 0%Z -> samexy (zr a) (zr b).
Proof.
  unfold zd2. intros H. pose proof (Z.square_nonneg (zx a - zx b)) as X. pose proof (Z.square_nonneg (zy a - zy b)) as Y. split; rewrite ?rx_zr, ?ry_zr; f_equal.
  - assert (E : ((zx a - zx b) * (zx a - zx b) = 0)%Z) by lia. apply Z.mul_eq_0 in E. lia.
  - assert (E : ((zy a - zy b) * (zy a - zy b) = 0)%Z) by lia. apply Z.mul_eq_0 in E. lia.
Qed.
Lemma zgab_ok l a b : diametral (map zr l) (zr a) (zr b) -> zgab l a b = true.
Proof.
  intros (N & G). unfold zgab. apply andb_true_iff. split.
  - apply negb_true_iff, Z.eqb_neq. intros Q. apply N, same_zr, Q.
  - apply forallb_forall. intros c Hc. apply Z.leb_le, le_IZR. specialize (G _ (in_map zr _ _ Hc)). revert G. tz. auto.
Qed.
Lemma zor_sq w : 0 < Rabs (IZR w) -> IZR w * IZR w = Rabs (IZR w) * Rabs (IZR w). Proof. intros _. rewrite <- Rabs_mult. symmetry. apply Rabs_pos_eq. pose proof (Rle_0_sqr (IZR w)). auto. Qed.
Lemma abs_pos w : w <> 0%Z -> 0 < Rabs (IZR w). Proof. intros H. apply Rabs_pos_lt. intros Q. apply H, eq_IZR, Q. Qed.
Lemma div_le n d k : 0 < d -> n <= k * d -> n / d <= k.
Proof. intros H L. apply (Rmult_le_reg_r d); auto. unfold Rdiv. rewrite Rmult_assoc, Rinv_l, Rmult_1_r by lra. exact L. Qed.
Lemma zmild_ok a b c : zor a b c <> 0%Z -> zmild a b c = true -> mild (zr a) (zr b) (zr c).
Proof.
  intros N H. unfold zmild in H. cbv zeta in H. apply andb_true_iff in H. destruct H as (H1 & H2). apply Z.leb_le, IZR_le in H1. apply Z.leb_le, IZR_le in H2. rewrite mult_IZR, abs_IZR in H1. rewrite !mult_IZR, abs_IZR in H2. pose proof (abs_pos _ N) as W.
  split; [rewrite ccw_zr; intros Q; apply N, eq_IZR, Q|]. unfold cond. rewrite Nc_zr, ccw_zr, ct_zr by auto. split; apply div_le; lra.
Qed.
Lemma rerr_zr a b c : zor a b c <> 0%Z -> let w := Rabs (IZR (zor a b c)) in
  radius_err (zr a) (zr b) (zr c) = IZR (zct a b c * (zN a b c * zN a b c)) / (4 * 2 ^ 47 * (w * w * w)).
Proof.
  intros N w. pose proof (abs_pos _ N) as W. fold w in W. unfold radius_err, cond. rewrite Nc_zr, ccw_zr, ct_zr by auto. fold w. tz. field. lra.
Qed.
Lemma rad_zr a b c : zor a b c <> 0%Z -> let w := Rabs (IZR (zor a b c)) in radius2 (zr a) (zr b) (zr c) = IZR (zP a b c) / (4 * (w * w)).
Proof. intros N w. pose proof (abs_pos _ N) as W. unfold radius2, zP. rewrite !d2_zr, ccw_zr, zor_sq by auto. tz. reflexivity. Qed.
Lemma p47 : IZR (2 ^ 47) = 2 ^ 47. Proof. rewrite pow_IZR. reflexivity. Qed.
Lemma zrad_ok a b c d : zor a b c <> 0%Z -> zor a b d <> 0%Z -> zrad a b c d = true ->
  mild (zr a) (zr b) (zr c) /\ radius_err (zr a) (zr b) (zr c) < radius2 (zr a) (zr b) (zr c) /\
  (radius2 (zr a) (zr b) (zr c) = radius2 (zr a) (zr b) (zr d) \/
   radius_err (zr a) (zr b) (zr c) + radius_err (zr a) (zr b) (zr d) < Rabs (radius2 (zr a) (zr b) (zr c) - radius2 (zr a) (zr b) (zr d))).
Proof.
  intros N M H. unfold zrad in H. rewrite !orb_true_iff, !andb_true_iff, orb_true_iff, !Z.eqb_eq, !Z.ltb_lt in H. destruct H as [[H|H]|((H1 & H2) & H3)]; [lia|lia|].
  split; [apply zmild_ok; auto|]. rewrite !rerr_zr, !rad_zr by auto. pose proof (abs_pos _ N) as W. pose proof (abs_pos _ M) as V. pose proof p47 as K. assert (K0 : 0 < 2 ^ 47) by (apply pow_lt; lra).
  set (ec := (zct a b c * (zN a b c * zN a b c))%Z) in *. set (ed := (zct a b d * (zN a b d * zN a b d))%Z) in *. rewrite <- !abs_IZR in *.
  set (w := Z.abs (zor a b c)) in *. set (v := Z.abs (zor a b d)) in *. set (k := 2 ^ 47) in *. split.
  - apply IZR_lt in H2. rewrite !mult_IZR, K in H2. assert (D : 0 < 4 * k * (IZR w * IZR w * IZR w)) by (repeat apply Rmult_lt_0_compat; lra).
    apply (Rmult_lt_reg_r (4 * k * (IZR w * IZR w * IZR w))); auto. replace (IZR ec / (4 * k * (IZR w * IZR w * IZR w)) * (4 * k * (IZR w * IZR w * IZR w))) with (IZR ec) by (field; lra).
    replace (IZR (zP a b c) / (4 * (IZR w * IZR w)) * (4 * k * (IZR w * IZR w * IZR w))) with (k * IZR w * IZR (zP a b c)) by (field; lra). exact H2.
  - destruct H3 as [E|L].
    + left. apply (f_equal IZR) in E. rewrite !mult_IZR in E. apply (Rmult_eq_reg_r (4 * (IZR w * IZR w) * (IZR v * IZR v))); [|apply Rgt_not_eq; repeat apply Rmult_lt_0_compat; lra].
      replace (IZR (zP a b c) / (4 * (IZR w * IZR w)) * (4 * (IZR w * IZR w) * (IZR v * IZR v))) with (IZR (zP a b c) * (IZR v * IZR v)) by (field; lra). rewrite E. field. lra.
    + right. apply IZR_lt in L. rewrite plus_IZR, !mult_IZR, abs_IZR, minus_IZR, !mult_IZR, K in L.
      set (Q := 4 * k * (IZR w * IZR w * IZR w * (IZR v * IZR v * IZR v))). assert (Q0 : 0 < Q) by (unfold Q; repeat apply Rmult_lt_0_compat; lra).
      apply (Rmult_lt_reg_r Q); auto. rewrite <- (Rabs_pos_eq Q) at 2 by lra. rewrite <- Rabs_mult.
      replace ((IZR ec / (4 * k * (IZR w * IZR w * IZR w)) + IZR ed / (4 * k * (IZR v * IZR v * IZR v))) * Q) with (IZR ec * (IZR v * IZR v * IZR v) + IZR ed * (IZR w * IZR w * IZR w)) by (unfold Q; field; lra).
      replace ((IZR (zP a b c) / (4 * (IZR w * IZR w)) - IZR (zP a b d) / (4 * (IZR v * IZR v))) * Q) with (k * (IZR w * IZR v) * (IZR (zP a b c) * (IZR v * IZR v) - IZR (zP a b d) * (IZR w * IZR w))) by (unfold Q; field; lra).
      rewrite Rabs_mult, (Rabs_pos_eq (k * _)) by (repeat apply Rmult_le_pos; lra). exact L.
Qed.
Lemma center_zr o r2 a b c : zor a b c <> 0%Z -> circle3 o r2 (zr a) (zr b) (zr c) ->
  2 * IZR (zor a b c) * (rx o - IZR (zx a)) = IZR (zX a b c) /\ 2 * IZR (zor a b c) * (ry o - IZR (zy a)) = IZR (zY a b c).
Proof.
  intros N (A & B & C). unfold dist2xy in A, B, C. rewrite !rx_zr, !ry_zr in *. unfold zX, zY, zor, zd2. tz.
  set (ax := IZR (zx a)) in *. set (ay := IZR (zy a)) in *. set (bx := IZR (zx b)) in *. set (by' := IZR (zy b)) in *. set (cx := IZR (zx c)) in *. set (cy := IZR (zy c)) in *. set (ox := rx o) in *. set (oy := ry o) in *.
  assert (E1 : 2 * ((bx - ax) * (ox - ax) + (by' - ay) * (oy - ay)) = (bx - ax) * (bx - ax) + (by' - ay) * (by' - ay)) by lra.
  assert (E2 : 2 * ((cx - ax) * (ox - ax) + (cy - ay) * (oy - ay)) = (cx - ax) * (cx - ax) + (cy - ay) * (cy - ay)) by lra.
  rewrite <- E1, <- E2. split; ring.
Qed.
Lemma p48 : IZR (2 ^ 48) = 2 ^ 48. Proof. rewrite pow_IZR. reflexivity. Qed.
Lemma p54 : IZR (2 ^ 54) = 2 ^ 54. Proof. rewrite pow_IZR. reflexivity. Qed.
Lemma cerr_zr a b c : zor a b c <> 0%Z -> center_err (zr a) (zr b) (zr c) * (2 ^ 54 * (IZR (zor a b c) * IZR (zor a b c))) = IZR (zE a b c).
Proof.
  intros N. pose proof (abs_pos _ N) as W. unfold center_err, cond. rewrite Nc_zr, ccw_zr, ct_zr by auto. unfold zE. rewrite plus_IZR, !mult_IZR, plus_IZR, !abs_IZR. rewrite (zor_sq _ W), rx_zr, ry_zr. change (IZR (2 ^ 5)) with 32.
  set (w := Rabs (IZR (zor a b c))) in *. simpl pow. field. lra.
Qed.
Lemma dist_o o r2 a b c p : zor a b c <> 0%Z -> circle3 o r2 (zr a) (zr b) (zr c) -> dist2xy (zr p) o * (4 * (IZR (zor a b c) * IZR (zor a b c))) = IZR (zD a b c p).
Proof.
  intros N C. destruct (center_zr o r2 a b c N C) as (X & Y). unfold zD. cbv zeta. tz. rewrite <- X, <- Y. unfold dist2xy. rewrite rx_zr, ry_zr. ring.
Qed.
Lemma zcen_ok o r2 a b c p q : zor a b c <> 0%Z -> circle3 o r2 (zr a) (zr b) (zr c) -> zcen a b c p q = true ->
  samexy (zr p) (zr q) \/ (4 * (center_err (zr a) (zr b) (zr c) * center_err (zr a) (zr b) (zr c)) < dist2xy (zr p) (zr q) /\
     / 2 ^ 48 * (dist2xy (zr p) o + dist2xy (zr q) o + rz (zr p) * rz (zr p)) < dist2xy (zr p) (zr q)).
Proof.
  intros N C H. unfold zcen in H. rewrite !orb_true_iff, !andb_true_iff, !Z.eqb_eq, !Z.ltb_lt in H. destruct H as [[H|H]|(H1 & H2)]; [apply Z.mul_eq_0 in H; lia|left; apply same_zr, H|right].
  pose proof (cerr_zr a b c N) as E. pose proof (dist_o o r2 a b c p N C) as P. pose proof (dist_o o r2 a b c q N C) as Q. apply IZR_lt in H1, H2. rewrite !mult_IZR, p54, <- E in H1. rewrite !plus_IZR, !mult_IZR, p48, <- P, <- Q in H2.
  rewrite d2_zr, rz_zr. assert (W : 0 < IZR (zor a b c) * IZR (zor a b c)) by (apply Rsqr_pos_lt; intros Z; apply N, eq_IZR, Z). set (w := IZR (zor a b c) * IZR (zor a b c)) in *.
  assert (K : 0 < 2 ^ 54) by (apply pow_lt; lra). assert (K2 : 0 < 2 ^ 48) by (apply pow_lt; lra). set (k := 2 ^ 54) in *. set (k2 := 2 ^ 48) in *. clearbody w k k2. split.
  - apply (Rmult_lt_reg_r (k * w * (k * w))); [repeat apply Rmult_lt_0_compat; lra|]. eapply Rle_lt_trans; [|exact H1]. apply Req_le. ring.
  - apply (Rmult_lt_reg_l (k2 * (4 * w))); [repeat apply Rmult_lt_0_compat; lra|]. eapply Rle_lt_trans; [|exact H2]. apply Req_le. field. lra.
Qed.
Lemma zcirc_ok a b c p : ccw (zr a) (zr b) (zr c) <> 0 -> zcirc a b c p = true -> clear_circle (zr a) (zr b) (zr c) (zr p).
Proof.
  rewrite ccw_zr. intros N H. unfold zcirc in H. rewrite !orb_true_iff, !Z.eqb_eq, Z.ltb_lt in H. unfold clear_circle. rewrite dett_zr, det_zr. destruct H as [[H|H]|H].
  - exfalso. apply N. rewrite H. reflexivity.
  - right. rewrite H. reflexivity.
  - left. apply IZR_lt in H. rewrite !mult_IZR, abs_IZR in H. replace (IZR (2 ^ 53)) with (2 ^ 53) in H by (rewrite pow_IZR; reflexivity). pose proof (gamma_lin 11 ltac:(discriminate)) as G. replace (INR 11) with 11 in G by (simpl; lra).
    assert (T0 : 0 <= IZR (zdett a b c p)). { apply IZR_le. unfold zdett, zd2. repeat first [apply Z.square_nonneg|apply Z.add_nonneg_nonneg|apply Z.mul_nonneg_nonneg|apply Z.abs_nonneg]. }
    eapply Rle_lt_trans; [apply Rmult_le_compat_r; [exact T0|exact G]|]. lra.
Qed.
Theorem zcheck_clear l : zcheck l = true -> clear_triangulation (map zr l).
Proof.
  unfold zcheck. rewrite !andb_true_iff. intros ((((Hz & Ho) & Hs) & Hk) & Hg).
  assert (I : forall a, In a (map zr l) -> exists p, a = zr p /\ In p l) by (intros a Ha; apply in_map_iff in Ha; destruct Ha as (p & <- & Ha); eauto).
  constructor.
  - intros a b Ha Hb. destruct (I _ Ha) as (a' & -> & Ia), (I _ Hb) as (b' & -> & Ib). rewrite !rz_zr. f_equal. apply Z.eqb_eq. exact (all2_in _ _ _ Hz _ _ Ia Ib).
  - split.
    + intros a b c Ha Hb Hc. destruct (I _ Ha) as (a' & -> & Ia), (I _ Hb) as (b' & -> & Ib), (I _ Hc) as (c' & -> & Ic). apply zclear_ok. exact (all3_in _ _ _ Ho _ _ _ Ia Ib Ic).
    + intros a b Ha Hb. destruct (I _ Ha) as (a' & -> & Ia), (I _ Hb) as (b' & -> & Ib). apply zdist_clear.
  - intros a b c p Ha Hb Hc Hp N. destruct (I _ Ha) as (a' & -> & Ia), (I _ Hb) as (b' & -> & Ib), (I _ Hc) as (c' & -> & Ic), (I _ Hp) as (p' & -> & Ip). apply zcirc_ok; auto.
    exact (all2_in _ _ _ (all2_in _ _ _ Hk _ _ Ia Ib) _ _ Ic Ip).
  - intros a u v Ha Hu Hv. destruct (I _ Ha) as (a' & -> & Ia), (I _ Hu) as (u' & -> & Iu), (I _ Hv) as (v' & -> & Iv). pose proof (all3_in _ _ _ Hs _ _ _ Ia Iu Iv) as H. unfold zspr in H. rewrite orb_true_iff, Z.eqb_eq, Z.leb_le in H.
    destruct H as [H|H]; [left; apply same_zr, H|right]. rewrite !d2_zr. apply IZR_le in H. rewrite mult_IZR in H. replace (IZR (2 ^ 49)) with (2 ^ 49) in H by (rewrite pow_IZR; reflexivity). assert (K : 0 < 2 ^ 49) by (apply pow_lt; lra).
    apply (Rmult_le_reg_l (2 ^ 49)); auto. rewrite <- Rmult_assoc, Rinv_r, Rmult_1_l by lra. exact H.
  - intros a b Ha Hb Gb c d Hc Hd N M. destruct (I _ Ha) as (a' & -> & Ia), (I _ Hb) as (b' & -> & Ib), (I _ Hc) as (c' & -> & Ic), (I _ Hd) as (d' & -> & Id).
    pose proof (all2_in _ _ _ Hg _ _ Ia Ib) as H. cbv beta in H. rewrite (zgab_ok l a' b' Gb) in H. cbn [negb orb] in H. apply andb_true_iff in H. rewrite ccw_zr in N, M.
    apply zrad_ok; [intros Q; rewrite Q in N; auto|intros Q; rewrite Q in M; auto|exact (all2_in _ _ _ (proj1 H) _ _ Ic Id)].
  - intros a b c Ha Hb Hc Gb N o r2 C3 _ p q Hp Hq. destruct (I _ Ha) as (a' & -> & Ia), (I _ Hb) as (b' & -> & Ib), (I _ Hc) as (c' & -> & Ic), (I _ Hp) as (p' & -> & Ip), (I _ Hq) as (q' & -> & Iq).
    pose proof (all2_in _ _ _ Hg _ _ Ia Ib) as H. cbv beta in H. rewrite (zgab_ok l a' b' Gb) in H. cbn [negb orb] in H. apply andb_true_iff in H. rewrite ccw_zr in N. destruct H as (_ & H). rewrite forallb_forall in H.
    apply (zcen_ok o r2); [intros Q; rewrite Q in N; auto|exact C3|exact (all2_in _ _ _ (H _ Ic) _ _ Ip Iq)].
Qed.
