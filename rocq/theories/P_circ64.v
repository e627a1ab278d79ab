(** Accuracy of circumcenter and circumradius in binary64 (C160). *)
From Coq Require Import Reals Lra Lia ZArith QArith Bool.
From Flocq Require Import Core Relative BinarySingleNaN.
From Verif Require Import Base Arith M_r3 M_tri2 Spec_r3 Spec_plane Spec_acc64 Spec_circ64 XRvec P_tri2 P_insphere_err P_insphere_b64 P_b64sc P_b64err P_b64hash P_b64rel P_b64norm P_b64nurbs P_b64hull P_acc64 P_clearhull.
Open Scope R_scope.
Notation u := u53.

Lemma u53v : u53 = / 2 ^ 53. Proof. reflexivity. Qed.
Lemma Rabs_le3 x a : - a <= x -> x <= a -> Rabs x <= a. Proof. intros. apply Rabs_le. lra. Qed.

(** quotients *)
Lemma quot_err (n N p d D q : R) : 0 < Rabs D -> Rabs N <= p -> Rabs (N - n) <= 9 * u * p -> Rabs (D - d) <= 5 * u * q -> Rabs D <= q -> u * q <= / 32 * Rabs D ->
  d <> 0 /\ Rabs (n / d - N / D) <= 17 * (u * (q / Rabs D)) * (p / Rabs D).
Proof.
  intros D0 HN Hn Hd Hq HK. pose proof u0 as U. set (a := Rabs D) in *.
  assert (P0 : 0 <= p) by (pose proof (Rabs_pos N); lra). assert (Q0 : 0 < q) by lra.
  assert (DN : D <> 0) by (intros E; unfold a in D0; rewrite E, Rabs_R0 in D0; lra).
  assert (Ld : 27 / 32 * a <= Rabs d).
  { pose proof (Rabs_triang_inv D (D - d)) as T. replace (D - (D - d)) with d in T by ring. fold a in T. lra. }
  assert (dN : d <> 0) by (intros E; rewrite E, Rabs_R0 in Ld; lra). split; [exact dN|].
  replace (n / d - N / D) with ((- (N - n) + N / D * (D - d)) / d) by (field; auto).
  unfold Rdiv at 1. rewrite Rabs_mult, Rabs_inv.
  assert (A : Rabs (- (N - n) + N / D * (D - d)) <= 14 * (u * (q / a)) * p).
  { eapply Rle_trans; [apply Rabs_triang|]. rewrite Rabs_Ropp, Rabs_mult.
    assert (E : Rabs (N / D) <= p / a). { unfold Rdiv. rewrite Rabs_mult, Rabs_inv. fold a. apply Rmult_le_compat_r; [left; apply Rinv_0_lt_compat; auto|exact HN]. }
    assert (F : Rabs (N / D) * Rabs (D - d) <= p / a * (5 * u * q)) by (apply Rmult_le_compat; auto using Rabs_pos).
    replace (p / a * (5 * u * q)) with (5 * (u * (q / a)) * p) in F by (field; lra).
    assert (G : u * p <= u * (q / a) * p).
    { replace (u * p) with (u * 1 * p) by ring. apply Rmult_le_compat_r; auto. apply Rmult_le_compat_l; [lra|].
      apply (Rmult_le_reg_r a); auto. replace (q / a * a) with q by (field; lra). lra. }
    lra. }
  assert (I : / Rabs d <= 32 / 27 * / a). { replace (32 / 27 * / a) with (/ (27 / 32 * a)) by (field; lra). apply Rinv_le_contravar; lra. }
  eapply Rle_trans; [apply Rmult_le_compat; [apply Rabs_pos|left; apply Rinv_0_lt_compat; lra|exact A|exact I]|].
  assert (W : 0 <= u * (q / a) * (p / a)). { apply Rmult_le_pos; [apply Rmult_le_pos; [lra|]|]; unfold Rdiv; apply Rmult_le_pos; try lra; left; apply Rinv_0_lt_compat; auto. }
  replace (14 * (u * (q / a)) * p * (32 / 27 * / a)) with (14 * 32 / 27 * (u * (q / a) * (p / a))) by (field; lra).
  replace (17 * (u * (q / a)) * (p / a)) with (17 * (u * (q / a) * (p / a))) by ring. lra.
Qed.
Lemma fix_lower m r : fixm m r -> r <> 0 -> bp (- m) <= Rabs r.
Proof.
  intros (k & ->) N. rewrite Rabs_mult, (Rabs_pos_eq (bp (- m))) by apply bpow_ge_0. rewrite <- (Rmult_1_l (bp (- m))) at 1. apply Rmult_le_compat_r; [apply bpow_ge_0|].
  rewrite <- abs_IZR. apply IZR_le. assert (k <> 0)%Z by (intros ->; apply N; ring). lia.
Qed.
Lemma div_acc n N p d D q : acc n N p 8 541 605 -> acc d D q 4 360 403 -> 0 < Rabs D -> u * q <= / 32 * Rabs D ->
  let x := fdiv B64 n d in let t := p / Rabs D in let w := u * (q / Rabs D) in
  is_finite x = true /\ Rabs (B2R x - N / D) <= 19 * w * t /\ Rabs (N / D) <= t /\ 0 <= t /\ u <= w <= / 32.
Proof.
  intros An Ad D0 HK. cbv zeta. pose proof u0 as U. pose proof (acc_p _ _ _ _ _ _ An) as P0.
  destruct (acc_bound _ _ _ _ _ _ An) as (Fn & En), (acc_bound _ _ _ _ _ _ Ad) as (Fd & Ed).
  destruct An as ((_ & _ & Gn & Bn) & _ & HN), Ad as ((_ & _ & Gd & Bd) & _ & Hq).
  assert (G8 : gamma 8 <= 9 * u). { pose proof (gamma_lin 8 ltac:(lia)) as Q. simpl INR in Q. rewrite u53v. unfold Rdiv in Q. lra. }
  assert (G4 : gamma 4 <= 5 * u). { pose proof (gamma_lin 4 ltac:(lia)) as Q. simpl INR in Q. rewrite u53v. unfold Rdiv in Q. lra. }
  destruct (quot_err (B2R n) N p (B2R d) D q D0 HN) as (dN & Qe); auto.
  { rewrite Rabs_minus_sym. eapply Rle_trans; [exact En|]. apply Rmult_le_compat_r; lra. }
  { rewrite Rabs_minus_sym. eapply Rle_trans; [exact Ed|]. apply Rmult_le_compat_r; lra. }
  set (a := Rabs D) in *. set (t := p / a) in *. set (w := u * (q / a)) in *.
  assert (I0 : 0 < / a) by (apply Rinv_0_lt_compat; auto).
  assert (t0 : 0 <= t) by (unfold t, Rdiv; apply Rmult_le_pos; lra).
  assert (w0 : u <= w <= / 32).
  { unfold w. split.
    - rewrite <- (Rmult_1_r u) at 1. apply Rmult_le_compat_l; [lra|]. apply (Rmult_le_reg_r a); auto. replace (q / a * a) with q by (field; lra). lra.
    - replace (u * (q / a)) with (u * q * / a) by (unfold Rdiv; ring). apply (Rmult_le_reg_r a); auto. rewrite Rmult_assoc, Rinv_l by lra. lra. }
  assert (E : Rabs (N / D) <= t). { unfold t, Rdiv. rewrite Rabs_mult, Rabs_inv. fold a. apply Rmult_le_compat_r; lra. }
  pose proof (fix_lower _ _ Gd dN) as Ld.
  assert (Id : / Rabs (B2R d) <= bp 360). { change 360%Z with (- - 360)%Z. rewrite (bpow_opp radix2 (- 360)). apply Rinv_le_contravar; [apply bpow_gt_0|exact Ld]. }
  assert (Ib : bp (-403) <= / Rabs (B2R d)). { replace (bp (-403)) with (/ bp 403) by (symmetry; apply (bpow_opp radix2 403)). apply Rinv_le_contravar; [eapply Rlt_le_trans; [apply bpow_gt_0|exact Ld]|exact Bd]. }
  assert (O : Rabs (B2R n / B2R d) <= bp 1023).
  { unfold Rdiv. rewrite Rabs_mult, Rabs_inv. apply Rle_trans with (bp 605 * bp 360); [apply Rmult_le_compat; auto using Rabs_pos; left; apply Rinv_0_lt_compat, Rabs_pos_lt, dN|].
    rewrite bpadd. apply bpow_le. lia. }
  destruct (fdiv_val n d Fn dN O) as (Fx & Ex). split; [exact Fx|]. split; [|auto].
  rewrite Ex.
  assert (Rr : Rabs (rndF (B2R n / B2R d) - B2R n / B2R d) <= u * Rabs (B2R n / B2R d)).
  { destruct (Req_dec (B2R n) 0) as [Z|Z].
    - rewrite Z. replace (0 / B2R d) with 0 by (field; auto). rewrite rndF_id by apply generic_format_0. rewrite Rminus_0_r, Rabs_R0. lra.
    - apply rnd_big. unfold Rdiv. rewrite Rabs_mult, Rabs_inv. apply Rle_trans with (bp (-541) * bp (-403)); [rewrite bpadd; apply bpow_le; lia|].
      apply Rmult_le_compat; try apply bpow_ge_0; auto. apply (fix_lower 541); auto. }
  set (y := B2R n / B2R d) in *. assert (Y : Rabs y <= t + 17 * w * t).
  { replace y with (N / D + (y - N / D)) by ring. eapply Rle_trans; [apply Rabs_triang|]. lra. }
  replace (rndF y - N / D) with ((rndF y - y) + (y - N / D)) by ring. eapply Rle_trans; [apply Rabs_triang|].
  assert (Y2 : u * Rabs y <= u * (t + 17 * w * t)) by (apply Rmult_le_compat_l; lra).
  assert (V1 : u * t <= w * t) by (apply Rmult_le_compat_r; lra).
  assert (V2 : u * (w * t) <= w * (w * t)) by (apply Rmult_le_compat_r; [apply Rmult_le_pos; lra|lra]).
  assert (V3 : w * (w * t) <= / 32 * (w * t)) by (apply Rmult_le_compat_r; [apply Rmult_le_pos; lra|lra]).
  assert (V6 : 0 <= w * t) by (apply Rmult_le_pos; lra).
  replace (19 * w * t) with (19 * (w * t)) by ring. replace (17 * w * t) with (17 * (w * t)) in Qe by ring. 
  replace (u * (t + 17 * w * t)) with (u * t + 17 * (u * (w * t))) in Y2 by ring. lra.
Qed.

(** ** the two coordinates of the circumcenter relative to a *)
Section Circ.
Variables a b c : vec B64.
Hypothesis Ta : tame_xy a.
Hypothesis Tb : tame_xy b.
Hypothesis Tc : tame_xy c.
Notation A := (rvec a). Notation B := (rvec b). Notation C := (rvec c).
Notation sub := (fsub B64). Notation mul := (fmul B64). Notation add := (fadd B64).
Notation dx := (sub (vx b) (vx a)). Notation dy := (sub (vy b) (vy a)).
Notation ex := (sub (vx c) (vx a)). Notation ey := (sub (vy c) (vy a)).
Definition bl_ := add (mul dx dx) (mul dy dy).
Definition cl_ := add (mul ex ex) (mul ey ey).
Definition d_ := sub (mul dx ey) (mul dy ex).
Definition nx_ := mul (sub (mul ey bl_) (mul dy cl_)) (fofQ B64 (1 # 2)).
Definition ny_ := mul (sub (mul dx cl_) (mul ex bl_)) (fofQ B64 (1 # 2)).
Definition x_ := fdiv B64 nx_ d_.
Definition y_ := fdiv B64 ny_ d_.
Definition RNX := ((ry C - ry A) * dist2xy B A - (ry B - ry A) * dist2xy C A) / 2.
Definition RNY := ((rx B - rx A) * dist2xy C A - (rx C - rx A) * dist2xy B A) / 2.
Definition PNX := (Rabs (ry C - ry A) * dist2xy B A + Rabs (ry B - ry A) * dist2xy C A) / 2.
Definition PNY := (Rabs (rx B - rx A) * dist2xy C A + Rabs (rx C - rx A) * dist2xy B A) / 2.
Lemma half_acc : acc (fofQ B64 (1 # 2)) (/ 2) (/ 2) 0 1 0.
Proof.
  assert (E : B2R (fofQ B64 (1 # 2) : b64) = / 2) by (cbn; unfold Defs.F2R; cbn; lra). split.
  - split; [reflexivity|]. split; [reflexivity|]. rewrite E. split; [exists 1%Z; change (bp (- (1))) with (/ 2); lra|]. rewrite Rabs_pos_eq by lra. change (bp 0) with 1. lra.
  - rewrite E. rewrite Rminus_eq_0, Rabs_R0, Rabs_pos_eq by lra. simpl. lra.
Qed.
Lemma bl_acc : acc bl_ (dist2xy B A) (dist2xy B A) 4 360 403.
Proof. destruct Ta as (Ax & Ay), Tb as (Bx & By). eapply acc_eq; [exact ((dif Bx Ax)^2 + (dif By Ay)^2)%acc|reflexivity..]. Qed.
Lemma cl_acc : acc cl_ (dist2xy C A) (dist2xy C A) 4 360 403.
Proof. destruct Ta as (Ax & Ay), Tc as (Cx & Cy). eapply acc_eq; [exact ((dif Cx Ax)^2 + (dif Cy Ay)^2)%acc|reflexivity..]. Qed.
Lemma d_acc : acc d_ (ccw A B C) (cross_terms A B C) 4 360 403.
Proof.
  destruct Ta as (Ax & Ay), Tb as (Bx & By), Tc as (Cx & Cy).
  eapply acc_eq; [exact (dif Bx Ax * dif Cy Ay - dif By Ay * dif Cx Ax)%acc| | |reflexivity..]; unfold ccw, cross_terms; cbn [rx ry rvec]; ring.
Qed.
Lemma nx_acc : acc nx_ RNX PNX 8 541 605.
Proof.
  destruct Ta as (Ax & Ay), Tb as (Bx & By), Tc as (Cx & Cy). pose proof bl_acc as bl. pose proof cl_acc as cl. pose proof half_acc as h.
  eapply acc_eq; [exact ((dif Cy Ay * bl - dif By Ay * cl) * h)%acc| | |reflexivity..]; unfold RNX, PNX, Rdiv; cbn [rx ry rvec]; ring.
Qed.
Lemma ny_acc : acc ny_ RNY PNY 8 541 605.
Proof.
  destruct Ta as (Ax & Ay), Tb as (Bx & By), Tc as (Cx & Cy). pose proof bl_acc as bl. pose proof cl_acc as cl. pose proof half_acc as h.
  eapply acc_eq; [exact ((dif Bx Ax * cl - dif Cx Ax * bl) * h)%acc| | |reflexivity..]; unfold RNY, PNY, Rdiv; cbn [rx ry rvec]; ring.
Qed.

Hypothesis Hm : mild A B C.
Notation D := (ccw A B C).
Notation tx := (circ_x A B C). Notation ty := (circ_y A B C). Notation t := (circ_terms A B C).
Definition w_ := u * cond A B C.
Lemma D0 : 0 < Rabs D. Proof. apply Rabs_pos_lt, Hm. Qed.
Lemma w_eq : w_ = u * (cross_terms A B C / Rabs D). Proof. reflexivity. Qed.
Lemma uq : u * cross_terms A B C <= / 32 * Rabs D.
Proof.
  destruct Hm as (_ & K & _). unfold cond in K. pose proof D0 as P. pose proof u0 as U. apply (Rmult_le_compat_r (Rabs D)) in K; [|lra].
  unfold Rdiv in K. rewrite Rmult_assoc, Rinv_l, Rmult_1_r in K by lra. apply (Rmult_le_compat_l u) in K; [|lra].
  replace (u * (2 ^ 48 * Rabs D)) with (/ 32 * Rabs D) in K by (rewrite u53v; field). exact K.
Qed.
Lemma tx_eq : tx = PNX / Rabs D. Proof. unfold circ_x, PNX. pose proof D0. field. lra. Qed.
Lemma ty_eq : ty = PNY / Rabs D. Proof. unfold circ_y, PNY. pose proof D0. field. lra. Qed.
Lemma x_err : is_finite x_ = true /\ Rabs (B2R x_ - RNX / D) <= 19 * w_ * tx /\ Rabs (RNX / D) <= tx /\ 0 <= tx /\ u <= w_ <= / 32.
Proof. rewrite tx_eq, w_eq. apply (div_acc _ _ _ _ _ _ nx_acc d_acc D0 uq). Qed.
Lemma y_err : is_finite y_ = true /\ Rabs (B2R y_ - RNY / D) <= 19 * w_ * ty /\ Rabs (RNY / D) <= ty /\ 0 <= ty /\ u <= w_ <= / 32.
Proof. rewrite ty_eq, w_eq. apply (div_acc _ _ _ _ _ _ ny_acc d_acc D0 uq). Qed.
Lemma one_bd (x : b64) e s w : Rabs (B2R x - e) <= 19 * w * s -> Rabs e <= s -> 0 <= s -> u <= w <= / 32 -> Rabs (B2R x) <= 51 / 32 * s.
Proof.
  intros H1 H2 H3 H4. pose proof u0. replace (B2R x) with ((B2R x - e) + e) by ring. eapply Rle_trans; [apply Rabs_triang|].
  assert (19 * w * s <= 19 * / 32 * s) by (apply Rmult_le_compat_r; lra). lra.
Qed.
(** the exact circle, and the two functions *)
Lemma circ_eq : circumcenter a b c = mkvec (add (vx a) x_) (add (vy a) y_) (fofZ B64 0). Proof. reflexivity. Qed.
Definition r_ := add (mul x_ x_) (mul y_ y_).
Lemma rad_eq : circumradius a b c = if (feq B64 bl_ (fofZ B64 0) || feq B64 cl_ (fofZ B64 0) || feq B64 d_ (fofZ B64 0) || feq B64 r_ (fofZ B64 0))%bool then infinity else r_.
Proof. reflexivity. Qed.
Lemma sq_abs (x s : R) : Rabs x <= s -> x * x <= s * s.
Proof. intros Hxs. pose proof (Rabs_pos x). replace (x * x) with (Rabs x * Rabs x) by (rewrite <- Rabs_mult; apply Rabs_pos_eq, Rle_0_sqr). apply Rmult_le_compat; lra. Qed.
Lemma t_parts : 0 <= tx /\ 0 <= ty /\ tx <= bp 400 /\ ty <= bp 400.
Proof.
  destruct x_err as (_ & _ & _ & X & _), y_err as (_ & _ & _ & Y & _), Hm as (_ & _ & T). unfold circ_terms in T.
  assert (E : bp 400 = 2 ^ 400). { rewrite bpow_powerRZ. change (IZR radix2) with 2. reflexivity. } rewrite E. lra.
Qed.
Lemma sum_err (p x : b64) e s : tame p -> is_finite x = true -> Rabs (B2R x - e) <= 19 * w_ * s -> Rabs e <= s -> 0 <= s -> s <= bp 400 -> u <= w_ <= / 32 ->
  is_finite (add p x : b64) = true /\ Rabs (B2R (add p x : b64) - (B2R p + e)) <= 21 * w_ * s + u * Rabs (B2R p).
Proof.
  intros (Fp & _ & Bp) Fx Ex He S0 S1 W. pose proof u0 as U. pose proof (one_bd x e s w_ Ex He S0 W) as Bx.
  assert (Bs : Rabs (B2R p + B2R x) <= Rabs (B2R p) + 51 / 32 * s) by (eapply Rle_trans; [apply Rabs_triang|]; lra).
  destruct (fadd_val p x Fp Fx) as (F & E).
  { apply Rle_trans with (bp 400 + 2 * bp 400); [|replace (bp 400 + 2 * bp 400) with (3 * bp 400) by ring; apply Rle_trans with (bp 2 * bp 400); [change (bp 2) with 4; pose proof (bpow_ge_0 radix2 400); lra|rewrite bpadd; apply bpow_le; lia]].
    assert (bp 200 <= bp 400) by (apply bpow_le; lia). lra. }
  split; [exact F|]. rewrite E. pose proof (rnd_sum (B2R p) (B2R x) (fmt_B p) (fmt_B x)) as R.
  replace (rndF (B2R p + B2R x) - (B2R p + e)) with ((rndF (B2R p + B2R x) - (B2R p + B2R x)) + (B2R x - e)) by ring.
  eapply Rle_trans; [apply Rabs_triang|].
  assert (Q : u * Rabs (B2R p + B2R x) <= u * (Rabs (B2R p) + 51 / 32 * s)) by (apply Rmult_le_compat_l; lra).
  assert (V : u * s <= w_ * s) by (apply Rmult_le_compat_r; lra).
  replace (u * (Rabs (B2R p) + 51 / 32 * s)) with (u * Rabs (B2R p) + 51 / 32 * (u * s)) in Q by ring.
  replace (19 * w_ * s) with (19 * (w_ * s)) in Ex by ring. replace (21 * w_ * s) with (21 * (w_ * s)) by ring.
  assert (0 <= w_ * s) by (apply Rmult_le_pos; lra). lra.
Qed.
Definition exact_center := RV (rx A + RNX / D) (ry A + RNY / D) 0.
Definition ctr_ : vec B64 := mkvec (add (vx a) x_) (add (vy a) y_) (fofZ B64 0).
Lemma ctr_err : is_finite (vx ctr_ : b64) = true /\ is_finite (vy ctr_ : b64) = true /\
  Rabs (rx (rvec ctr_) - rx exact_center) + Rabs (ry (rvec ctr_) - ry exact_center) <= center_err A B C /\
  Rabs (rx (rvec ctr_) - rx A) + Rabs (ry (rvec ctr_) - ry A) <= 2 * t + u * (Rabs (rx A) + Rabs (ry A)).
Proof.
  destruct x_err as (Fx & Ex & Nx & Px & W), y_err as (Fy & Ey & Ny & Py & _), t_parts as (_ & _ & Sx & Sy). pose proof u0 as U.
  destruct (sum_err (vx a) x_ _ _ (proj1 Ta) Fx Ex Nx Px Sx W) as (F1 & E1). destruct (sum_err (vy a) y_ _ _ (proj2 Ta) Fy Ey Ny Py Sy W) as (F2 & E2).
  cbn [ctr_ exact_center vx vy rvec rx ry]. split; [exact F1|]. split; [exact F2|]. unfold center_err, circ_terms.
  assert (E : / 2 ^ 48 * cond A B C = 32 * w_) by (unfold w_; rewrite u53v; field). rewrite E, <- u53v.
  assert (0 <= w_ * tx) by (apply Rmult_le_pos; lra). assert (0 <= w_ * ty) by (apply Rmult_le_pos; lra).
  assert (w_ * tx <= / 32 * tx) by (apply Rmult_le_compat_r; lra). assert (w_ * ty <= / 32 * ty) by (apply Rmult_le_compat_r; lra).
  replace (21 * w_ * tx) with (21 * (w_ * tx)) in E1 by ring. replace (21 * w_ * ty) with (21 * (w_ * ty)) in E2 by ring.
  cbn [rx ry rvec] in *. split; [lra|].
  assert (G : forall q v k s, Rabs (q - (v + k)) <= s -> Rabs (q - v) <= s + Rabs k).
  { intros q v k s Hq. replace (q - v) with ((q - (v + k)) + k) by ring. eapply Rle_trans; [apply Rabs_triang|]. lra. }
  apply G in E1. apply G in E2. lra.
Qed.
(** the squared radius *)
Definition exact_r2 := RNX / D * (RNX / D) + RNY / D * (RNY / D).
Lemma sq_err (x : b64) e s : is_finite x = true -> Rabs (B2R x - e) <= 19 * w_ * s -> Rabs e <= s -> 0 <= s -> s <= bp 400 -> u <= w_ <= / 32 ->
  is_finite (mul x x : b64) = true /\ Rabs (B2R (mul x x : b64) - e * e) <= 52 * w_ * (s * s) + eta.
Proof.
  intros Fx Ex He S0 S1 W. pose proof u0 as U. pose proof (one_bd x e s w_ Ex He S0 W) as Bx.
  assert (Bs : B2R x * B2R x <= 51 / 32 * s * (51 / 32 * s)) by (apply sq_abs; exact Bx).
  assert (SS : s * s <= bp 800). { change 800%Z with (400 + 400)%Z. rewrite bpow_plus. apply Rmult_le_compat; auto. }
  assert (X0 : 0 <= B2R x * B2R x) by apply Rle_0_sqr. assert (S2 : 0 <= s * s) by (apply Rmult_le_pos; auto).
  destruct (fmul_val x x Fx Fx) as (F & E).
  { rewrite Rabs_pos_eq by auto. apply Rle_trans with (bp 2 * bp 800); [change (bp 2) with 4; lra|rewrite bpadd; apply bpow_le; lia]. }
  split; [exact F|]. rewrite E. pose proof (rnd_any (B2R x * B2R x)) as R. rewrite (Rabs_pos_eq (B2R x * B2R x)) in R by auto.
  replace (rndF (B2R x * B2R x) - e * e) with ((rndF (B2R x * B2R x) - B2R x * B2R x) + (B2R x - e) * (B2R x + e)) by ring.
  eapply Rle_trans; [apply Rabs_triang|]. rewrite (Rabs_mult (B2R x - e)).
  assert (Q1 : Rabs (B2R x + e) <= 83 / 32 * s) by (eapply Rle_trans; [apply Rabs_triang|]; lra).
  assert (Q2 : Rabs (B2R x - e) * Rabs (B2R x + e) <= 19 * w_ * s * (83 / 32 * s)) by (apply Rmult_le_compat; auto using Rabs_pos).
  assert (Q3 : u * (B2R x * B2R x) <= u * (51 / 32 * s * (51 / 32 * s))) by (apply Rmult_le_compat_l; lra).
  assert (V : u * (s * s) <= w_ * (s * s)) by (apply Rmult_le_compat_r; lra).
  replace (19 * w_ * s * (83 / 32 * s)) with (1577 / 32 * (w_ * (s * s))) in Q2 by field.
  replace (u * (51 / 32 * s * (51 / 32 * s))) with (2601 / 1024 * (u * (s * s))) in Q3 by field.
  replace (52 * w_ * (s * s)) with (52 * (w_ * (s * s))) by ring. assert (0 <= w_ * (s * s)) by (apply Rmult_le_pos; lra). lra.
Qed.
Lemma r_err : is_finite (r_ : b64) = true /\ Rabs (B2R (r_ : b64) - exact_r2) <= 56 * w_ * (tx * tx + ty * ty) + 3 * eta.
Proof.
  destruct x_err as (Fx & Ex & Nx & Px & W), y_err as (Fy & Ey & Ny & Py & _), t_parts as (_ & _ & Sx & Sy). pose proof u0 as U.
  destruct (sq_err x_ _ _ Fx Ex Nx Px Sx W) as (F1 & E1). destruct (sq_err y_ _ _ Fy Ey Ny Py Sy W) as (F2 & E2).
  set (X := B2R (mul x_ x_ : b64)) in *. set (Y := B2R (mul y_ y_ : b64)) in *. set (ex2 := RNX / D) in *. set (ey2 := RNY / D) in *.
  assert (Tx : 0 <= tx * tx <= bp 800). { split; [apply Rmult_le_pos; auto|]. change 800%Z with (400 + 400)%Z. rewrite bpow_plus. apply Rmult_le_compat; auto. }
  assert (Ty : 0 <= ty * ty <= bp 800). { split; [apply Rmult_le_pos; auto|]. change 800%Z with (400 + 400)%Z. rewrite bpow_plus. apply Rmult_le_compat; auto. }
  set (T := tx * tx + ty * ty) in *.
  assert (E3 : Rabs (X + Y - exact_r2) <= 52 * (w_ * T) + 2 * eta).
  { unfold exact_r2. fold ex2 ey2. replace (X + Y - (ex2 * ex2 + ey2 * ey2)) with ((X - ex2 * ex2) + (Y - ey2 * ey2)) by ring. eapply Rle_trans; [apply Rabs_triang|].
    replace (52 * (w_ * T)) with (52 * w_ * (tx * tx) + 52 * w_ * (ty * ty)) by (unfold T; ring). lra. }
  assert (T0 : 0 <= T <= 2 * bp 800) by (unfold T; lra).
  assert (W1 : 0 <= w_ * T <= / 32 * T) by (split; [apply Rmult_le_pos; lra|apply Rmult_le_compat_r; lra]).
  assert (R0 : 0 <= exact_r2 <= T).
  { unfold exact_r2, T. fold ex2 ey2. pose proof (Rle_0_sqr ex2). pose proof (Rle_0_sqr ey2). pose proof (sq_abs _ _ Nx). pose proof (sq_abs _ _ Ny). unfold Rsqr in *. lra. }
  pose proof eta_pos as H0. assert (H1 : eta <= bp 800) by (apply bpow_le; lia).
  assert (XY : Rabs (X + Y) <= 84 / 32 * T + 2 * eta).
  { replace (X + Y) with ((X + Y - exact_r2) + exact_r2) by ring. eapply Rle_trans; [apply Rabs_triang|]. rewrite (Rabs_pos_eq exact_r2) by lra. lra. }
  destruct (fadd_val (mul x_ x_) (mul y_ y_) F1 F2) as (F & E).
  { fold X Y. apply Rle_trans with (bp 4 * bp 800); [change (bp 4) with 16; lra|rewrite bpadd; apply bpow_le; lia]. }
  split; [exact F|]. unfold r_. rewrite E. fold X Y. pose proof (rnd_sum X Y (fmt_B _) (fmt_B _)) as R.
  replace (rndF (X + Y) - exact_r2) with ((rndF (X + Y) - (X + Y)) + (X + Y - exact_r2)) by ring. eapply Rle_trans; [apply Rabs_triang|].
  assert (Q : u * Rabs (X + Y) <= u * (84 / 32 * T + 2 * eta)) by (apply Rmult_le_compat_l; lra).
  assert (V : u * T <= w_ * T) by (apply Rmult_le_compat_r; lra).
  assert (V2 : u * eta <= / 4 * eta) by (apply Rmult_le_compat_r; [lra|]; rewrite u53v; simpl; lra).
  replace (u * (84 / 32 * T + 2 * eta)) with (84 / 32 * (u * T) + 2 * (u * eta)) in Q by field.
  replace (56 * w_ * T) with (56 * (w_ * T)) by ring. lra.
Qed.
Lemma zeroF : is_finite (fofZ B64 0 : b64) = true /\ B2R (fofZ B64 0 : b64) = 0. Proof. split; reflexivity. Qed.
Lemma feq_nz (x : b64) : is_finite x = true -> B2R x <> 0 -> feq B64 x (fofZ B64 0) = false.
Proof. intros F N. destruct zeroF as (Fz & Ez). rewrite (fin_eq _ _ F Fz), Ez. destruct (Reqb_spec (B2R x) 0); [contradiction|reflexivity]. Qed.
Lemma dist_nz p q : dist2xy p q = 0 -> rx p = rx q /\ ry p = ry q.
Proof. unfold dist2xy. intros E. pose proof (Rle_0_sqr (rx p - rx q)) as S1. pose proof (Rle_0_sqr (ry p - ry q)) as S2. unfold Rsqr in *. split; apply Rminus_diag_uniq, Rsqr_0_uniq; unfold Rsqr; lra. Qed.
Lemma g4 : gamma 4 <= / 2. Proof. pose proof (gamma_lin 4 ltac:(lia)) as Q. simpl INR in Q. lra. Qed.
Lemma dist_pos (l : b64) p q : acc l (dist2xy p q) (dist2xy p q) 4 360 403 -> dist2xy p q <> 0 -> feq B64 l (fofZ B64 0) = false /\ bp (-361) <= dist2xy p q.
Proof.
  intros Q N. assert (P0 : 0 <= dist2xy p q) by exact (acc_p _ _ _ _ _ _ Q). destruct (acc_bound _ _ _ _ _ _ Q) as (F & E). pose proof g4 as G.
  assert (gamma 4 * dist2xy p q <= / 2 * dist2xy p q) by (apply Rmult_le_compat_r; auto). apply Rabs_le_inv in E.
  assert (Nz : B2R l <> 0) by lra. split; [apply feq_nz; auto|]. destruct Q as ((_ & _ & Gl & _) & _). pose proof (fix_lower _ _ Gl Nz) as L. rewrite Rabs_pos_eq in L by lra.
  replace (bp (-361)) with (bp (- (1)) * bp (-360)) by (rewrite bpadd; reflexivity). change (bp (- (1))) with (/ 2). change (bp (- (360))) with (bp (-360)) in L. lra.
Qed.
Lemma exact_circle : circle3 exact_center exact_r2 A B C.
Proof.
  destruct Hm as (N & _). pose proof (rcircumcenter_circle A B C N) as (Q1 & Q2 & Q3).
  assert (E : exact_center = rcircumcenter A B C). { unfold exact_center, rcircumcenter, RNX, RNY, dist2xy. f_equal; field; exact N. }
  assert (E2 : exact_r2 = dist2xy A (rcircumcenter A B C)). { rewrite <- E. unfold exact_center, exact_r2, dist2xy. cbn [rx ry]. ring. }
  rewrite E, E2. unfold circle3. auto.
Qed.
Lemma r2_lower : dist2xy A B <= 4 * exact_r2.
Proof.
  destruct exact_circle as (Q1 & Q2 & _). set (o := exact_center) in *. rewrite <- Q1 in *. unfold dist2xy in *.
  pose proof (Rle_0_sqr (rx A - rx o + (rx B - rx o))) as S1. pose proof (Rle_0_sqr (ry A - ry o + (ry B - ry o))) as S2. unfold Rsqr in *. lra.
Qed.
Lemma no_same : dist2xy B A <> 0 /\ dist2xy C A <> 0.
Proof. destruct Hm as (N & _). split; intros E; apply dist_nz in E; destruct E as (E1 & E2); apply N; unfold ccw; rewrite E1, E2; ring. Qed.
Lemma r_err2 : Rabs (B2R (r_ : b64) - exact_r2) <= radius_err A B C.
Proof.
  destruct r_err as (_ & E), t_parts as (Px & Py & _), x_err as (_ & _ & Nx & _ & W), y_err as (_ & _ & Ny & _). pose proof u0 as U.
  destruct (dist_pos _ _ _ bl_acc (proj1 no_same)) as (_ & L). pose proof r2_lower as L2. replace (dist2xy A B) with (dist2xy B A) in L2 by (unfold dist2xy; ring).
  pose proof (sq_abs _ _ Nx) as Sx. pose proof (sq_abs _ _ Ny) as Sy. unfold radius_err, circ_terms.
  assert (Z : exact_r2 <= tx * tx + ty * ty) by (unfold exact_r2; lra).
  assert (TT : tx * tx + ty * ty <= (tx + ty) * (tx + ty)). { assert (0 <= tx * ty) by (apply Rmult_le_pos; auto). replace ((tx + ty) * (tx + ty)) with (tx * tx + ty * ty + 2 * (tx * ty)) by ring. lra. }
  set (T := tx * tx + ty * ty) in *. set (S := (tx + ty) * (tx + ty)) in *.
  replace (/ 2 ^ 47 * cond A B C * S) with (64 * (w_ * S)) by (unfold w_; rewrite u53v; field). replace (56 * w_ * T) with (56 * (w_ * T)) in E by ring.
  assert (B1 : bp (-363) <= T). { replace (bp (-363)) with (bp (- (2)) * bp (-361)) by (rewrite bpadd; reflexivity). change (bp (- (2))) with (/ 4). lra. }
  assert (B2 : w_ * T <= w_ * S) by (apply Rmult_le_compat_l; lra).
  assert (B3 : eta <= w_ * T).
  { apply Rle_trans with (u * bp (-363)); [|apply Rmult_le_compat; try lra; apply bpow_ge_0]. replace u with (bp (-53)) by (rewrite u53v; rewrite bpow_powerRZ; reflexivity). rewrite bpadd. apply bpow_le. lia. }
  pose proof eta_pos. lra.
Qed.
Lemma rad_acc : radius_err A B C < exact_r2 -> circumradius a b c = r_ /\ is_finite (circumradius a b c : b64) = true /\ Rabs (B2R (circumradius a b c : b64) - exact_r2) <= radius_err A B C.
Proof.
  intros Hr. destruct r_err as (F & _). pose proof r_err2 as E. destruct no_same as (N1 & N2).
  assert (Eq : circumradius a b c = r_).
  { rewrite rad_eq. rewrite (proj1 (dist_pos _ _ _ bl_acc N1)), (proj1 (dist_pos _ _ _ cl_acc N2)).
    destruct (acc_bound _ _ _ _ _ _ d_acc) as (Fd & Ed).
    assert (Nd : B2R (d_ : b64) <> 0).
    { intros Z. rewrite Z in Ed. pose proof uq as Q. pose proof D0 as D1. replace (0 - D) with (- D) in Ed by ring. rewrite Rabs_Ropp in Ed.
      assert (G4 : gamma 4 <= 5 * u). { pose proof (gamma_lin 4 ltac:(lia)) as Q0. simpl INR in Q0. rewrite u53v. unfold Rdiv in Q0. lra. }
      assert (gamma 4 * cross_terms A B C <= 5 * u * cross_terms A B C) by (apply Rmult_le_compat_r; [exact (acc_p _ _ _ _ _ _ d_acc)|exact G4]). lra. }
    rewrite (feq_nz _ Fd Nd). rewrite feq_nz; [reflexivity|exact F|]. apply Rabs_le_inv in E. lra. }
  rewrite Eq. auto.
Qed.
End Circ.

(** degenerate triangles *)
Lemma rad_inf a b c : tame_xy a -> tame_xy b -> tame_xy c ->
  cross_terms (rvec a) (rvec b) (rvec c) = 0 \/ (rx (rvec b) = rx (rvec c) /\ ry (rvec b) = ry (rvec c)) \/ (rx (rvec a) = rx (rvec b) /\ ry (rvec a) = ry (rvec b)) \/ (rx (rvec a) = rx (rvec c) /\ ry (rvec a) = ry (rvec c)) ->
  circumradius a b c = infinity.
Proof.
  intros Ta Tb Tc H. rewrite rad_eq.
  assert (Z : feq B64 (d_ a b c) (fofZ B64 0) = true); [|rewrite Z, !orb_true_r; reflexivity].
  destruct (acc_bound _ _ _ _ _ _ (d_acc a b c Ta Tb Tc)) as (Fd & Ed). destruct zeroF as (Fz & Ez). rewrite (fin_eq _ _ Fd Fz), Ez.
  assert (E : B2R (d_ a b c : b64) = 0).
  { assert (K : cross_terms (rvec a) (rvec b) (rvec c) = 0 -> B2R (d_ a b c : b64) = 0).
    { intros K. destruct (d_acc a b c Ta Tb Tc) as (_ & _ & K2). rewrite K in *. rewrite Rmult_0_r in Ed. assert (ccw (rvec a) (rvec b) (rvec c) = 0) by (apply Rabs_le_inv in K2; lra). apply Rabs_le_inv in Ed. lra. }
    destruct H as [H|[(H1 & H2)|[(H1 & H2)|(H1 & H2)]]]; [auto| | |].
    - exact (cross_same a b c Ta Tb Tc H1 H2).
    - apply K. unfold cross_terms. rewrite H1, H2, !Rminus_eq_0, Rabs_R0. ring.
    - apply K. unfold cross_terms. rewrite H1, H2, !Rminus_eq_0, Rabs_R0. ring. }
  rewrite E. destruct (Reqb_spec 0 0); [reflexivity|contradiction].
Qed.
