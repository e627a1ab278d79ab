(** IntersectPlane of package r3 in binary64. *)
From Coq Require Import Reals Lra Lia ZArith QArith Bool List.
From Flocq Require Import Core Relative Plus_error BinarySingleNaN.
From Verif Require Import Base Arith M_r3 Spec_r3 Spec_near Spec_plane64 P_insphere_err P_insphere_b64 P_b64sc P_b64err P_b64hash P_b64laws P_b64rel P_b64norm P_b64interp.
Open Scope R_scope.

(** ** error of a dot product *)
Lemma abs3 x y z : Rabs (x + y + z) <= Rabs x + Rabs y + Rabs z.
Proof. apply Rle_trans with (1 := Rabs_triang _ _). pose proof (Rabs_triang x y). lra. Qed.
Lemma dot_real a b c p q r s d e S : 0 <= e -> Rabs a + Rabs b + Rabs c <= S ->
  Rabs (p - a) <= u * Rabs a + e -> Rabs (q - b) <= u * Rabs b + e -> Rabs (r - c) <= u * Rabs c + e ->
  Rabs (s - (p + q)) <= u * Rabs (p + q) -> Rabs (d - (s + r)) <= u * Rabs (s + r) -> Rabs (d - (a + b + c)) <= 4 * u * S + 4 * e.
Proof.
  intros He HS Hp Hq Hr Hs Hd. pose proof u_pos as U. pose proof (Rabs_pos a). pose proof (Rabs_pos b). pose proof (Rabs_pos c).
  assert (Ap : Rabs p <= (1 + u) * Rabs a + e) by (apply abs_split in Hp; lra). assert (Aq : Rabs q <= (1 + u) * Rabs b + e) by (apply abs_split in Hq; lra).
  assert (Ar : Rabs r <= (1 + u) * Rabs c + e) by (apply abs_split in Hr; lra).
  pose proof (Rabs_triang p q) as T1. pose proof (Rabs_triang s r) as T2.
  assert (As : Rabs s <= (1 + u) * (Rabs p + Rabs q)).
  { apply abs_split in Hs. assert (u * Rabs (p + q) <= u * (Rabs p + Rabs q)) by (apply Rmult_le_compat_l; lra). lra. }
  assert (E1 : u * Rabs (p + q) <= u * ((1 + u) * (Rabs a + Rabs b) + 2 * e)) by (apply Rmult_le_compat_l; lra).
  assert (As' : Rabs s <= (1 + u) * ((1 + u) * (Rabs a + Rabs b) + 2 * e)).
  { apply Rle_trans with (1 := As). apply Rmult_le_compat_l; lra. }
  assert (E2 : u * Rabs (s + r) <= u * ((1 + u) * ((1 + u) * (Rabs a + Rabs b) + 2 * e) + (1 + u) * Rabs c + e)) by (apply Rmult_le_compat_l; lra).
  replace (d - (a + b + c)) with ((d - (s + r)) + (s - (p + q)) + ((p - a) + (q - b) + (r - c))) by ring.
  apply Rle_trans with (1 := abs3 _ _ _). pose proof (abs3 (p - a) (q - b) (r - c)) as T3.
  set (ab := Rabs a + Rabs b) in *. assert (P : 0 <= ab) by (unfold ab; lra).
  assert (X1 : u * (u * ab) <= / 1000 * (u * ab)) by (apply Rmult_le_compat_r; [apply Rmult_le_pos|]; lra).
  assert (X2 : u * (u * (u * ab)) <= / 1000 * (u * ab)).
  { apply Rle_trans with (u * (u * ab)); [|lra]. assert (0 <= u * (u * ab)) by (repeat apply Rmult_le_pos; lra).
    rewrite <- (Rmult_1_l (u * (u * ab))) at 2. apply Rmult_le_compat_r; lra. }
  assert (X3 : u * (u * Rabs c) <= / 1000 * (u * Rabs c)) by (apply Rmult_le_compat_r; [apply Rmult_le_pos|]; lra).
  assert (X4 : u * e <= / 1000 * e) by (apply Rmult_le_compat_r; lra).
  assert (X5 : u * (u * e) <= / 1000 * e).
  { apply Rle_trans with (u * e); [|lra]. assert (0 <= u * e) by (apply Rmult_le_pos; lra). rewrite <- (Rmult_1_l (u * e)) at 2. apply Rmult_le_compat_r; lra. }
  assert (X6 : u * ab + u * Rabs c <= u * S) by (rewrite <- Rmult_plus_distr_l; apply Rmult_le_compat_l; [lra|exact HS]).
  assert (0 <= u * ab) by (apply Rmult_le_pos; lra). assert (0 <= u * Rabs c) by (apply Rmult_le_pos; lra).
  assert (X7 : u * Rabs a + u * Rabs b = u * ab) by (unfold ab; ring).
  lra.
Qed.
Definition abs_dot (a b : rv) : R := Rabs (rx a * rx b) + Rabs (ry a * ry b) + Rabs (rz a * rz b).
Lemma dot_err (a b : vec B64) : is_finite (Dot a b : b64) = true -> fin_vec a /\ fin_vec b /\ Rabs (B2R (Dot a b : b64) - rdot (rvec a) (rvec b)) <= 4 * u * abs_dot (rvec a) (rvec b) + 4 * eta.
Proof.
  intros F. unfold Dot in *. destruct (fin_add_inv _ _ F) as [F1 F2]. destruct (fin_add_inv _ _ F1) as [F3 F4].
  destruct (fin_mul_inv _ _ F2), (fin_mul_inv _ _ F3), (fin_mul_inv _ _ F4). split; [repeat split; assumption|]. split; [repeat split; assumption|].
  unfold rdot, abs_dot, rvec. cbn [rx ry rz].
  eapply (dot_real _ _ _ (B2R (fmul B64 (vx a) (vx b) : b64)) (B2R (fmul B64 (vy a) (vy b) : b64)) (B2R (fmul B64 (vz a) (vz b) : b64))
    (B2R (fadd B64 (fmul B64 (vx a) (vx b)) (fmul B64 (vy a) (vy b)) : b64))); [apply Rlt_le, eta_pos|apply Rle_refl| | | | | ].
  - rewrite fin_mul_val by assumption. apply rnd_any.
  - rewrite fin_mul_val by assumption. apply rnd_any.
  - rewrite fin_mul_val by assumption. apply rnd_any.
  - rewrite (fin_add_val _ _ F1). apply rnd_sum; apply fmt_B.
  - rewrite (fin_add_val _ _ F). apply rnd_sum; apply fmt_B.
Qed.
(** no overflow *)
Lemma dot_fin (a b : vec B64) : fin_vec a -> fin_vec b -> abs_dot (rvec a) (rvec b) <= bp 1010 -> is_finite (Dot a b : b64) = true.
Proof.
  intros (A1 & A2 & A3) (B1 & B2 & B3) H. unfold abs_dot, rvec in H. cbn [rx ry rz] in H.
  pose proof (Rabs_pos (B2R (vx a : b64) * B2R (vx b : b64))) as P1. pose proof (Rabs_pos (B2R (vy a : b64) * B2R (vy b : b64))) as P2. pose proof (Rabs_pos (B2R (vz a : b64) * B2R (vz b : b64))) as P3.
  assert (Bg : bp 1010 <= bp 1023) by (apply bpow_le; lia).
  destruct (fmul_val (vx a) (vx b) A1 B1 ltac:(lra)) as [G1 V1]. destruct (fmul_val (vy a) (vy b) A2 B2 ltac:(lra)) as [G2 V2]. destruct (fmul_val (vz a) (vz b) A3 B3 ltac:(lra)) as [G3 V3].
  assert (R : forall t, Rabs t <= bp 1010 -> Rabs (rndF t) <= bp 1010) by (intros t; apply rnd_abs_le; apply fmt_bp; lia).
  assert (B4 : bp 1010 * 4 <= bp 1023) by (change 4 with (bp 2); rewrite <- bpow_plus; apply bpow_le; lia).
  assert (B5 : 0 < bp 1010) by apply bpow_gt_0.
  assert (R1 : Rabs (rndF (B2R (vx a : b64) * B2R (vx b : b64))) <= bp 1010) by (apply R; lra). assert (R2 : Rabs (rndF (B2R (vy a : b64) * B2R (vy b : b64))) <= bp 1010) by (apply R; lra).
  assert (R3 : Rabs (rndF (B2R (vz a : b64) * B2R (vz b : b64))) <= bp 1010) by (apply R; lra).
  unfold Dot. destruct (fadd_val _ _ G1 G2) as [G4 V4].
  { rewrite V1, V2. apply Rle_trans with (1 := Rabs_triang _ _). lra. }
  destruct (fadd_val _ _ G4 G3) as [G5 _]; [|exact G5].
  rewrite V4, V3. apply Rle_trans with (1 := Rabs_triang _ _).
  assert (Rabs (rndF (B2R (fmul B64 (vx a) (vx b) : b64) + B2R (fmul B64 (vy a) (vy b) : b64))) <= bp 1010 * 2); [|lra].
  change 2 with (bp 1). rewrite <- bpow_plus. apply rnd_abs_le; [apply fmt_bp; lia|]. rewrite bpow_plus. change (bp 1) with 2.
  rewrite V1, V2. apply Rle_trans with (1 := Rabs_triang _ _). lra.
Qed.
Lemma fin_div_val (x y : b64) : is_finite (fdiv B64 x y : b64) = true -> is_finite y = true -> B2R y <> 0 ->
  is_finite x = true /\ B2R (fdiv B64 x y : b64) = rndF (B2R x / B2R y).
Proof.
  intros H Fy Ny. pose proof (Bdiv_correct 53 1024 b64_prec b64_pe mode_NE x y Ny) as C.
  assert (Fx : is_finite x = true).
  { clear C. destruct x as [[]|[]| |[] mx ex Bx], y as [[]|[]| |[] my ey By]; try discriminate; auto. }
  split; [exact Fx|]. destruct Rlt_bool; [apply C|]. apply over_inf in C. cbn [fdiv B64] in H. congruence.
Qed.

(** ** the sizes involved *)
Lemma size1_pos n : 0 <= size1 n.
Proof. unfold size1. pose proof (Rabs_pos (rx n)). pose proof (Rabs_pos (ry n)). pose proof (Rabs_pos (rz n)). lra. Qed.
Lemma abs_dot_le n a m : bounded3 m a -> abs_dot n a <= size1 n * m.
Proof.
  intros (H1 & H2 & H3). unfold abs_dot, size1. rewrite !Rabs_mult. rewrite !Rmult_plus_distr_r.
  repeat apply Rplus_le_compat; apply Rmult_le_compat_l; auto using Rabs_pos.
Qed.
Lemma dot_le n a m : bounded3 m a -> Rabs (rdot n a) <= size1 n * m.
Proof. intros H. apply Rle_trans with (2 := abs_dot_le n a m H). unfold rdot, abs_dot. apply abs3. Qed.

(** ** the direction *)
Lemma unit_comp x y z n : 0 < n -> n = sqrt (x * x + y * y + z * z) -> / 2 <= Rabs x / n \/ / 2 <= Rabs y / n \/ / 2 <= Rabs z / n.
Proof.
  intros P E. assert (Q : n * n = x * x + y * y + z * z) by (rewrite E; apply sqrt_sqrt; pose proof (sq_nonneg x); pose proof (sq_nonneg y); pose proof (sq_nonneg z); lra).
  assert (S : forall t, Rabs t / n < / 2 -> t * t <= / 4 * (n * n)).
  { intros t H. assert (H' : Rabs t < / 2 * n) by (apply Rmult_lt_reg_r with (/ n); [apply Rinv_0_lt_compat, P|]; rewrite Rmult_assoc, Rinv_r by lra; unfold Rdiv in H; lra).
    rewrite <- abs2. replace (/ 4 * (n * n)) with ((/ 2 * n) * (/ 2 * n)) by lra. pose proof (Rabs_pos t). apply Rmult_le_compat; lra. }
  destruct (Rle_or_lt (/ 2) (Rabs x / n)) as [A|A]; [auto|]. destruct (Rle_or_lt (/ 2) (Rabs y / n)) as [B|B]; [auto|]. destruct (Rle_or_lt (/ 2) (Rabs z / n)) as [C|C]; [auto|].
  exfalso. apply S in A, B, C. assert (0 < n * n) by (apply Rmult_lt_0_compat; auto). lra.
Qed.

Lemma eta_small1 : eta <= / 1000000.
Proof.
  apply Rle_trans with (bp (-20)); [apply bpow_le; lia|]. replace (bp (-20)) with (/ 1048576); [lra|].
  change (bp (-20)) with (/ IZR (2 ^ 20)). reflexivity.
Qed.
Lemma ulem k x : 0 <= k <= 1000 -> 0 <= x -> k * u * x <= / 1000 * x.
Proof. intros K X. apply Rmult_le_compat_r; auto. pose proof u_pos. apply Rle_trans with (1000 * u); [apply Rmult_le_compat_r; lra|lra]. Qed.
(** what Normalize gives, in the form used below *)
Lemma dir_facts (d : vec B64) : fin_vec d -> mid (rnorm (rvec d)) ->
  fin_vec (Normalize d) /\ close3 (7 * u + eta) (rvec (Normalize d)) (dirn (rvec d)) /\ bounded3 (101 / 100) (rvec (Normalize d)) /\ bounded3 1 (dirn (rvec d)) /\
  (49 / 100 <= Rabs (rx (rvec (Normalize d))) \/ 49 / 100 <= Rabs (ry (rvec (Normalize d))) \/ 49 / 100 <= Rabs (rz (rvec (Normalize d)))).
Proof.
  intros F M. pose proof (mid_pos _ M) as P. destruct (normalize_acc d F M) as (F' & A).
  destruct (comp_le (rx (rvec d)) (ry (rvec d)) (rz (rvec d))) as (C1 & C2 & C3).
  assert (G : forall x, Rabs x <= rnorm (rvec d) -> 0 <= Rabs x / rnorm (rvec d) <= 1 /\ Rabs (x / rnorm (rvec d)) = Rabs x / rnorm (rvec d)).
  { intros x H. pose proof (Rinv_0_lt_compat _ P) as Q. split; [split|].
    - apply Rmult_le_pos; [apply Rabs_pos|lra].
    - apply Rmult_le_reg_r with (1 := P). unfold Rdiv. rewrite Rmult_assoc, Rinv_l by lra. lra.
    - unfold Rdiv. rewrite Rabs_mult, (Rabs_pos_eq (/ rnorm (rvec d))) by lra. reflexivity. }
  destruct (G _ C1) as [G1 H1]. destruct (G _ C2) as [G2 H2]. destruct (G _ C3) as [G3 H3].
  pose proof (unit_comp (rx (rvec d)) (ry (rvec d)) (rz (rvec d)) (rnorm (rvec d)) P eq_refl) as U.
  destruct A as (A1 & A2 & A3). pose proof u_pos as Up. pose proof eta_pos as Ep. pose proof eta_small1 as Es.
  assert (K : forall r, 0 <= r <= 1 -> 7 * u * r <= 7 * u) by (intros r Hr; rewrite <- (Rmult_1_r (7 * u)) at 2; apply Rmult_le_compat_l; lra).
  pose proof (K _ G1) as K1. pose proof (K _ G2) as K2. pose proof (K _ G3) as K3.
  assert (Lw : forall w x, Rabs (w - x / rnorm (rvec d)) <= 7 * u * (Rabs x / rnorm (rvec d)) + eta -> 0 <= Rabs x / rnorm (rvec d) <= 1 -> Rabs (x / rnorm (rvec d)) = Rabs x / rnorm (rvec d) ->
     Rabs w <= 101 / 100 /\ (/ 2 <= Rabs x / rnorm (rvec d) -> 49 / 100 <= Rabs w)).
  { intros w x Hw Hr Hx. pose proof (K _ Hr). split.
    - apply abs_split in Hw. lra.
    - intros Hh. rewrite Rabs_minus_sym in Hw. apply abs_split in Hw. lra. }
  destruct (Lw _ _ A1 G1 H1) as [L1 L1']. destruct (Lw _ _ A2 G2 H2) as [L2 L2']. destruct (Lw _ _ A3 G3 H3) as [L3 L3'].
  split; [exact F'|]. split; [split; [apply Rle_trans with (1 := A1); lra|split; [apply Rle_trans with (1 := A2); lra|apply Rle_trans with (1 := A3); lra]]|]. split; [unfold bounded3; auto|]. split; [unfold bounded3, dirn; cbn [rx ry rz]; lra|].
  destruct U as [U|[U|U]]; auto.
Qed.
(** the dot product of the normal with the computed direction *)
Lemma den_facts (n d : vec B64) : fin_vec n -> fin_vec d -> mid (rnorm (rvec d)) -> size1 (rvec n) <= bp 1000 ->
  is_finite (Dot n (Normalize d) : b64) = true /\
  Rabs (B2R (Dot n (Normalize d) : b64) - rdot (rvec n) (rvec (Normalize d))) <= 5 * u * size1 (rvec n) + 4 * eta /\
  Rabs (B2R (Dot n (Normalize d) : b64) - rdot (rvec n) (dirn (rvec d))) <= 12 * u * size1 (rvec n) + 5 * eta * (1 + size1 (rvec n)) /\
  Rabs (B2R (Dot n (Normalize d) : b64)) <= 102 / 100 * size1 (rvec n) + 4 * eta.
Proof.
  intros Fn Fd M HL. destruct (dir_facts d Fd M) as (Fw & C & Bw & Bd & _). pose proof (size1_pos (rvec n)) as P. set (L := size1 (rvec n)) in *.
  pose proof (abs_dot_le (rvec n) _ _ Bw) as AD. fold L in AD. pose proof u_pos as Up. pose proof eta_pos as Ep.
  assert (F : is_finite (Dot n (Normalize d) : b64) = true).
  { apply dot_fin; auto. apply Rle_trans with (1 := AD). apply Rle_trans with (bp 1000 * 2); [lra|]. change 2 with (bp 1). rewrite bpadd. apply bpow_le. lia. }
  destruct (dot_err _ _ F) as (_ & _ & E). split; [exact F|].
  assert (E1 : Rabs (B2R (Dot n (Normalize d) : b64) - rdot (rvec n) (rvec (Normalize d))) <= 404 / 100 * (u * L) + 4 * eta).
  { apply Rle_trans with (1 := E). assert (u * abs_dot (rvec n) (rvec (Normalize d)) <= u * (L * (101 / 100))) by (apply Rmult_le_compat_l; lra). lra. }
  assert (uL : 0 <= u * L) by (apply Rmult_le_pos; lra). assert (eL : 0 <= eta * L) by (apply Rmult_le_pos; lra).
  assert (E2 : Rabs (rdot (rvec n) (rvec (Normalize d)) - rdot (rvec n) (dirn (rvec d))) <= L * (7 * u + eta)).
  { replace (rdot (rvec n) (rvec (Normalize d)) - rdot (rvec n) (dirn (rvec d))) with
      (rdot (rvec n) (RV (rx (rvec (Normalize d)) - rx (dirn (rvec d))) (ry (rvec (Normalize d)) - ry (dirn (rvec d))) (rz (rvec (Normalize d)) - rz (dirn (rvec d))))).
    - apply dot_le. exact C.
    - unfold rdot. cbn [rx ry rz]. ring. }
  split; [|split].
  - lra.
  - replace (B2R (Dot n (Normalize d) : b64) - rdot (rvec n) (dirn (rvec d))) with ((B2R (Dot n (Normalize d) : b64) - rdot (rvec n) (rvec (Normalize d))) + (rdot (rvec n) (rvec (Normalize d)) - rdot (rvec n) (dirn (rvec d)))) by ring.
    apply Rle_trans with (1 := Rabs_triang _ _). lra.
  - apply abs_split in E1. pose proof (dot_le (rvec n) _ _ Bw) as D. fold L in D. pose proof (ulem 1 L ltac:(lra) P). lra.
Qed.
Lemma finite_eq0 (x : b64) : is_finite x = true -> feq B64 x (fofZ B64 0) = true <-> B2R x = 0.
Proof.
  intros F. cbn [feq B64]. rewrite Beqb_correct by (auto; reflexivity).
  replace (B2R (fofZ B64 0 : b64)) with 0 by (cbn; lra). split.
  - intros H. destruct (Req_bool_spec (B2R x) 0); [assumption|discriminate].
  - intros ->. apply Req_bool_true. reflexivity.
Qed.

(** ** the panic test *)
Lemma plane_panic (p d n q : vec B64) : fin_vec n -> fin_vec d -> mid (rnorm (rvec d)) -> size1 (rvec n) <= bp 1000 ->
  IntersectPlane (mkLine p d) (mkPlane3D n q) = Panic ->
  Rabs (rdot (rvec n) (dirn (rvec d))) <= 12 * u * size1 (rvec n) + 5 * eta * (1 + size1 (rvec n)).
Proof.
  intros Fn Fd M HL H. destruct (den_facts n d Fn Fd M HL) as (F & _ & E & _). unfold IntersectPlane in H. cbn [p3Normal lDirection p3Vector lVector] in H.
  destruct (feq B64 (Dot n (Normalize d)) (fofZ B64 0)) eqn:Z; [|discriminate]. apply (finite_eq0 _ F) in Z. rewrite Z in E.
  rewrite Rabs_minus_sym, Rminus_0_r in E. exact E.
Qed.

(** ** the point *)
Lemma coord_real v w t q x M e : 0 <= e <= / 1000000 -> Rabs v <= M -> Rabs x <= M ->
  Rabs (q - t * w) <= u * Rabs (t * w) + e -> Rabs (x - (v + q)) <= u * Rabs (v + q) ->
  Rabs (x - v - t * w) <= 4 * u * M + 2 * e /\ Rabs (t * w) <= 21 / 10 * M + 2 * e.
Proof.
  intros He Hv Hx Hq Hs. pose proof u_pos as U. pose proof (Rabs_pos v) as P. pose proof (Rabs_pos (v + q)) as P1. pose proof (Rabs_pos (t * w)) as P2.
  assert (S : Rabs (v + q) <= 1002 / 1000 * M).
  { rewrite Rabs_minus_sym in Hs. apply abs_split in Hs. pose proof (ulem 1 _ ltac:(lra) P1). pose proof (ulem 1 _ ltac:(lra) P1). lra. }
  assert (Q : Rabs q <= 2003 / 1000 * M).
  { replace q with ((v + q) + - v) by ring. apply Rle_trans with (1 := Rabs_triang _ _). rewrite Rabs_Ropp. lra. }
  assert (T : Rabs (t * w) <= 2010 / 1000 * M + 101 / 100 * e).
  { rewrite Rabs_minus_sym in Hq. apply abs_split in Hq. pose proof (ulem 1 _ ltac:(lra) P2). lra. }
  split; [|lra]. replace (x - v - t * w) with ((x - (v + q)) + (q - t * w)) by ring. apply Rle_trans with (1 := Rabs_triang _ _).
  assert (u * Rabs (v + q) <= u * (1002 / 1000 * M)) by (apply Rmult_le_compat_l; lra).
  assert (u * Rabs (t * w) <= u * (2010 / 1000 * M + 101 / 100 * e)) by (apply Rmult_le_compat_l; lra).
  pose proof (ulem 1 e ltac:(lra) ltac:(lra)). assert (0 <= u * M) by (apply Rmult_le_pos; lra). lra.
Qed.
Lemma final_real (nw D N A B np nv nx s t L M e : R) : 0 <= L -> 0 <= M -> 0 < e <= / 1000000 -> D <> 0 ->
  Rabs (D - nw) <= 5 * u * L + 4 * e -> Rabs D <= 102 / 100 * L + 4 * e -> Rabs (t - N / D) <= u * Rabs (N / D) + e ->
  Rabs (N - (A - B)) <= u * Rabs (A - B) -> Rabs (A - np) <= 4 * u * (L * M) + 4 * e -> Rabs (B - nv) <= 4 * u * (L * M) + 4 * e ->
  Rabs np <= L * M -> Rabs nv <= L * M -> Rabs t <= 5 * M + 5 * e -> nx = nv + t * nw + s -> Rabs s <= L * (4 * u * M + 2 * e) ->
  Rabs (nx - np) <= 48 * u * (L * M) + 24 * e * (1 + L + M).
Proof.
  intros PL PM He D0 HD HD' Ht HN HA HB Hp Hv HT Ex Hs. pose proof u_pos as U. pose proof (Rabs_pos t) as Pt. pose proof (Rabs_pos (N / D)) as Pnd. pose proof (Rabs_pos D) as PD.
  assert (LM : 0 <= L * M) by (apply Rmult_le_pos; lra).
  assert (uLM : 0 <= u * (L * M)) by (apply Rmult_le_pos; lra). assert (eM : 0 <= e * M) by (apply Rmult_le_pos; lra). assert (eL : 0 <= e * L) by (apply Rmult_le_pos; lra). assert (ee : 0 <= e * e) by (apply Rmult_le_pos; lra).
  assert (ee' : e * e <= / 1000000 * e) by (apply Rmult_le_compat_r; lra).
  assert (ueM : u * (e * M) <= / 1000 * (e * M)) by (pose proof (ulem 1 (e * M) ltac:(lra) eM); lra). assert (ueL : u * (e * L) <= / 1000 * (e * L)) by (pose proof (ulem 1 (e * L) ltac:(lra) eL); lra).
  assert (uee : u * (e * e) <= / 1000 * (e * e)) by (pose proof (ulem 1 (e * e) ltac:(lra) ee); lra). assert (ue : u * e <= / 1000 * e) by (pose proof (ulem 1 e ltac:(lra) ltac:(lra)); lra).
  assert (ueeL : u * (e * L) * 1 <= / 1000 * (e * L)) by lra.
  assert (eeL : e * (e * L) <= / 1000000 * (e * L)) by (apply Rmult_le_compat_r; lra). assert (eeM : e * (e * M) <= / 1000000 * (e * M)) by (apply Rmult_le_compat_r; lra).
  (* t (nw - D) *)
  assert (X1 : Rabs (t * (nw - D)) <= (5 * M + 5 * e) * (5 * u * L + 4 * e)).
  { rewrite Rabs_mult. apply Rmult_le_compat; auto using Rabs_pos. rewrite Rabs_minus_sym. exact HD. }
  (* t D - N *)
  assert (Y : Rabs (N / D) <= 1002 / 1000 * (Rabs t + e)).
  { rewrite Rabs_minus_sym in Ht. apply abs_split in Ht. pose proof (ulem 1 _ ltac:(lra) Pnd). lra. }
  assert (X2 : Rabs (t * D - N) <= (102 / 100 * L + 4 * e) * (u * (502 / 100 * M + 7 * e) + e)).
  { replace (t * D - N) with (D * (t - N / D)) by (field; exact D0). rewrite Rabs_mult. apply Rmult_le_compat; auto using Rabs_pos.
    apply Rle_trans with (1 := Ht). assert (u * Rabs (N / D) <= u * (502 / 100 * M + 7 * e)) by (apply Rmult_le_compat_l; lra). lra. }
  pose proof (ulem 4 (L * M) ltac:(lra) LM) as v1.
  assert (X3 : Rabs (N - (A - B)) <= u * (202 / 100 * (L * M) + 8 * e)).
  { apply Rle_trans with (1 := HN). apply Rmult_le_compat_l; [lra|]. pose proof HA as HA'. pose proof HB as HB'. apply abs_split in HA', HB'.
    replace (A - B) with (A + - B) by ring. apply Rle_trans with (1 := Rabs_triang _ _). rewrite Rabs_Ropp. lra. }
  replace (nx - np) with (s + t * (nw - D) + ((t * D - N) + (N - (A - B)) + ((A - np) + - (B - nv)))) by (rewrite Ex; ring).
  apply Rle_trans with (1 := abs3 _ _ _). pose proof (abs3 (t * D - N) (N - (A - B)) ((A - np) + - (B - nv))) as Z1. pose proof (Rabs_triang (A - np) (- (B - nv))) as Z2. rewrite Rabs_Ropp in Z2.
  assert (Q1 : (5 * M + 5 * e) * (5 * u * L + 4 * e) = 25 * (u * (L * M)) + 20 * (e * M) + 25 * (u * (e * L)) + 20 * (e * e)) by ring.
  assert (Q2 : (102 / 100 * L + 4 * e) * (u * (502 / 100 * M + 7 * e) + e) = 51204 / 10000 * (u * (L * M)) + 714 / 100 * (u * (e * L)) + 102 / 100 * (e * L) + 2008 / 100 * (u * (e * M)) + 28 * (u * (e * e)) + 4 * (e * e)) by field.
  assert (Q3 : L * (4 * u * M + 2 * e) = 4 * (u * (L * M)) + 2 * (e * L)) by ring.
  assert (Q4 : u * (202 / 100 * (L * M) + 8 * e) = 202 / 100 * (u * (L * M)) + 8 * (u * e)) by field.
  assert (Q5 : 48 * u * (L * M) + 24 * e * (1 + L + M) = 48 * (u * (L * M)) + 24 * e + 24 * (e * L) + 24 * (e * M)) by ring.
  assert (Q6 : 4 * u * (L * M) = 4 * (u * (L * M))) by ring.
  lra.
Qed.
Lemma t_real t wx wy wz K : Rabs (t * wx) <= K -> Rabs (t * wy) <= K -> Rabs (t * wz) <= K -> 49 / 100 <= Rabs wx \/ 49 / 100 <= Rabs wy \/ 49 / 100 <= Rabs wz -> Rabs t <= 205 / 100 * K.
Proof.
  intros H1 H2 H3 [H|[H|H]]; rewrite !Rabs_mult in *; pose proof (Rabs_pos t) as P;
    match type of H with _ <= Rabs ?w => assert (Rabs t * (49 / 100) <= Rabs t * Rabs w) by (apply Rmult_le_compat_l; lra) end; lra.
Qed.
Lemma plane_point (p d n q x : vec B64) M : fin_vec n -> fin_vec d -> mid (rnorm (rvec d)) -> size1 (rvec n) <= bp 1000 ->
  IntersectPlane (mkLine p d) (mkPlane3D n q) = Ok x -> fin_vec x -> bounded3 M (rvec x) -> bounded3 M (rvec p) -> bounded3 M (rvec q) ->
  Rabs (rdot (rvec n) (rvec x) - rdot (rvec n) (rvec q)) <= 48 * u * (size1 (rvec n) * M) + 24 * eta * (1 + size1 (rvec n) + M) /\
  exists s, close3 (48 * u * M + 24 * eta * (1 + M)) (rvec x) (RV (rx (rvec p) + s * rx (rvec d)) (ry (rvec p) + s * ry (rvec d)) (rz (rvec p) + s * rz (rvec d))).
Proof.
  intros Fn Fd Md HL H Fx Bx Bp Bq. destruct (den_facts n d Fn Fd Md HL) as (FD & E1 & _ & E3). destruct (dir_facts d Fd Md) as (Fw & C & Bw & Bd & Hh).
  unfold IntersectPlane in H. cbn [p3Normal lDirection p3Vector lVector] in H.
  destruct (feq B64 (Dot n (Normalize d)) (fofZ B64 0)) eqn:Z; [discriminate|].
  assert (D0 : B2R (Dot n (Normalize d) : b64) <> 0) by (intros K; apply (finite_eq0 _ FD) in K; congruence). clear Z.
  assert (H' : x = Add p (Scaled (Normalize d) (fdiv B64 (fsub B64 (Dot n q) (Dot n p)) (Dot n (Normalize d))))) by congruence. clear H. subst x.
  set (w := Normalize d) in *. set (t := fdiv B64 (fsub B64 (Dot n q) (Dot n p)) (Dot n w)) in *.
  destruct Fx as (X1 & X2 & X3). unfold Add, Scaled in *. cbn [vx vy vz] in X1, X2, X3.
  destruct (fin_add_inv _ _ X1) as [_ Y1]. destruct (fin_add_inv _ _ X2) as [_ Y2]. destruct (fin_add_inv _ _ X3) as [_ Y3].
  destruct (fin_mul_inv _ _ Y1) as [Ft _]. destruct (fin_div_val _ _ Ft FD D0) as [FN Vt]. assert (Vt' : B2R (t : b64) = rndF (B2R (fsub B64 (Dot n q) (Dot n p) : b64) / B2R (Dot n w : b64))) by exact Vt. clear Vt.
  destruct (fin_sub_inv _ _ FN) as [FA FB]. destruct (dot_err _ _ FA) as (_ & _ & EA). destruct (dot_err _ _ FB) as (_ & _ & EB).
  pose proof (size1_pos (rvec n)) as PL. set (L := size1 (rvec n)) in *. pose proof u_pos as U. pose proof eta_pos as Ep. pose proof eta_small1 as Es.
  assert (PM : 0 <= M) by (destruct Bp as [B _]; pose proof (Rabs_pos (rx (rvec p))); lra).
  destruct Bx as (Bx1 & Bx2 & Bx3). destruct Bp as (Bp1 & Bp2 & Bp3). unfold rvec in Bx1, Bx2, Bx3, Bp1, Bp2, Bp3. cbn [rx ry rz vx vy vz] in Bx1, Bx2, Bx3, Bp1, Bp2, Bp3.
  assert (CR : forall a b : b64, is_finite (fadd B64 a (fmul B64 t b) : b64) = true -> is_finite (fmul B64 t b : b64) = true -> Rabs (B2R a) <= M -> Rabs (B2R (fadd B64 a (fmul B64 t b) : b64)) <= M ->
    Rabs (B2R (fadd B64 a (fmul B64 t b) : b64) - B2R a - B2R (t : b64) * B2R b) <= 4 * u * M + 2 * eta /\ Rabs (B2R (t : b64) * B2R b) <= 21 / 10 * M + 2 * eta).
  { intros a b F1 F2 Ha Hx. apply coord_real with (q := B2R (fmul B64 t b : b64)); auto; [lra| |].
    - rewrite (fin_mul_val _ _ F2). apply rnd_any.
    - rewrite (fin_add_val _ _ F1). apply rnd_sum; apply fmt_B. }
  destruct (CR _ _ X1 Y1 Bp1 Bx1) as [R1 T1]. destruct (CR _ _ X2 Y2 Bp2 Bx2) as [R2 T2]. destruct (CR _ _ X3 Y3 Bp3 Bx3) as [R3 T3].
  pose proof (t_real _ _ _ _ _ T1 T2 T3 Hh) as HT.
  split.
  - set (s := rdot (rvec n) (RV (B2R (fadd B64 (vx p) (fmul B64 t (vx w)) : b64) - B2R (vx p : b64) - B2R (t : b64) * B2R (vx w : b64))
       (B2R (fadd B64 (vy p) (fmul B64 t (vy w)) : b64) - B2R (vy p : b64) - B2R (t : b64) * B2R (vy w : b64))
       (B2R (fadd B64 (vz p) (fmul B64 t (vz w)) : b64) - B2R (vz p : b64) - B2R (t : b64) * B2R (vz w : b64)))).
    assert (Bp : bounded3 M (rvec p)) by (repeat split; assumption).
    pose proof (abs_dot_le (rvec n) _ _ Bq) as aq. pose proof (abs_dot_le (rvec n) _ _ Bp) as ap'. fold L in aq, ap'.
    assert (4 * u * abs_dot (rvec n) (rvec q) <= 4 * u * (L * M)) by (apply Rmult_le_compat_l; lra). assert (4 * u * abs_dot (rvec n) (rvec p) <= 4 * u * (L * M)) by (apply Rmult_le_compat_l; lra).
    apply final_real with (nw := rdot (rvec n) (rvec w)) (D := B2R (Dot n w : b64)) (N := B2R (fsub B64 (Dot n q) (Dot n p) : b64)) (A := B2R (Dot n q : b64)) (B := B2R (Dot n p : b64)) (nv := rdot (rvec n) (rvec p)) (s := s) (t := B2R (t : b64)); auto; try lra.
    + rewrite Vt'. apply rnd_any.
    + replace (B2R (fsub B64 (Dot n q) (Dot n p) : b64)) with (rndF (B2R (Dot n q : b64) - B2R (Dot n p : b64))) by (symmetry; exact (fin_sub_val _ _ FN)). unfold Rminus. apply rnd_sum; [|apply generic_format_opp]; apply fmt_B.
    + apply dot_le, Bq.
    + apply dot_le, Bp.
    + unfold s, rdot, rvec. cbn [rx ry rz vx vy vz]. ring.
    + unfold s. apply dot_le. repeat split; cbn [rx ry rz]; assumption.
  - exists (B2R (t : b64) / rnorm (rvec d)). pose proof (mid_pos _ Md) as P. destruct C as (C1 & C2 & C3).
    assert (G : forall a b x dd, Rabs (x - a - B2R (t : b64) * b) <= 4 * u * M + 2 * eta -> Rabs (b - dd / rnorm (rvec d)) <= 7 * u + eta -> Rabs (x - (a + B2R (t : b64) / rnorm (rvec d) * dd)) <= 48 * u * M + 24 * eta * (1 + M)).
    { intros a b x dd H1 H2. replace (x - (a + B2R (t : b64) / rnorm (rvec d) * dd)) with ((x - a - B2R (t : b64) * b) + B2R (t : b64) * (b - dd / rnorm (rvec d))) by (field; lra).
      apply Rle_trans with (1 := Rabs_triang _ _). rewrite Rabs_mult.
      assert (Rabs (B2R (t : b64)) * Rabs (b - dd / rnorm (rvec d)) <= (5 * M + 5 * eta) * (7 * u + eta)) by (apply Rmult_le_compat; auto using Rabs_pos; lra).
      assert (0 <= eta * M) by (apply Rmult_le_pos; lra). assert (0 <= u * M) by (apply Rmult_le_pos; lra).
      pose proof (ulem 1 eta ltac:(lra) ltac:(lra)). assert (eta * eta <= / 1000000 * eta) by (apply Rmult_le_compat_r; lra). lra. }
    split; [|split]; cbn [rx ry rz]; eapply G; eassumption.
Qed.

(** ** when a point is returned *)
Lemma rnd_bp x k : (-1074 <= k)%Z -> Rabs x <= bp k -> Rabs (rndF x) <= bp k.
Proof. intros K. apply rnd_abs_le, fmt_bp; lia. Qed.
Lemma fdiv_val (x y : b64) k : is_finite x = true -> B2R y <> 0 -> (-1074 <= k <= 1023)%Z -> Rabs (B2R x / B2R y) <= bp k ->
  is_finite (fdiv B64 x y : b64) = true /\ Rabs (B2R (fdiv B64 x y : b64)) <= bp k.
Proof.
  intros Fx Ny Hk H. pose proof (Bdiv_correct 53 1024 b64_prec b64_pe mode_NE x y Ny) as C.
  assert (B : Rabs (rndF (B2R x / B2R y)) <= bp k) by (apply rnd_bp; [lia|exact H]).
  rewrite Rlt_bool_true in C.
  - destruct C as (V & F & _). cbn [fdiv B64]. split; [rewrite F; exact Fx|]. rewrite V. exact B.
  - apply Rle_lt_trans with (1 := B). apply bpow_lt. lia.
Qed.
Lemma plane_ok (p d n q : vec B64) M : fin_vec n -> fin_vec d -> fin_vec p -> fin_vec q -> mid (rnorm (rvec d)) ->
  bp (-300) <= size1 (rvec n) <= bp 300 -> bounded3 M (rvec p) -> bounded3 M (rvec q) -> M <= bp 300 ->
  bp (-40) * size1 (rvec n) <= Rabs (rdot (rvec n) (dirn (rvec d))) -> exists x, IntersectPlane (mkLine p d) (mkPlane3D n q) = Ok x /\ fin_vec x.
Proof.
  intros Fn Fd Fp Fq Md [HL0 HL] Bp Bq HM HD. assert (HL' : size1 (rvec n) <= bp 1000) by (apply Rle_trans with (1 := HL); apply bpow_le; lia).
  destruct (den_facts n d Fn Fd Md HL') as (FD & _ & E & _). destruct (dir_facts d Fd Md) as (Fw & _ & Bw & _ & _).
  pose proof (size1_pos (rvec n)) as PL. set (L := size1 (rvec n)) in *. pose proof u_pos as U. pose proof eta_pos as Ep. pose proof eta_small1 as Es.
  assert (PM : 0 <= M) by (destruct Bp as [B _]; pose proof (Rabs_pos (rx (rvec p))); lra).
  assert (DL : bp (-341) <= Rabs (B2R (Dot n (Normalize d) : b64))).
  { assert (e1 : 12 * u * L <= / 100 * (bp (-40) * L)).
    { rewrite <- Rmult_assoc. apply Rmult_le_compat_r; [lra|]. rewrite u_val. change (bp (-40)) with (/ IZR (2 ^ 40)). cbn [Z.pow Z.pow_pos Pos.iter Z.mul Pos.mul]. lra. }
    assert (e2 : eta <= bp (-400) * bp (-300)) by (rewrite bpadd; apply bpow_le; lia).
    assert (e3 : bp (-400) * bp (-300) <= bp (-400) * L) by (apply Rmult_le_compat_l; [apply bpow_ge_0|exact HL0]).
    assert (e4 : bp (-400) * L <= / 1000 * (bp (-40) * L)).
    { rewrite <- Rmult_assoc. apply Rmult_le_compat_r; [lra|]. replace (-400)%Z with (-360 + -40)%Z by reflexivity. rewrite bpow_plus. apply Rmult_le_compat_r; [apply bpow_ge_0|].
      apply Rle_trans with (bp (-10)); [apply bpow_le; lia|]. change (bp (-10)) with (/ IZR (2 ^ 10)). cbn. lra. }
    assert (e5 : eta * L <= / 1000 * (bp (-40) * L)).
    { apply Rle_trans with (bp (-400) * L); [|exact e4]. apply Rmult_le_compat_r; [lra|]. apply bpow_le. lia. }
    rewrite Rabs_minus_sym in E. apply abs_split in E.
    assert (e6 : bp (-341) <= / 2 * (bp (-40) * L)).
    { apply Rle_trans with (/ 2 * (bp (-40) * bp (-300))); [rewrite bpadd; change (/ 2) with (bp (-1)); rewrite bpadd; apply bpow_le; lia|].
      apply Rmult_le_compat_l; [lra|]. apply Rmult_le_compat_l; [apply bpow_ge_0|exact HL0]. }
    assert (0 < bp (-341)) by apply bpow_gt_0. lra. }
  assert (D0 : B2R (Dot n (Normalize d) : b64) <> 0) by (intros K; rewrite K, Rabs_R0 in DL; pose proof (bpow_gt_0 radix2 (-341)); lra).
  assert (LM : L * M <= bp 600) by (replace 600%Z with (300 + 300)%Z by reflexivity; rewrite bpow_plus; apply Rmult_le_compat; lra).
  assert (LM0 : 0 <= L * M) by (apply Rmult_le_pos; lra).
  assert (one600 : 1 <= bp 600) by (change 1 with (bp 0); apply bpow_le; lia).
  assert (DF : forall a, fin_vec a -> bounded3 M (rvec a) -> is_finite (Dot n a : b64) = true /\ Rabs (B2R (Dot n a : b64)) <= bp 601).
  { intros a Fa Ba. pose proof (abs_dot_le (rvec n) _ _ Ba) as AD. fold L in AD.
    assert (F : is_finite (Dot n a : b64) = true). { apply dot_fin; auto. apply Rle_trans with (1 := AD). apply Rle_trans with (1 := LM). apply bpow_le. lia. }
    split; [exact F|]. destruct (dot_err _ _ F) as (_ & _ & Ea). apply abs_split in Ea. pose proof (dot_le (rvec n) _ _ Ba) as Da. fold L in Da.
    assert (4 * u * abs_dot (rvec n) (rvec a) <= 4 * u * (L * M)) by (apply Rmult_le_compat_l; lra). pose proof (ulem 4 (L * M) ltac:(lra) LM0).
    replace 601%Z with (600 + 1)%Z by reflexivity. rewrite bpow_plus. change (bp 1) with 2. lra. }
  destruct (DF q Fq Bq) as [FA SA]. destruct (DF p Fp Bp) as [FB SB].
  assert (SN : Rabs (B2R (Dot n q : b64) - B2R (Dot n p : b64)) <= bp 602).
  { replace 602%Z with (601 + 1)%Z by reflexivity. rewrite bpow_plus. change (bp 1) with 2. unfold Rminus. apply Rle_trans with (1 := Rabs_triang _ _). rewrite Rabs_Ropp. lra. }
  destruct (fsub_val _ _ FA FB) as [FN VN]. { apply Rle_trans with (1 := SN). apply bpow_le. lia. }
  assert (SN' : Rabs (B2R (fsub B64 (Dot n q) (Dot n p) : b64)) <= bp 602) by (rewrite VN; apply rnd_bp; [lia|exact SN]).
  destruct (fdiv_val (fsub B64 (Dot n q) (Dot n p)) (Dot n (Normalize d)) 943 FN D0) as [Ft St]; [lia| |].
  { unfold Rdiv. rewrite Rabs_mult, Rabs_inv. replace 943%Z with (602 + 341)%Z by reflexivity. rewrite bpow_plus.
    apply Rmult_le_compat; auto using Rabs_pos.
    - apply Rlt_le, Rinv_0_lt_compat. pose proof (bpow_gt_0 radix2 (-341)). lra.
    - change 341%Z with (- (-341))%Z. rewrite bpow_opp. apply Rinv_le; [apply bpow_gt_0|exact DL]. }
  unfold IntersectPlane. cbn [p3Normal lDirection p3Vector lVector].
  destruct (feq B64 (Dot n (Normalize d)) (fofZ B64 0)) eqn:Z; [exfalso; apply D0, (finite_eq0 _ FD), Z|].
  eexists. split; [reflexivity|]. set (t := fdiv B64 (fsub B64 (Dot n q) (Dot n p)) (Dot n (Normalize d))) in *.
  assert (G : forall a b : b64, is_finite a = true -> is_finite b = true -> Rabs (B2R a) <= M -> Rabs (B2R b) <= 101 / 100 -> is_finite (fadd B64 a (fmul B64 t b) : b64) = true).
  { intros a b Fa Fb Ha Hb. assert (S : Rabs (B2R (t : b64) * B2R b) <= bp 944).
    { rewrite Rabs_mult. replace 944%Z with (943 + 1)%Z by reflexivity. rewrite bpow_plus. change (bp 1) with 2. apply Rmult_le_compat; auto using Rabs_pos. lra. }
    destruct (fmul_val t b Ft Fb) as [F1 V1]. { apply Rle_trans with (1 := S). apply bpow_le. lia. }
    destruct (fadd_val a (fmul B64 t b) Fa F1) as [F2 _]; [|exact F2]. rewrite V1. apply Rle_trans with (1 := Rabs_triang _ _).
    assert (Rabs (rndF (B2R (t : b64) * B2R b)) <= bp 944) by (apply rnd_bp; [lia|exact S]).
    assert (bp 300 <= bp 944) by (apply bpow_le; lia). assert (bp 944 * 2 <= bp 1023) by (change 2 with (bp 1); rewrite bpadd; apply bpow_le; lia). lra. }
  destruct Fp as (P1 & P2 & P3). destruct Fw as (W1 & W2 & W3). destruct Bp as (B1 & B2 & B3). destruct Bw as (b1 & b2 & b3).
  split; [|split]; apply G; assumption.
Qed.
