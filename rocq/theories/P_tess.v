(** Proofs about the distance between the sphere and torus meshes and their surfaces. *)
From Coq Require Import Classical Reals Lra Lia Psatz ZArith List Bool.
From Verif Require Import Base Arith M_r3 Spec_r3 XRvec GoLoop P_nurbs M_shape Spec_shape Spec_shape2 Spec_tess P_shape P_shape2.
Import ListNotations.
Open Scope R_scope.

(** ** chords are not longer than arcs *)
Lemma sin_le_id x : 0 <= x -> sin x <= x.
Proof. intros [H| <-]; [left; apply sin_lt_x; exact H|rewrite sin_0; lra]. Qed.
Lemma sin_sq_le x : sin x * sin x <= x * x.
Proof.
  destruct (Rle_lt_dec 0 x) as [H|H].
  - destruct (Rle_lt_dec x 1) as [H1|H1].
    + pose proof (sin_le_id x H). assert (0 <= sin x) by (apply sin_ge_0; [exact H|pose proof PI2_1; lra]). nra.
    + pose proof (cs1 x). pose proof (Rle_0_sqr (cos x)). unfold Rsqr in *. nra.
  - destruct (Rle_lt_dec (- x) 1) as [H1|H1].
    + pose proof (sin_le_id (- x) ltac:(lra)) as S. rewrite sin_neg in S.
      assert (0 <= sin (- x)) as P by (apply sin_ge_0; [lra|pose proof PI2_1; lra]). rewrite sin_neg in P. nra.
    + pose proof (cs1 x). pose proof (Rle_0_sqr (cos x)). unfold Rsqr in *. nra.
Qed.
Lemma chord_le x : 2 * (1 - cos x) <= x * x.
Proof.
  replace (cos x) with (cos (2 * (x / 2))) by (f_equal; field). rewrite cos_2a_sin. pose proof (sin_sq_le (x / 2)). nra.
Qed.
Lemma chord2 u1 u2 : (cos u1 - cos u2) * (cos u1 - cos u2) + (sin u1 - sin u2) * (sin u1 - sin u2) <= (u1 - u2) * (u1 - u2).
Proof.
  pose proof (chord_le (u1 - u2)) as C. rewrite cos_minus in C. pose proof (cs1 u1). pose proof (cs1 u2). nra.
Qed.
(** surfaces of revolution: points (a cos v, a sin v, z) *)
Definition rev (a v z : R) : rv := RV (a * cos v) (a * sin v) z.
Lemma rev_d2 a1 v1 z1 a2 v2 z2 : 
  d2 (rev a1 v1 z1) (rev a2 v2 z2) = (a1 - a2) * (a1 - a2) + (z1 - z2) * (z1 - z2) + a1 * a2 * (2 * (1 - cos (v1 - v2))).
Proof.
  unfold d2, rev. cbn [rx ry rz]. rewrite cos_minus. pose proof (cs1 v1) as A. pose proof (cs1 v2) as B.
  replace ((a1 * cos v1 - a2 * cos v2) * (a1 * cos v1 - a2 * cos v2) + (a1 * sin v1 - a2 * sin v2) * (a1 * sin v1 - a2 * sin v2) + (z1 - z2) * (z1 - z2))
    with (a1 * a1 * (cos v1 * cos v1 + sin v1 * sin v1) + a2 * a2 * (cos v2 * cos v2 + sin v2 * sin v2) - 2 * a1 * a2 * (cos v1 * cos v2 + sin v1 * sin v2) + (z1 - z2) * (z1 - z2)) by ring.
  rewrite A, B. ring.
Qed.
Lemma rev_d2_le a1 v1 z1 a2 v2 z2 A E D : Rabs a1 <= A -> Rabs a2 <= A -> (a1 - a2) * (a1 - a2) + (z1 - z2) * (z1 - z2) <= E ->
  Rabs (v1 - v2) <= D -> d2 (rev a1 v1 z1) (rev a2 v2 z2) <= E + (A * D) * (A * D).
Proof.
  intros H1 H2 HE HD. rewrite rev_d2. pose proof (chord_le (v1 - v2)) as C. pose proof (COS_bound (v1 - v2)) as (_ & B).
  assert (P : a1 * a2 <= A * A).
  { apply Rle_trans with (Rabs (a1 * a2)); [apply Rle_abs|]. rewrite Rabs_mult. apply Rmult_le_compat; auto using Rabs_pos. }
  assert (V : (v1 - v2) * (v1 - v2) <= D * D).
  { replace ((v1 - v2) * (v1 - v2)) with (Rabs (v1 - v2) * Rabs (v1 - v2)) by (rewrite <- Rabs_mult; apply Rabs_pos_eq; nra).
    apply Rmult_le_compat; auto using Rabs_pos. }
  set (k := 2 * (1 - cos (v1 - v2))) in *. assert (0 <= k) by (unfold k; lra). clearbody k.
  assert (a1 * a2 * k <= A * A * (D * D)); [|nra].
  apply Rle_trans with (A * A * k); [apply Rmult_le_compat_r; auto|]. apply Rmult_le_compat_l; [nra|lra].
Qed.

(** ** Points of a triangle *)
Lemma d2_pos x y : 0 <= d2 x y.
Proof. unfold d2. pose proof (Rle_0_sqr (rx x - rx y)). pose proof (Rle_0_sqr (ry x - ry y)). pose proof (Rle_0_sqr (rz x - rz y)). unfold Rsqr in *. lra. Qed.
Lemma comb_norm a b c u v w r s : u + v + w = 1 -> 0 <= u -> 0 <= v -> 0 <= w ->
  d2 a origin = r * r -> d2 b origin = r * r -> d2 c origin = r * r -> d2 a b <= s -> d2 b c <= s -> d2 a c <= s ->
  let p := RV (u * rx a + v * rx b + w * rx c) (u * ry a + v * ry b + w * ry c) (u * rz a + v * rz b + w * rz c) in
  r * r - s / 3 <= d2 p origin <= r * r.
Proof.
  intros S Hu Hv Hw Ha Hb Hc Hab Hbc Hac p.
  assert (I : d2 p origin = r * r - (u * v * d2 a b + v * w * d2 b c + u * w * d2 a c)).
  { assert (J : d2 p origin = (u + v + w) * (u * d2 a origin + v * d2 b origin + w * d2 c origin) - (u * v * d2 a b + v * w * d2 b c + u * w * d2 a c)).
    { unfold d2, p, origin. cbn [rx ry rz]. ring. }
    rewrite J, S, Ha, Hb, Hc. nra. }
  rewrite I. pose proof d2_pos as Z.
  assert (0 <= u * v) by nra. assert (0 <= v * w) by nra. assert (0 <= u * w) by nra.
  pose proof (Z a b). pose proof (Z b c). pose proof (Z a c). clear Z I.
  assert (0 <= s) by lra. assert (T : u * v + v * w + u * w <= 1 / 3).
  { assert (w = 1 - u - v) by lra. subst w. pose proof (Rle_0_sqr (u - v)). pose proof (Rle_0_sqr (3 * u + 3 * v - 2)). unfold Rsqr in *. nra. }
  assert (u * v * d2 a b <= u * v * s) by (apply Rmult_le_compat_l; auto).
  assert (v * w * d2 b c <= v * w * s) by (apply Rmult_le_compat_l; auto).
  assert (u * w * d2 a c <= u * w * s) by (apply Rmult_le_compat_l; auto).
  assert ((u * v + v * w + u * w) * s <= 1 / 3 * s) by (apply Rmult_le_compat_r; auto).
  assert (0 <= u * v * d2 a b) by (apply Rmult_le_pos; auto). assert (0 <= v * w * d2 b c) by (apply Rmult_le_pos; auto).
  assert (0 <= u * w * d2 a c) by (apply Rmult_le_pos; auto). split; lra.
Qed.
(** every point is close to each corner *)
Lemma comb_near a b c u v w s : u + v + w = 1 -> 0 <= u -> 0 <= v -> 0 <= w -> d2 a b <= s -> d2 a c <= s ->
  d2 (RV (u * rx a + v * rx b + w * rx c) (u * ry a + v * ry b + w * ry c) (u * rz a + v * rz b + w * rz c)) a <= s.
Proof.
  intros S Hu Hv Hw Hab Hac.
  assert (I : d2 (RV (u * rx a + v * rx b + w * rx c) (u * ry a + v * ry b + w * ry c) (u * rz a + v * rz b + w * rz c)) a =
     u * d2 a a + v * d2 a b + w * d2 a c - (u * v * d2 a b + v * w * d2 b c + u * w * d2 a c)).
  { assert (u = 1 - v - w) by lra. subst u. unfold d2. cbn [rx ry rz]. ring. }
  pose proof d2_pos as Z.
  rewrite I. assert (0 <= u * v) by nra. assert (0 <= v * w) by nra. assert (0 <= u * w) by nra.
  pose proof (Z a b). pose proof (Z b c). pose proof (Z a c).
  assert (d2 a a = 0) by (unfold d2; ring). assert (0 <= s) by lra.
  assert (v * d2 a b <= v * s) by (apply Rmult_le_compat_l; auto). assert (w * d2 a c <= w * s) by (apply Rmult_le_compat_l; auto).
  assert (0 <= u * v * d2 a b) by (apply Rmult_le_pos; auto). assert (0 <= v * w * d2 b c) by (apply Rmult_le_pos; auto).
  assert (0 <= u * w * d2 a c) by (apply Rmult_le_pos; auto). nra.
Qed.

(** ** Polar coordinates *)
Lemma polar x y : exists v, 0 <= v < 2 * PI /\ x = sqrt (x * x + y * y) * cos v /\ y = sqrt (x * x + y * y) * sin v.
Proof.
  set (a := sqrt (x * x + y * y)). assert (A : a * a = x * x + y * y) by (apply sqrt_sqrt; nra). assert (A0 : 0 <= a) by apply sqrt_pos.
  pose proof PI_RGT_0 as P. destruct (Req_dec a 0) as [Z|NZ].
  { exists 0. assert (x * x = 0 /\ y * y = 0) as (X & Y) by (rewrite Z in A; nra). assert (x = 0) by nra. assert (y = 0) by nra. rewrite Z. split; [lra|]. split; lra. }
  assert (0 < a) by lra. set (t := x / a). assert (Tx : x = a * t) by (unfold t; field; lra).
  assert (T2 : t * t <= 1).
  { apply Rmult_le_reg_l with (a * a); [nra|]. rewrite Rmult_1_r. replace (a * a * (t * t)) with (x * x) by (rewrite Tx; ring).
    rewrite A. pose proof (Rle_0_sqr y). unfold Rsqr in *. lra. }
  assert (Tb : -1 <= t <= 1) by (split; nra).
  destruct (acos_bound t) as (B0 & B1).
  assert (Ct : cos (acos t) = t) by (apply cos_acos; exact Tb).
  assert (St : sin (acos t) = sqrt (1 - t²)) by (apply sin_acos; exact Tb).
  assert (S2 : sqrt (1 - t²) * sqrt (1 - t²) = 1 - t²) by (apply sqrt_sqrt; unfold Rsqr; nra). pose proof (sqrt_pos (1 - t²)) as S0.
  assert (Y2 : (a * sqrt (1 - t²)) * (a * sqrt (1 - t²)) = y * y) by (unfold Rsqr in *; nra).
  assert (Y1 : 0 <= a * sqrt (1 - t²)) by (apply Rmult_le_pos; lra).
  destruct (Rle_lt_dec 0 y) as [Hy|Hy].
  - exists (acos t). split; [split; lra|]. rewrite Ct, St. split; [exact Tx|]. nra.
  - destruct (Req_dec (acos t) 0) as [Z0|N0].
    { exfalso. rewrite Z0, sin_0 in St. rewrite <- St in Y2. nra. }
    exists (2 * PI - acos t). split; [split; lra|]. rewrite cos_minus, sin_minus, cos_2PI, sin_2PI, Ct, St. split; nra.
Qed.
(** the grid line below an angle *)
Lemma grid_floor n T x : (1 <= n)%Z -> 0 < T -> 0 <= x <= T -> exists i, (0 <= i < n)%Z /\ Rabs (x - IZR i * (T / IZR n)) <= T / IZR n.
Proof.
  intros Hn HT Hx. assert (Hn' : 1 <= IZR n) by (apply (IZR_le 1); exact Hn). set (h := T / IZR n).
  assert (Hh : 0 < h) by (apply Rdiv_lt_0_compat; lra). assert (Th : T = IZR n * h) by (unfold h; field; lra).
  destruct (Req_dec x T) as [->|NT].
  { exists (n - 1)%Z. split; [lia|]. rewrite minus_IZR, Th. rewrite Rabs_pos_eq; nra. }
  assert (Lt : x < T) by lra. pose proof (archimed (x / h)) as (U1 & U2). set (m := up (x / h)) in *.
  assert (Q : x = x / h * h) by (field; lra). assert (Q0 : 0 <= x / h) by (apply Rmult_le_pos; [lra|left; apply Rinv_0_lt_compat; exact Hh]).
  exists (m - 1)%Z. split.
  - split.
    + assert (0 < m)%Z by (apply lt_IZR; lra). lia.
    + assert (m - 1 < n)%Z; [|lia]. apply lt_IZR. rewrite minus_IZR. assert (x / h < IZR n); [|lra]. apply Rmult_lt_reg_r with h; [exact Hh|]. lra.
  - rewrite minus_IZR. set (q := x / h) in *. clearbody q. apply Rabs_le. split; nra.
Qed.

(** ** The sphere *)
Lemma svec_rev r u v : svec r u v = rev (r * cos u) v (r * sin u).
Proof. reflexivity. Qed.
Lemma tvec_rev R0 r u v : tvec R0 r u v = rev (R0 + r * cos u) v (r * sin u).
Proof. reflexivity. Qed.
Lemma abs_sq x h : Rabs x <= h -> x * x <= h * h.
Proof.
  intros H. replace (x * x) with (Rabs x * Rabs x) by (rewrite <- Rabs_mult; apply Rabs_pos_eq; nra).
  apply Rmult_le_compat; auto using Rabs_pos.
Qed.
Lemma rc_bound r u : 0 <= r -> Rabs (r * cos u) <= r.
Proof. intros H. rewrite Rabs_mult, (Rabs_pos_eq r H). pose proof (COS_bound u). assert (Rabs (cos u) <= 1) by (apply Rabs_le; lra). nra. Qed.
Lemma svec_d2 r u1 v1 u2 v2 h D : 0 <= r -> Rabs (u1 - u2) <= h -> Rabs (v1 - v2) <= D ->
  d2 (svec r u1 v1) (svec r u2 v2) <= r * r * (h * h + D * D).
Proof.
  intros Hr Hu Hv. rewrite !svec_rev. pose proof (chord2 u1 u2) as C. pose proof (abs_sq _ _ Hu) as U.
  apply Rle_trans with (r * r * (h * h) + (r * D) * (r * D)); [|lra].
  apply rev_d2_le; [apply rc_bound; exact Hr..| |exact Hv].
  replace ((r * cos u1 - r * cos u2) * (r * cos u1 - r * cos u2) + (r * sin u1 - r * sin u2) * (r * sin u1 - r * sin u2))
    with (r * r * ((cos u1 - cos u2) * (cos u1 - cos u2) + (sin u1 - sin u2) * (sin u1 - sin u2))) by ring.
  apply Rmult_le_compat_l; [nra|lra].
Qed.
Lemma tvec_d2 R0 r u1 v1 u2 v2 h D : 0 <= r -> 0 <= R0 -> Rabs (u1 - u2) <= h -> Rabs (v1 - v2) <= D ->
  d2 (tvec R0 r u1 v1) (tvec R0 r u2 v2) <= (r * h) * (r * h) + ((R0 + r) * D) * ((R0 + r) * D).
Proof.
  intros Hr HR Hu Hv. rewrite !tvec_rev. pose proof (chord2 u1 u2) as C. pose proof (abs_sq _ _ Hu) as U.
  assert (B : forall u, Rabs (R0 + r * cos u) <= R0 + r).
  { intros u. eapply Rle_trans; [apply Rabs_triang|]. rewrite (Rabs_pos_eq R0 HR). pose proof (rc_bound r u Hr). lra. }
  apply rev_d2_le; [apply B..| |exact Hv].
  replace ((R0 + r * cos u1 - (R0 + r * cos u2)) * (R0 + r * cos u1 - (R0 + r * cos u2)) + (r * sin u1 - r * sin u2) * (r * sin u1 - r * sin u2))
    with (r * r * ((cos u1 - cos u2) * (cos u1 - cos u2) + (sin u1 - sin u2) * (sin u1 - sin u2))) by ring.
  replace (r * h * (r * h)) with (r * r * (h * h)) by ring. apply Rmult_le_compat_l; [nra|lra].
Qed.
Lemma d2_sym p q : d2 p q = d2 q p.
Proof. unfold d2. ring. Qed.
Lemma sph_on r u v : d2 (svec r u v) origin = r * r.
Proof.
  unfold d2, svec, origin. cbn [rx ry rz]. pose proof (cs1 u) as A. pose proof (cs1 v) as B.
  replace ((r * cos u * cos v - 0) * (r * cos u * cos v - 0) + (r * cos u * sin v - 0) * (r * cos u * sin v - 0) + (r * sin u - 0) * (r * sin u - 0))
    with (r * r * (cos u * cos u * (cos v * cos v + sin v * sin v) + sin u * sin u)) by ring.
  rewrite B, Rmult_1_r, A. ring.
Qed.
(** neighbouring angles *)
Lemma sph_near st i : (1 <= st)%Z -> Rabs (sph_angle st i - sph_angle st (i + 1)) <= PI / IZR st.
Proof.
  intros H. assert (1 <= IZR st) by (apply (IZR_le 1); exact H). unfold sph_angle. rewrite plus_IZR.
  replace (PI / 2 - IZR i * (PI / IZR st) - (PI / 2 - (IZR i + 1) * (PI / IZR st))) with (PI / IZR st) by ring.
  rewrite Rabs_pos_eq; [lra|]. pose proof PI_RGT_0. apply Rmult_le_pos; [lra|]. left. apply Rinv_0_lt_compat. lra.
Qed.
Lemma tor_near st i : (1 <= st)%Z -> Rabs (tor_angle st i - tor_angle st (i + 1)) <= 2 * PI / IZR st.
Proof.
  intros H. assert (1 <= IZR st) by (apply (IZR_le 1); exact H). unfold tor_angle. rewrite plus_IZR.
  replace (PI / 2 - IZR i * (2 * PI / IZR st) - (PI / 2 - (IZR i + 1) * (2 * PI / IZR st))) with (2 * PI / IZR st) by ring.
  rewrite Rabs_pos_eq; [lra|]. pose proof PI_RGT_0. apply Rmult_le_pos; [lra|]. left. apply Rinv_0_lt_compat. lra.
Qed.
Lemma vang_near sc j : (1 <= sc)%Z -> Rabs (vang sc j - vang sc (j + 1)) <= 2 * PI / IZR sc.
Proof.
  intros H. assert (1 <= IZR sc) by (apply (IZR_le 1); exact H). unfold vang. rewrite plus_IZR.
  replace (IZR j * (2 * PI / IZR sc) - (IZR j + 1) * (2 * PI / IZR sc)) with (- (2 * PI / IZR sc)) by ring.
  rewrite Rabs_Ropp, Rabs_pos_eq; [lra|]. pose proof PI_RGT_0. apply Rmult_le_pos; [lra|]. left. apply Rinv_0_lt_compat. lra.
Qed.
Lemma abs0 x h : 0 <= h -> Rabs (x - x) <= h.
Proof. intros H. rewrite Rminus_diag_eq by reflexivity. rewrite Rabs_R0. exact H. Qed.
Lemma step_pos T n : 0 < T -> (1 <= n)%Z -> 0 <= T / IZR n.
Proof. intros H Hn. assert (1 <= IZR n) by (apply (IZR_le 1); exact Hn). apply Rmult_le_pos; [lra|]. left. apply Rinv_0_lt_compat. lra. Qed.
(** any two corners of a triangle of the grid are neighbours in both directions *)
Section Tri.
Context (sc st : Z) (Hsc : (1 <= sc)%Z) (Hst : (2 <= st)%Z) (pos : Z -> rv) (f : Z -> Z -> rv)
  (Hpos : forall i j, (0 <= i < st)%Z -> (0 <= j <= sc)%Z -> pos (at_ sc i j) = f i j) (s : R).
Context (near : forall i j i' j', (i' = i \/ i' = i + 1)%Z -> (j' = j \/ j' = j + 1 \/ j' = j - 1)%Z -> d2 (f i j) (f i' j') <= s).
Lemma tri_near x y z : In (x, y, z) (grid_tris sc st) ->
  (exists i j i2 j2 i3 j3, (0 <= i < st)%Z /\ (0 <= j <= sc)%Z /\ (0 <= i2 < st)%Z /\ (0 <= j2 <= sc)%Z /\ (0 <= i3 < st)%Z /\ (0 <= j3 <= sc)%Z /\
     pos x = f i j /\ pos y = f i2 j2 /\ pos z = f i3 j3) /\
  d2 (pos x) (pos y) <= s /\ d2 (pos y) (pos z) <= s /\ d2 (pos x) (pos z) <= s.
Proof.
  intros H. apply tris_kind in H; [|exact Hst]. destruct H as (i & j & Hj & [[Q Hi]|[Q Hi]]); unfold TA, TB in Q; injection Q as -> -> ->; rewrite !Hpos by lia.
  - split; [exists i, (j + 1)%Z, (i + 1)%Z, j, (i + 1)%Z, (j + 1)%Z; repeat split; lia|].
    split; [apply near; lia|]. split; apply near; lia.
  - split; [exists i, j, (i + 1)%Z, j, i, (j + 1)%Z; repeat split; lia|].
    split; [apply near; lia|]. split; [rewrite d2_sym; apply near; lia|apply near; lia].
Qed.
(** every vertex position is a point of the mesh *)
Context (wrap : forall i, (0 <= i < st)%Z -> f i sc = f i 0%Z).
Lemma corner_in a b c : in_triangle a b c a /\ in_triangle a b c b /\ in_triangle a b c c.
Proof.
  split; [|split]; [exists 1, 0, 0|exists 0, 1, 0|exists 0, 0, 1]; (repeat split; try lra); destruct a as [a1 a2 a3], b as [b1 b2 b3], c as [c1 c2 c3]; cbn [rx ry rz]; f_equal; ring.
Qed.
Lemma vertex_in_mesh i j : (0 <= i < st)%Z -> (0 <= j < sc)%Z -> in_mesh pos (grid_tris sc st) (f i j).
Proof.
  intros Hi Hj. destruct (Z.eq_dec i 0) as [->|Ni].
  - destruct (Z.eq_dec j 0) as [->|Nj].
    + rewrite <- wrap by lia. exists (at_ sc 0 (sc - 1 + 1)), (at_ sc (0 + 1) (sc - 1)), (at_ sc (0 + 1) (sc - 1 + 1)). split.
      * apply tris_kind; [exact Hst|]. exists 0%Z, (sc - 1)%Z. split; [lia|]. left. split; [reflexivity|lia].
      * rewrite (Hpos 0 (sc - 1 + 1)) by lia. replace (sc - 1 + 1)%Z with sc by lia. apply corner_in.
    + exists (at_ sc 0 (j - 1 + 1)), (at_ sc (0 + 1) (j - 1)), (at_ sc (0 + 1) (j - 1 + 1)). split.
      * apply tris_kind; [exact Hst|]. exists 0%Z, (j - 1)%Z. split; [lia|]. left. split; [reflexivity|lia].
      * rewrite (Hpos 0 (j - 1 + 1)) by lia. replace (j - 1 + 1)%Z with j by lia. apply corner_in.
  - exists (at_ sc (i - 1) (j + 1)), (at_ sc (i - 1 + 1) j), (at_ sc (i - 1 + 1) (j + 1)). split.
    + apply tris_kind; [exact Hst|]. exists (i - 1)%Z, j. split; [lia|]. left. split; [reflexivity|lia].
    + rewrite (Hpos (i - 1 + 1) j) by lia. replace (i - 1 + 1)%Z with i by lia. apply corner_in.
Qed.
End Tri.
Lemma sphere_points (c : vec XR) r sc st : 0 < r -> (1 <= sc)%Z -> (2 <= st)%Z -> (st * (sc + 1) <= 2 ^ 32)%Z ->
  exists m, sphereConstruct XT c (Fin r) sc st = Ok m /\
   (forall p, in_mesh (posn (mVertices m)) (triangles_of (mIndices m)) p -> r * r * (1 - grid_step2 sc st / 3) <= d2 p origin <= r * r) /\
   (forall q, d2 q origin = r * r -> exists p, in_mesh (posn (mVertices m)) (triangles_of (mIndices m)) p /\ d2 p origin = r * r /\ d2 q p <= r * r * grid_step2 sc st).
Proof.
  intros Hr Hsc Hst Hl. destruct (sphere_value c r sc st Hsc Hst Hl) as (m & E & L & HI & HV & _).
  exists m. split; [exact E|]. rewrite HI, triangles_flat3. pose proof PI_RGT_0 as P.
  assert (Hpos : forall i j, (0 <= i < st)%Z -> (0 <= j <= sc)%Z -> posn (mVertices m) (at_ sc i j) = sph_pos r sc st i j) by (intros i j Hi Hj; apply posn_fv, HV; auto).
  assert (near : forall i j i' j', (i' = i \/ i' = i + 1)%Z -> (j' = j \/ j' = j + 1 \/ j' = j - 1)%Z -> d2 (sph_pos r sc st i j) (sph_pos r sc st i' j') <= r * r * grid_step2 sc st).
  { intros i j i' j' Hi Hj. rewrite !sph_svec. apply svec_d2; [lra| |].
    - destruct Hi as [->| ->]; [apply abs0, step_pos; [exact P|lia]|apply sph_near; lia].
    - destruct Hj as [->|[->| ->]]; [apply abs0, step_pos; [lra|lia]|apply vang_near; lia|].
      rewrite <- (Z.sub_add 1 j) at 1. rewrite Rabs_minus_sym. apply vang_near. lia. }
  split.
  - intros p (x & y & z & Ht & u & v & w & Hu & Hv & Hw & S & ->).
    destruct (tri_near sc st Hst _ _ Hpos _ near x y z Ht) as ((i & j & i2 & j2 & i3 & j3 & _ & _ & _ & _ & _ & _ & Px & Py & Pz) & D1 & D2 & D3).
    pose proof (comb_norm (posn (mVertices m) x) (posn (mVertices m) y) (posn (mVertices m) z) u v w r (r * r * grid_step2 sc st) S Hu Hv Hw) as C.
    cbv zeta in C. assert (Q : forall i j, d2 (sph_pos r sc st i j) origin = r * r) by (intros; rewrite sph_svec; apply sph_on).
    specialize (C ltac:(rewrite Px; apply Q) ltac:(rewrite Py; apply Q) ltac:(rewrite Pz; apply Q) D1 D2 D3). lra.
  - intros q Hq. destruct q as [qx qy qz]. unfold d2, origin in Hq. cbn [rx ry rz] in Hq.
    destruct (polar qx qy) as (v & Hv & Ex & Ey). set (a := sqrt (qx * qx + qy * qy)) in *.
    assert (A2 : a * a = qx * qx + qy * qy) by (apply sqrt_sqrt; nra). assert (A0 : 0 <= a) by apply sqrt_pos.
    assert (Hq' : a * a + qz * qz = r * r) by lra. clear Hq.
    destruct (polar qz a) as (w & Hw & Ez & Ea). replace (sqrt (qz * qz + a * a)) with r in *.
    2:{ symmetry. replace (qz * qz + a * a) with (r * r) by lra. apply sqrt_square. lra. }
    assert (Wp : w <= PI).
    { destruct (Rle_lt_dec w PI) as [W|W]; [exact W|]. exfalso. assert (sin w < 0) by (apply sin_lt_0; lra). nra. }
    destruct (grid_floor st PI w ltac:(lia) P (conj (proj1 Hw) Wp)) as (i & Hi & Di).
    destruct (grid_floor sc (2 * PI) v Hsc ltac:(lra) ltac:(lra)) as (j & Hj & Dj).
    exists (sph_pos r sc st i j). split; [|split].
    + apply (vertex_in_mesh sc st Hsc Hst _ _ Hpos); [|exact Hi|exact Hj].
      intros i' Hi'. rewrite !sph_svec. unfold svec. destruct (vang_wrap sc Hsc) as [-> ->]. rewrite vang_0, cos_0, sin_0. reflexivity.
    + rewrite sph_svec. apply sph_on.
    + rewrite sph_svec. replace (RV qx qy qz) with (svec r (PI / 2 - w) v).
      * apply svec_d2; [lra| |exact Dj]. unfold sph_angle.
        replace (PI / 2 - w - (PI / 2 - IZR i * (PI / IZR st))) with (- (w - IZR i * (PI / IZR st))) by ring. rewrite Rabs_Ropp. exact Di.
      * unfold svec. rewrite cos_shift, sin_shift, <- Ea, <- Ez, <- Ex, <- Ey. reflexivity.
Qed.
Lemma torus_points (c : vec XR) R0 r sc st : 0 < r -> 0 <= R0 -> (1 <= sc)%Z -> (2 <= st)%Z -> (st * (sc + 1) <= 2 ^ 32)%Z ->
  exists m, torusConstruct XT c (Fin R0) (Fin r) sc st = Ok m /\
   (forall p, in_mesh (posn (mVertices m)) (triangles_of (mIndices m)) p -> exists u v, d2 p (tvec R0 r u v) <= torus_step2 R0 r sc st) /\
   (forall q, on_torus origin R0 r q -> exists p, in_mesh (posn (mVertices m)) (triangles_of (mIndices m)) p /\ d2 q p <= torus_step2 R0 r sc st).
Proof.
  intros Hr HR Hsc Hst Hl. destruct (torus_value c R0 r sc st Hsc Hst Hl) as (m & E & L & HI & HV & _).
  exists m. split; [exact E|]. rewrite HI, triangles_flat3. pose proof PI_RGT_0 as P.
  assert (Hpos : forall i j, (0 <= i < st)%Z -> (0 <= j <= sc)%Z -> posn (mVertices m) (at_ sc i j) = tor_pos R0 r sc st i j) by (intros i j Hi Hj; apply posn_fv, HV; auto).
  assert (near : forall i j i' j', (i' = i \/ i' = i + 1)%Z -> (j' = j \/ j' = j + 1 \/ j' = j - 1)%Z -> d2 (tor_pos R0 r sc st i j) (tor_pos R0 r sc st i' j') <= torus_step2 R0 r sc st).
  { intros i j i' j' Hi Hj. rewrite !tor_tvec. apply tvec_d2; [lra|exact HR| |].
    - destruct Hi as [->| ->]; [apply abs0, step_pos; [lra|lia]|apply tor_near; lia].
    - destruct Hj as [->|[->| ->]]; [apply abs0, step_pos; [lra|lia]|apply vang_near; lia|].
      rewrite <- (Z.sub_add 1 j) at 1. rewrite Rabs_minus_sym. apply vang_near. lia. }
  split.
  - intros p (x & y & z & Ht & u & v & w & Hu & Hv & Hw & S & ->).
    destruct (tri_near sc st Hst _ _ Hpos _ near x y z Ht) as ((i & j & i2 & j2 & i3 & j3 & _ & _ & _ & _ & _ & _ & Px & Py & Pz) & D1 & D2 & D3).
    exists (tor_angle st i), (vang sc j). rewrite <- (tor_tvec R0 r sc st i j), <- Px. apply comb_near; assumption.
  - intros q Hq. destruct q as [qx qy qz]. unfold on_torus, origin in Hq. cbn [rx ry rz] in Hq. rewrite !Rminus_0_r in Hq. unfold Rsqr in Hq.
    destruct (polar qx qy) as (v & Hv & Ex & Ey). set (a := sqrt (qx * qx + qy * qy)) in *.
    destruct (polar qz (a - R0)) as (w & Hw & Ez & Ea). replace (sqrt (qz * qz + (a - R0) * (a - R0))) with r in *.
    2:{ symmetry. replace (qz * qz + (a - R0) * (a - R0)) with (r * r) by lra. apply sqrt_square. lra. }
    destruct (grid_floor st (2 * PI) w ltac:(lia) ltac:(lra) ltac:(lra)) as (i & Hi & Di).
    destruct (grid_floor sc (2 * PI) v Hsc ltac:(lra) ltac:(lra)) as (j & Hj & Dj).
    exists (tor_pos R0 r sc st i j). split.
    + apply (vertex_in_mesh sc st Hsc Hst _ _ Hpos); [|exact Hi|exact Hj].
      intros i' Hi'. rewrite !tor_tvec. unfold tvec. destruct (vang_wrap sc Hsc) as [-> ->]. rewrite vang_0, cos_0, sin_0. reflexivity.
    + rewrite tor_tvec. replace (RV qx qy qz) with (tvec R0 r (PI / 2 - w) v).
      * apply tvec_d2; [lra|exact HR| |exact Dj]. unfold tor_angle.
        replace (PI / 2 - w - (PI / 2 - IZR i * (2 * PI / IZR st))) with (- (w - IZR i * (2 * PI / IZR st))) by ring. rewrite Rabs_Ropp. exact Di.
      * unfold tvec. rewrite cos_shift, sin_shift, <- Ea, <- Ez. replace (R0 + (a - R0)) with a by ring. rewrite <- Ex, <- Ey. reflexivity.
Qed.
