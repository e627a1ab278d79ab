(** Delaunay triangulations maximise the smallest angle and minimise the largest enclosing circle. *)
From Coq Require Import ZArith Lia List Bool Reals Lra Classical Nsatz.
From Verif Require Import Base Arith M_r3 Spec_r3 Spec_plane Spec_halfedge Spec_delaunay Spec_delaunay2 Spec_delaunay3 XRvec P_delcomp.
Import ListNotations.
Open Scope R_scope.

(** ** angles and cotangents *)
Definition dotp (p q r : rv) : R := (rx q - rx p) * (rx r - rx p) + (ry q - ry p) * (ry r - ry p).
Lemma lagrange p q r : dist2xy q p * dist2xy r p = dotp p q r * dotp p q r + ccw p q r * ccw p q r.
Proof. unfold dist2xy, dotp, ccw. ring. Qed.
Lemma angle_atan p q r : ccw p q r < 0 -> angle p q r = PI / 2 - atan (dotp p q r / - ccw p q r).
Proof.
  intros H. unfold angle. fold (dotp p q r). set (D := dotp p q r). set (X := - ccw p q r). assert (HX : 0 < X) by (unfold X; lra).
  rewrite <- sqrt_mult by apply d2_nonneg. rewrite lagrange. fold D. replace (ccw p q r * ccw p q r) with (X * X) by (unfold X; ring).
  assert (E : D / sqrt (D * D + X * X) = sin (atan (D / X))).
  { rewrite sin_atan. unfold Rsqr. replace (D * D + X * X) with ((X * X) * (1 + D / X * (D / X))) by (field; lra).
    assert (0 <= D / X * (D / X)) by apply (Rle_0_sqr (D / X)).
    rewrite sqrt_mult, sqrt_square; try lra; [|apply Rmult_le_pos; lra].
    assert (0 < sqrt (1 + D / X * (D / X))) by (apply sqrt_lt_R0; lra). field. lra. }
  rewrite E, <- cos_shift. apply acos_cos. pose proof (atan_bound (D / X)). lra.
Qed.
Lemma angle_le p q r p' q' r' : ccw p q r < 0 -> ccw p' q' r' < 0 -> dotp p q r * - ccw p' q' r' <= dotp p' q' r' * - ccw p q r ->
  angle p' q' r' <= angle p q r.
Proof.
  intros H H' L. rewrite !angle_atan by auto.
  assert (dotp p q r / - ccw p q r <= dotp p' q' r' / - ccw p' q' r').
  { apply Rmult_le_reg_r with (- ccw p q r); [lra|]. apply Rmult_le_reg_r with (- ccw p' q' r'); [lra|].
    replace (dotp p q r / - ccw p q r * - ccw p q r * - ccw p' q' r') with (dotp p q r * - ccw p' q' r') by (field; lra).
    replace (dotp p' q' r' / - ccw p' q' r' * - ccw p q r * - ccw p' q' r') with (dotp p' q' r' * - ccw p q r) by (field; lra). exact L. }
  assert (M : forall x y, x <= y -> atan x <= atan y) by (intros x y [Q|Q]; [left; apply atan_increasing; auto|subst; lra]).
  specialize (M _ _ H0). lra.
Qed.
(* inscribed angles *)
Lemma inscribed a b c y o r2 : circle3 o r2 a b c ->
  dotp y a b * - ccw a b c - dotp c a b * - ccw a b y = - ccw a b c * (dist2xy y o - r2).
Proof.
  intros (A & B & C). unfold dist2xy, dotp, ccw in *. destruct a as [a1 a2 a3], b as [b1 b2 b3], c as [c1 c2 c3], y as [y1 y2 y3], o as [o1 o2 o3]. cbn [rx ry] in *.
  nsatz.
Qed.
Lemma beyond a b x y : dotp y a x * - ccw y a b - dotp y a b * - ccw y a x = dist2xy a y * - ccw y x b.
Proof. unfold dotp, ccw, dist2xy. ring. Qed.

(** ** points arbitrarily near *)
Definition often (Q : R -> Prop) : Prop := forall d, 0 < d -> exists e, 0 < e < d /\ Q e.
Lemma pigeon {X} (l : list X) (Q : X -> R -> Prop) : often (fun e => exists t, In t l /\ Q t e) -> exists t, In t l /\ often (Q t).
Proof.
  induction l as [|x l IH]; intros H.
  - destruct (H 1 ltac:(lra)) as (e & _ & t & [] & _).
  - destruct (classic (often (Q x))) as [O|N]; [exists x; split; [left; auto|exact O]|].
    apply not_all_ex_not in N. destruct N as (d0 & N). apply imply_to_and in N. destruct N as (P0 & N).
    destruct IH as (t & Ht & O); [|exists t; split; [right; auto|exact O]].
    intros d Pd. destruct (H (Rmin d d0) (Rmin_pos _ _ Pd P0)) as (e & (E1 & E2) & t & [<-|Ht] & K).
    + exfalso. apply N. exists e. split; [split; auto; pose proof (Rmin_r d d0); lra|exact K].
    + exists e. split; [split; auto; pose proof (Rmin_l d d0); lra|]. exists t. auto.
Qed.
Lemma lex1 al be ga : often (fun e => al + e * be + e * e * ga <= 0) -> al <= 0.
Proof.
  intros O. destruct (Rle_lt_dec al 0) as [|Pa]; auto. exfalso. pose proof (Rabs_pos be) as B. pose proof (Rabs_pos ga) as C.
  set (M := Rabs be + Rabs ga + 1). assert (PM : 0 < M) by (unfold M; lra).
  destruct (O (Rmin 1 (al / M))) as (e & (E1 & E2) & K); [apply Rmin_pos; [lra|apply Rdiv_lt_0_compat; lra]|].
  pose proof (Rmin_l 1 (al / M)). pose proof (Rmin_r 1 (al / M)).
  assert (L : e * M < al). { apply Rmult_lt_reg_r with (/ M); [apply Rinv_0_lt_compat; lra|]. replace (e * M * / M) with e by (field; lra). unfold Rdiv in *. lra. }
  assert (B1 : - (e * Rabs be) <= e * be).
  { replace (- (e * Rabs be)) with (e * - Rabs be) by ring. apply Rmult_le_compat_l; [lra|]. pose proof (Rle_abs (- be)). rewrite Rabs_Ropp in *. lra. }
  assert (C1 : - (e * Rabs ga) <= e * e * ga).
  { apply Rle_trans with (e * e * - Rabs ga).
    - replace (e * e * - Rabs ga) with (e * - (e * Rabs ga)) by ring. replace (- (e * Rabs ga)) with (e * - Rabs ga) by ring.
      rewrite <- Rmult_assoc. replace (e * - Rabs ga) with (1 * (e * - Rabs ga)) by ring.
      assert (0 <= (1 - e) * (e * Rabs ga)) by (apply Rmult_le_pos; [lra|apply Rmult_le_pos; lra]). lra.
    - apply Rmult_le_compat_l; [apply Rmult_le_pos; lra|]. pose proof (Rle_abs (- ga)). rewrite Rabs_Ropp in *. lra. }
  unfold M in L. lra.
Qed.
Lemma lex2 be ga : often (fun e => e * be + e * e * ga <= 0) -> be < 0 \/ (be = 0 /\ ga <= 0).
Proof.
  intros O. assert (O1 : often (fun e => be + e * ga + e * e * 0 <= 0)).
  { intros d Pd. destruct (O d Pd) as (e & E & K). exists e. split; auto. apply Rmult_le_reg_l with e; lra. }
  apply lex1 in O1. destruct O1 as [L|E]; [left; lra|right]. split; auto. subst be.
  destruct (O 1 ltac:(lra)) as (e & E & K). apply Rmult_le_reg_l with (e * e); [apply Rmult_lt_0_compat; lra|lra].
Qed.

(** ** some triangle of the other triangulation has no larger angle *)
Definition nudge (e : R) (a b c : rv) : rv :=
  RV (rx a + e * (rx b - rx a) + e * e * (rx c - rx a)) (ry a + e * (ry b - ry a) + e * e * (ry c - ry a)) 0.
Lemma ccw_nudge u v a b c e : ccw u v (nudge e a b c) = ccw u v a + e * (ccw u v b - ccw u v a) + e * e * (ccw u v c - ccw u v a).
Proof. unfold ccw, nudge. cbn [rx ry]. ring. Qed.
Lemma nudge_mean a b c e : 0 <= e <= / 2 -> mean_of a b c (nudge e a b c) (1 - e - e * e) e (e * e).
Proof.
  intros H. unfold mean_of, nudge. cbn [rx ry]. assert (0 <= e * e) by (apply Rmult_le_pos; lra).
  assert (e * e <= / 2 * / 2) by (apply Rmult_le_compat; lra). repeat split; try lra; ring.
Qed.
Lemma ccw_rot a b c : ccw b c a = ccw a b c. Proof. unfold ccw. ring. Qed.
Lemma ccw_swap a b c : ccw b a c = - ccw a b c. Proof. unfold ccw. ring. Qed.
Lemma ccw_same a b : ccw a b a = 0. Proof. unfold ccw. ring. Qed.
Lemma ccw_same2 a b : ccw a b b = 0. Proof. unfold ccw. ring. Qed.

Section Angles.
Variables (pts : list rv) (V : list Z) (S : list (Z * Z * Z)).
Notation P := (point pts).
Hypothesis HS : triangulates pts V S.
Hypothesis Dist : forall u v, In u V -> In v V -> samexy (P u) (P v) -> u = v.
Variables (a b c : Z) (o : rv) (r2 : R).
Hypothesis (Va : In a V) (Vb : In b V) (Vc : In c V).
Hypothesis Pos : ccw (P a) (P b) (P c) < 0.
Hypothesis Ci : circle3 o r2 (P a) (P b) (P c).
Hypothesis Empty : forall v, In v V -> r2 <= dist2xy (P v) o.

Definition corner (t : Z * Z * Z) (x y z : Z) : Prop := let '(p, q, r) := t in (x, y, z) = (p, q, r) \/ (x, y, z) = (q, r, p) \/ (x, y, z) = (r, p, q).
Lemma vertex_angle y : In y V -> ccw (P a) (P b) (P y) < 0 -> angle (P y) (P a) (P b) <= angle (P c) (P a) (P b).
Proof.
  intros Vy H. apply angle_le; [rewrite <- ccw_rot; auto|rewrite <- ccw_rot; auto|].
  rewrite <- (ccw_rot (P y)), <- (ccw_rot (P c)). pose proof (inscribed _ _ _ (P y) _ _ Ci) as E. specialize (Empty y Vy).
  assert (0 <= - ccw (P a) (P b) (P c) * (dist2xy (P y) o - r2)) by (apply Rmult_le_pos; lra).
  lra.
Qed.
Lemma at_corner x y : In x V -> In y V -> ccw (P a) (P x) (P y) < 0 ->
  (forall v, In v V -> in_triangle_or_edge pts (P v) (a, x, y) -> v = a \/ v = x \/ v = y) ->
  ccw (P a) (P x) (P b) < 0 \/ (ccw (P a) (P x) (P b) = 0 /\ ccw (P a) (P x) (P c) <= 0) ->
  ccw (P y) (P a) (P b) < 0 \/ (ccw (P y) (P a) (P b) = 0 /\ ccw (P y) (P a) (P c) <= 0) ->
  angle (P y) (P a) (P x) <= angle (P c) (P a) (P b).
Proof.
  intros Vx Vy Ht Hv Hx Hy.
  destruct (ccw_distinct _ _ _ Pos) as (Nab & _ & _).
  destruct Hy as [Hy|[Hy Hyc]].
  2:{ exfalso. destruct Hx as [Hx|[Hx _]].
    - (* y is on the ray from a to b *)
      set (s := ccw (P a) (P x) (P y) / ccw (P a) (P x) (P b)).
      assert (Ps : 0 < s). { unfold s. replace (ccw (P a) (P x) (P y) / ccw (P a) (P x) (P b)) with (- ccw (P a) (P x) (P y) / - ccw (P a) (P x) (P b)) by (field; lra). apply Rdiv_lt_0_compat; lra. }
      assert (E : ccw (P y) (P a) (P c) * ccw (P a) (P x) (P b) = - ccw (P a) (P x) (P y) * ccw (P a) (P b) (P c) + ccw (P y) (P a) (P b) * ccw (P a) (P x) (P c)).
      { unfold ccw. ring. }
      rewrite Hy, Rmult_0_l, Rplus_0_r in E.
      assert (0 < - ccw (P a) (P x) (P y) * - ccw (P a) (P b) (P c)) by (apply Rmult_lt_0_compat; lra).
      assert (0 <= - ccw (P y) (P a) (P c) * - ccw (P a) (P x) (P b)) by (apply Rmult_le_pos; lra). lra.
    - (* x and y both on the line ab *)
      assert (E : (dist2xy (P a) (P b)) * ccw (P a) (P x) (P y) = 0).
      { assert (E2 : dist2xy (P a) (P b) * ccw (P a) (P x) (P y) = - ccw (P a) (P x) (P b) * dotp (P a) (P b) (P y) * -1 + ccw (P y) (P a) (P b) * dotp (P a) (P b) (P x) * 1).
        { unfold dist2xy, ccw, dotp. ring. }
        rewrite E2, Hx, Hy. ring. }
      pose proof (d2_pos _ _ Nab). apply Rmult_integral in E. lra. }
  assert (Hy' : ccw (P a) (P b) (P y) < 0) by (rewrite (ccw_rot (P y)); auto).
  pose proof (vertex_angle y Vy Hy') as VA.
  destruct Hx as [Hx|[Hx Hxc]].
  - (* b is strictly inside the cone, so beyond xy *)
    assert (Hb : 0 < ccw (P x) (P y) (P b)).
    { destruct (Rle_lt_dec (ccw (P x) (P y) (P b)) 0) as [L|]; auto. exfalso.
      destruct (Hv b Vb) as [E|[E|E]]; [cbn; repeat split; lra| | |]; rewrite <- E in *.
      - apply Nab. split; reflexivity.
      - rewrite ccw_same2 in Hx. lra.
      - rewrite ccw_same in Hy. lra. }
    apply Rle_trans with (2 := VA). apply angle_le; [rewrite <- ccw_rot; auto|rewrite <- ccw_rot; auto|].
    pose proof (beyond (P a) (P b) (P x) (P y)) as E.
    assert (0 <= dist2xy (P a) (P y) * - ccw (P y) (P x) (P b)) by (apply Rmult_le_pos; [apply d2_nonneg|rewrite ccw_swap; lra]). lra.
  - (* x is on the ray from a to b, hence x = b *)
    set (s := ccw (P a) (P x) (P y) / ccw (P a) (P b) (P y)).
    assert (Ps : 0 < s). { unfold s. replace (ccw (P a) (P x) (P y) / ccw (P a) (P b) (P y)) with (- ccw (P a) (P x) (P y) / - ccw (P a) (P b) (P y)) by (field; lra). apply Rdiv_lt_0_compat; lra. }
    assert (Ex : rx (P x) - rx (P a) = s * (rx (P b) - rx (P a)) /\ ry (P x) - ry (P a) = s * (ry (P b) - ry (P a))).
    { unfold s. split; apply Rmult_eq_reg_r with (ccw (P a) (P b) (P y)); try lra.
      - transitivity (ccw (P a) (P x) (P y) * (rx (P b) - rx (P a))); [|field; lra].
        assert (E : (rx (P x) - rx (P a)) * ccw (P a) (P b) (P y) = ccw (P a) (P x) (P y) * (rx (P b) - rx (P a)) - ccw (P a) (P x) (P b) * (rx (P y) - rx (P a))) by (unfold ccw; ring).
        rewrite E, Hx. ring.
      - transitivity (ccw (P a) (P x) (P y) * (ry (P b) - ry (P a))); [|field; lra].
        assert (E : (ry (P x) - ry (P a)) * ccw (P a) (P b) (P y) = ccw (P a) (P x) (P y) * (ry (P b) - ry (P a)) - ccw (P a) (P x) (P b) * (ry (P y) - ry (P a))) by (unfold ccw; ring).
        rewrite E, Hx. ring. }
    destruct Ex as [E1 E2].
    assert (Xb : x = b).
    { destruct (Rtotal_order s 1) as [L|[E|L]].
      - exfalso. pose proof (Empty x Vx) as D. destruct Ci as (CA & CB & _).
        assert (ED : dist2xy (P x) o = (1 - s) * dist2xy (P a) o + s * dist2xy (P b) o - s * (1 - s) * dist2xy (P a) (P b)).
        { unfold dist2xy. replace (rx (P x)) with (rx (P a) + s * (rx (P b) - rx (P a))) by lra. replace (ry (P x)) with (ry (P a) + s * (ry (P b) - ry (P a))) by lra. ring. }
        rewrite CA, CB in ED. pose proof (d2_pos _ _ Nab) as DP.
        assert (0 < s * (1 - s) * dist2xy (P a) (P b)) by (apply Rmult_lt_0_compat; [apply Rmult_lt_0_compat|]; lra). lra.
      - rewrite E, !Rmult_1_l in *. apply Dist; auto. split; lra.
      - destruct (Hv b Vb) as [E|[E|E]]; auto.
        + cbn. split; [lra|]. split; [|lra].
          assert (EQ : ccw (P x) (P y) (P b) * s = (s - 1) * ccw (P a) (P x) (P y)).
          { assert (Q : ccw (P x) (P y) (P b) = ccw (P a) (P x) (P y) - ccw (P a) (P b) (P y) - ccw (P a) (P x) (P b)) by (unfold ccw; ring).
            rewrite Q, Hx. unfold s. field. lra. }
          apply Rmult_le_reg_r with s; [auto|]. rewrite EQ. assert (0 <= (s - 1) * - ccw (P a) (P x) (P y)) by (apply Rmult_le_pos; lra). lra.
        + exfalso. subst b. apply Nab. split; reflexivity.
        + exfalso. subst b. rewrite ccw_same in Hy. lra. }
    subst x. exact VA.
Qed.
End Angles.

Section Main.
Variables (pts : list rv) (V : list Z) (S : list (Z * Z * Z)).
Notation P := (point pts).
Hypothesis HS : triangulates pts V S.
Hypothesis Dist : forall u v, In u V -> In v V -> samexy (P u) (P v) -> u = v.
Lemma smaller_angle a b c o r2 : In a V -> In b V -> In c V -> ccw (P a) (P b) (P c) < 0 -> circle3 o r2 (P a) (P b) (P c) ->
  (forall v, In v V -> r2 <= dist2xy (P v) o) ->
  exists t x y z, In t S /\ corner t x y z /\ angle (P x) (P y) (P z) <= angle (P c) (P a) (P b).
Proof.
  intros Va Vb Vc Pos Ci Em. destruct HS as (S1 & S2 & S3).
  destruct (pigeon S (fun t e => in_triangle_or_edge pts (nudge e (P a) (P b) (P c)) t)) as ([[p q] r] & Ht & O).
  { intros d Pd. exists (Rmin d (/ 2) / 2). pose proof (Rmin_l d (/ 2)). pose proof (Rmin_r d (/ 2)). assert (0 < Rmin d (/ 2)) by (apply Rmin_pos; lra).
    split; [lra|]. apply (S3 a b c _ _ _ _ Va Vb Vc (nudge_mean (P a) (P b) (P c) (Rmin d (/ 2) / 2) ltac:(lra))). }
  destruct (S1 _ _ _ Ht) as (Vp & Vq & Vr & Pt).
  assert (E1 : forall u v, often (fun e => ccw u v (nudge e (P a) (P b) (P c)) <= 0) -> ccw u v (P a) <= 0).
  { intros u v K. apply (lex1 _ (ccw u v (P b) - ccw u v (P a)) (ccw u v (P c) - ccw u v (P a))).
    intros d Pd. destruct (K d Pd) as (e & He & L). exists e. split; auto. rewrite ccw_nudge in L. lra. }
  assert (E2 : forall u v, ccw u v (P a) = 0 -> often (fun e => ccw u v (nudge e (P a) (P b) (P c)) <= 0) -> ccw u v (P b) < 0 \/ (ccw u v (P b) = 0 /\ ccw u v (P c) <= 0)).
  { intros u v Z K. apply lex2. intros d Pd. destruct (K d Pd) as (e & He & L). exists e. split; auto. rewrite ccw_nudge, Z in L. lra. }
  assert (O1 : often (fun e => ccw (P p) (P q) (nudge e (P a) (P b) (P c)) <= 0)) by (intros d Pd; destruct (O d Pd) as (e & He & L1 & L2 & L3); exists e; auto).
  assert (O2 : often (fun e => ccw (P q) (P r) (nudge e (P a) (P b) (P c)) <= 0)) by (intros d Pd; destruct (O d Pd) as (e & He & L1 & L2 & L3); exists e; auto).
  assert (O3 : often (fun e => ccw (P r) (P p) (nudge e (P a) (P b) (P c)) <= 0)) by (intros d Pd; destruct (O d Pd) as (e & He & L1 & L2 & L3); exists e; auto).
  pose proof (E1 _ _ O1) as A1. pose proof (E1 _ _ O2) as A2. pose proof (E1 _ _ O3) as A3.
  assert (Co : forall v, In v V -> in_triangle_or_edge pts (P v) (p, q, r) -> v = p \/ v = q \/ v = r) by (intros v; apply S2; auto).
  destruct (S2 p q r a Ht Va) as [E|[E|E]]; [cbn; auto| | |]; rewrite <- E in *.
  - exists (a, q, r), r, a, q. split; [auto|]. split; [cbn; auto|].
    apply (at_corner pts V Dist a b c o r2); auto; apply E2; auto; apply ccw_same || apply ccw_same2.
  - exists (p, a, r), p, a, r. split; [auto|]. split; [cbn; auto|].
    apply (at_corner pts V Dist a b c o r2); auto; [rewrite ccw_rot; auto| |apply E2; auto; apply ccw_same|apply E2; auto; apply ccw_same2].
    intros v Hv (K1 & K2 & K3). destruct (Co v Hv ltac:(cbn; auto)) as [?|[?|?]]; auto.
  - exists (p, q, a), q, a, p. split; [auto|]. split; [cbn; auto|].
    apply (at_corner pts V Dist a b c o r2); auto; [rewrite <- ccw_rot; auto| |apply E2; auto; apply ccw_same|apply E2; auto; apply ccw_same2].
    intros v Hv (K1 & K2 & K3). destruct (Co v Hv ltac:(cbn; auto)) as [?|[?|?]]; auto.
Qed.
End Main.

Lemma min_angle_le pts S t x y z : In t S -> corner t x y z -> min_angle pts S <= angle (point pts x) (point pts y) (point pts z).
Proof.
  induction S as [|[[p q] r] S IH]; [intros []|]. cbn [min_angle In]. intros [<-|Ht] C.
  - pose proof (Rmin_l (Rmin (angle (point pts p) (point pts q) (point pts r)) (Rmin (angle (point pts q) (point pts r) (point pts p)) (angle (point pts r) (point pts p) (point pts q)))) (min_angle pts S)).
    pose proof (Rmin_l (angle (point pts p) (point pts q) (point pts r)) (Rmin (angle (point pts q) (point pts r) (point pts p)) (angle (point pts r) (point pts p) (point pts q)))).
    pose proof (Rmin_r (angle (point pts p) (point pts q) (point pts r)) (Rmin (angle (point pts q) (point pts r) (point pts p)) (angle (point pts r) (point pts p) (point pts q)))).
    pose proof (Rmin_l (angle (point pts q) (point pts r) (point pts p)) (angle (point pts r) (point pts p) (point pts q))).
    pose proof (Rmin_r (angle (point pts q) (point pts r) (point pts p)) (angle (point pts r) (point pts p) (point pts q))).
    destruct C as [E|[E|E]]; injection E as -> -> ->; lra.
  - specialize (IH Ht C). eapply Rle_trans; [apply Rmin_r|exact IH].
Qed.
Lemma min_angle_ge pts S m : m <= PI -> (forall t x y z, In t S -> corner t x y z -> m <= angle (point pts x) (point pts y) (point pts z)) -> m <= min_angle pts S.
Proof.
  intros Pm. induction S as [|[[p q] r] S IH]; intros H; cbn [min_angle]; auto.
  apply Rmin_glb; [|apply IH; intros; eapply H; eauto; right; auto].
  repeat apply Rmin_glb; apply (H (p, q, r)); cbn; auto.
Qed.
Lemma angle_le_PI p q r : angle p q r <= PI. Proof. unfold angle. apply acos_bound. Qed.
Lemma min_angle_PI pts S : min_angle pts S <= PI.
Proof.
  destruct S as [|[[p q] r] S]; cbn [min_angle]; [lra|]. eapply Rle_trans; [apply Rmin_l|]. eapply Rle_trans; [apply Rmin_l|]. apply angle_le_PI.
Qed.

(** ** enclosing circles *)
Lemma mid_dist a b c : dist2xy c (RV ((rx a + rx b) / 2) ((ry a + ry b) / 2) 0) = dotp c a b + dist2xy a b / 4.
Proof. unfold dist2xy, dotp. cbn [rx ry]. field. Qed.
Definition rounded (a b c q : rv) (al be ga : R) : Prop :=
  mean_of a b c q al be ga /\ dist2xy a q <= spread a b c q al be ga /\ dist2xy b q <= spread a b c q al be ga /\ dist2xy c q <= spread a b c q al be ga.
Lemma obtuse a b c : dotp c a b <= 0 -> rounded a b c (RV ((rx a + rx b) / 2) ((ry a + ry b) / 2) 0) (/ 2) (/ 2) 0.
Proof.
  intros H. set (m := RV _ _ _). pose proof (mid_dist a b c) as C. fold m in C.
  assert (A : dist2xy a m = dist2xy a b / 4) by (unfold m, dist2xy; cbn [rx ry]; field). assert (B : dist2xy b m = dist2xy a b / 4) by (unfold m, dist2xy; cbn [rx ry]; field).
  split; [|unfold spread; lra]. unfold mean_of, m. cbn [rx ry]. repeat split; lra.
Qed.
Lemma rounded_rot a b c q al be ga : rounded a b c q al be ga -> rounded b c a q be ga al.
Proof.
  intros ((A & B & G & E & X & Y) & D1 & D2 & D3). unfold rounded, mean_of, spread in *. repeat split; try lra.
Qed.
Lemma center a b c o r2 : ccw a b c < 0 -> circle3 o r2 a b c -> exists q al be ga, rounded a b c q al be ga.
Proof.
  intros Pos Ci.
  destruct (Rle_lt_dec (dotp c a b) 0) as [Hc|Hc]; [do 4 eexists; apply obtuse; auto|].
  destruct (Rle_lt_dec (dotp a b c) 0) as [Ha|Ha]; [do 4 eexists; apply rounded_rot, rounded_rot, obtuse; auto|].
  destruct (Rle_lt_dec (dotp b c a) 0) as [Hb|Hb]; [do 4 eexists; apply rounded_rot, obtuse; auto|].
  assert (In1 : forall a b c, ccw a b c < 0 -> circle3 o r2 a b c -> 0 < dotp c a b -> ccw a b o <= 0).
  { clear. intros a b c Pos Ci H. pose proof (inscribed _ _ _ o _ _ Ci) as E. destruct Ci as (A & B & _).
    assert (Z : dist2xy o o = 0) by (unfold dist2xy; ring). rewrite Z in E.
    assert (N : 0 <= r2 + dotp o a b).
    { assert (0 <= dist2xy a o + dist2xy b o + 2 * dotp o a b); [|lra].
      replace (dist2xy a o + dist2xy b o + 2 * dotp o a b) with (Rsqr ((rx a - rx o) + (rx b - rx o)) + Rsqr ((ry a - ry o) + (ry b - ry o))) by (unfold dist2xy, dotp, Rsqr; ring).
      pose proof (Rle_0_sqr ((rx a - rx o) + (rx b - rx o))). pose proof (Rle_0_sqr ((ry a - ry o) + (ry b - ry o))). lra. }
    assert (F : dotp c a b * - ccw a b o = - ccw a b c * (r2 + dotp o a b)) by lra.
    assert (0 <= - ccw a b c * (r2 + dotp o a b)) by (apply Rmult_le_pos; lra).
    assert (0 <= - ccw a b o); [|lra]. apply Rmult_le_reg_l with (dotp c a b); lra. }
  destruct (bary_of a b c o Pos) as (al & be & ga & B).
  - apply (In1 a b c); auto.
  - apply (In1 b c a); auto; [rewrite ccw_rot; auto|destruct Ci as (? & ? & ?); repeat split; auto].
  - apply (In1 c a b); auto; [rewrite <- ccw_rot; auto|destruct Ci as (? & ? & ?); repeat split; auto].
  - exists o, al, be, ga. split; [exact B|]. destruct Ci as (Ca & Cb & Cc). unfold spread. rewrite Ca, Cb, Cc. destruct B as (_ & _ & _ & E & _).
    assert (al * r2 + be * r2 + ga * r2 = r2) by (replace al with (1 - be - ga) by lra; ring). lra.
Qed.
(* the spread at q is at most the squared radius of any circle around the corners *)
Lemma spread_fits u v w q al be ga o r2 : mean_of u v w q al be ga -> dist2xy u o <= r2 -> dist2xy v o <= r2 -> dist2xy w o <= r2 -> spread u v w q al be ga <= r2.
Proof.
  intros (A & B & G & E & X & Y) U V W.
  assert (K : spread u v w q al be ga = al * dist2xy u o + be * dist2xy v o + ga * dist2xy w o - dist2xy q o).
  { unfold spread, dist2xy. rewrite X, Y. replace al with (1 - be - ga) by lra. ring. }
  pose proof (d2_nonneg q o). assert (al * dist2xy u o <= al * r2) by (apply Rmult_le_compat_l; lra).
  assert (be * dist2xy v o <= be * r2) by (apply Rmult_le_compat_l; lra). assert (ga * dist2xy w o <= ga * r2) by (apply Rmult_le_compat_l; lra).
  assert (al * r2 + be * r2 + ga * r2 = r2) by (replace al with (1 - be - ga) by lra; ring). lra.
Qed.

Section Good3.
Variables (pts : list rv) (T I : list Z).
Hypothesis G : good pts T I.
Notation P := (point pts).
Lemma self_triangulates : triangulates pts T (triples T).
Proof.
  split; [|split].
  - intros a b c Ht. destruct (triples_In _ _ _ _ Ht) as (A & B & C). repeat (split; auto). apply (g_pos _ _ _ G _ _ _ Ht).
  - intros a b c v Ht Hv K. apply (vertex_corner pts T I G v a b c Hv Ht K).
  - intros u v w q al be ga Hu Hv Hw B. apply (cover_closed pts T I G). apply within_ccw. intros e He.
    pose proof (proj1 (within_ccw pts I _) (within_T pts T I G u Hu) e He) as U1. pose proof (proj1 (within_ccw pts I _) (within_T pts T I G v Hv) e He) as V1.
    pose proof (proj1 (within_ccw pts I _) (within_T pts T I G w Hw) e He) as W1. destruct B as (A0 & B0 & G0 & E & X & Y).
    assert (K : ccw (fst e) (snd e) q = al * ccw (fst e) (snd e) (P u) + be * ccw (fst e) (snd e) (P v) + ga * ccw (fst e) (snd e) (P w)).
    { unfold ccw. rewrite X, Y. replace al with (1 - be - ga) by lra. ring. }
    rewrite K. pose proof (Rmult_le_pos _ _ A0 U1). pose proof (Rmult_le_pos _ _ B0 V1). pose proof (Rmult_le_pos _ _ G0 W1). lra.
Qed.
Lemma del_corner t x y z : In t (triples T) -> corner t x y z -> In x T /\ In y T /\ In z T /\ ccw (P y) (P z) (P x) < 0 /\
  exists o r2, circle3 o r2 (P y) (P z) (P x) /\ forall v, In v T -> r2 <= dist2xy (P v) o.
Proof.
  destruct t as [[a b] c]. intros Ht C. destruct (triples_In _ _ _ _ Ht) as (A & B & D). pose proof (g_pos _ _ _ G _ _ _ Ht) as Pos.
  destruct (circum pts T I G a b c Ht) as (o & r2 & Ci). pose proof (g_del _ _ _ G _ _ _ Ht _ _ Ci) as Em. destruct Ci as (C1 & C2 & C3).
  destruct C as [E|[E|E]]; injection E as -> -> ->; (split; [auto|split; [auto|split; [auto|split; [|exists o, r2; repeat split; auto]]]]).
  - rewrite ccw_rot; auto.
  - rewrite <- ccw_rot; auto.
  - auto.
Qed.
Lemma best_angle S t x y z : triangulates pts T S -> In t (triples T) -> corner t x y z ->
  exists t' x' y' z', In t' S /\ corner t' x' y' z' /\ angle (P x') (P y') (P z') <= angle (P x) (P y) (P z).
Proof.
  intros HS Ht C. destruct (del_corner _ _ _ _ Ht C) as (Vx & Vy & Vz & Pos & o & r2 & Ci & Em).
  apply (smaller_angle pts T S HS (g_dist _ _ _ G) y z x o r2); auto.
Qed.
Lemma best_min_angle S : triangulates pts T S -> min_angle pts S <= min_angle pts (triples T).
Proof.
  intros HS. apply min_angle_ge; [apply min_angle_PI|]. intros t x y z Ht C.
  destruct (best_angle S t x y z HS Ht C) as (t' & x' & y' & z' & Ht' & C' & L). eapply Rle_trans; [apply (min_angle_le pts S t' x' y' z'); auto|exact L].
Qed.
Lemma best_circle S r2 : triangulates pts T S -> (forall t, In t S -> fits pts r2 t) -> forall t, In t (triples T) -> fits pts r2 t.
Proof.
  intros HS H [[a b] c] Ht. destruct (triples_In _ _ _ _ Ht) as (A & B & D). pose proof (g_pos _ _ _ G _ _ _ Ht) as Pos.
  destruct (circum pts T I G a b c Ht) as (o & s2 & Ci). destruct (center _ _ _ o s2 Pos Ci) as (q & al & be & ga & M & L1 & L2 & L3).
  destruct HS as (S1 & _ & S3). destruct (S3 a b c q al be ga A B D M) as ([[u v] w] & Hs & K1 & K2 & K3).
  destruct (S1 _ _ _ Hs) as (U & V & W & Ps). destruct (bary_of _ _ _ q Ps K1 K2 K3) as (al' & be' & ga' & M').
  pose proof (optimal pts T I G a b c q al be ga u v w al' be' ga' Ht M U V W M') as Op.
  destruct (H _ Hs) as (o' & F1 & F2 & F3). pose proof (spread_fits _ _ _ _ _ _ _ o' r2 M' F1 F2 F3). exists q. lra.
Qed.
End Good3.
