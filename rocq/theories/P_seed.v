(** The choice of the seed triangle: its circumcircle is empty; it fails exactly on collinear input. *)
From Coq Require Import ZArith Lia List Bool Reals Lra Permutation.
From Verif Require Import Base Arith M_r3 M_tri2 M_triangulator Spec_r3 Spec_plane Spec_delaunay XRvec P_tri2 P_delgeom P_tstate P_insert.
Import ListNotations.
Open Scope Z_scope.

Lemma xlt_irrefl (x : XR) : flt XR x x = false.
Proof. destruct x; simpl; auto. unfold Rltb. destruct Rlt_dec; auto; lra. Qed.
Lemma xlt_trans (x y z : XR) : flt XR x y = true -> flt XR y z = true -> flt XR x z = true.
Proof.
  destruct x, y, z; simpl; auto; try discriminate. unfold Rltb. repeat (destruct Rlt_dec); auto; try discriminate. lra.
Qed.
Lemma argmin_gen {FA : Arith} (Irr : forall x : FA, flt FA x x = false)
  (Tr : forall x y z : FA, flt FA x y = true -> flt FA y z = true -> flt FA x z = true) skip f ok l :
  forall i best m b m', @argmin FA skip f ok i l best m = (b, m') ->
  (forall k p, nth_error l k = Some p -> skip (i + Z.of_nat k) = false -> ok (f p) = true -> flt FA (f p) m' = false) /\
  ((b = best /\ m' = m) \/
   (exists k p, nth_error l k = Some p /\ b = i + Z.of_nat k /\ skip b = false /\ ok (f p) = true /\ m' = f p /\ flt FA (f p) m = true)).
Proof.
  induction l as [|p l IH]; intros i best m b m' E; cbn [argmin] in E.
  - injection E as <- <-. split; auto. intros [|k] q; discriminate.
  - assert (Shift : forall k, i + 1 + Z.of_nat k = i + Z.of_nat (S k)) by lia.
    destruct (skip i) eqn:Es; [|destruct (ok (f p) && flt FA (f p) m) eqn:Eo].
    + destruct (IH _ _ _ _ _ E) as [A B]. split.
      * intros [|k] q Q Sk O; simpl in Q; [rewrite Z.add_0_r in Sk; congruence|]. apply (A k q); auto. rewrite Shift; auto.
      * destruct B as [B|(k & q & B1 & B2 & B3)]; auto. right. exists (S k), q. rewrite <- Shift. auto.
    + apply andb_true_iff in Eo. destruct Eo as [O1 O2]. destruct (IH _ _ _ _ _ E) as [A B]. split.
      * intros [|k] q Q Sk O; simpl in Q.
        -- injection Q as <-. destruct B as [[_ ->]|(k & q & _ & _ & _ & _ & -> & B)]; [apply Irr|].
           destruct (flt FA (f p) (f q)) eqn:F; auto. pose proof (Tr _ _ _ F B). rewrite Irr in H. discriminate.
        -- apply (A k q); auto. rewrite Shift; auto.
      * right. destruct B as [[-> ->]|(k & q & B1 & B2 & B3 & B4 & B5 & B6)].
        -- exists O, p. simpl. rewrite Z.add_0_r. repeat split; auto.
        -- exists (S k), q. rewrite <- Shift. repeat split; auto. rewrite <- B5. rewrite B5. apply (Tr _ _ _ B6 O2).
    + destruct (IH _ _ _ _ _ E) as [A B]. split.
      * intros [|k] q Q Sk O; simpl in Q.
        -- injection Q as <-. rewrite O in Eo. cbn [andb] in Eo. destruct B as [[_ ->]|(k & q & _ & _ & _ & _ & -> & B)]; auto.
           destruct (flt FA (f p) (f q)) eqn:F; auto. pose proof (Tr _ _ _ F B). congruence.
        -- apply (A k q); auto. rewrite Shift; auto.
      * destruct B as [B|(k & q & B1 & B2 & B3)]; auto. right. exists (S k), q. rewrite <- Shift. auto.
Qed.
Definition argmin_spec := @argmin_gen XR xlt_irrefl xlt_trans.

Section Seeds.
Variable pts : list rv.
Notation vs := (map fv pts).
Notation n := (Ln pts).
Notation PP := (PP pts).

Lemma PP_In i : 0 <= i < n -> In (PP i) pts.
Proof. intros H. unfold P_insert.PP, getz. destruct (Z.ltb_spec i 0); [lia|]. apply nth_In. lia. Qed.
Lemma In_PP q : In q pts -> exists i, 0 <= i < n /\ PP i = q.
Proof.
  intros H. apply (In_nth _ _ rzero) in H. destruct H as (k & Hk & E). exists (Z.of_nat k). split; [lia|].
  unfold P_insert.PP, getz. destruct (Z.ltb_spec (Z.of_nat k) 0); [lia|]. rewrite Nat2Z.id. auto.
Qed.
Lemma nth_vs i : 0 <= i < n -> nth_error vs (Z.to_nat i) = Some (fv (PP i)).
Proof.
  intros H. unfold P_insert.PP, getz. destruct (Z.ltb_spec i 0); [lia|]. apply map_nth_error. apply nth_error_nth'. lia.
Qed.
Lemma nth_vs_inv k q : nth_error vs k = Some q -> 0 <= Z.of_nat k < n /\ q = fv (PP (Z.of_nat k)).
Proof.
  intros E. assert (K : (k < length vs)%nat) by (apply nth_error_Some; congruence). rewrite map_length in K.
  split; [lia|]. pose proof (nth_vs (Z.of_nat k) ltac:(lia)) as Q. rewrite Nat2Z.id in Q. congruence.
Qed.
Hypothesis Hpl : planar pts.
Hypothesis Hn : 2 <= n.
Lemma same_z i j : 0 <= i < n -> 0 <= j < n -> rz (PP i) = rz (PP j).
Proof. intros. apply Hpl; apply PP_In; auto. Qed.
Lemma rdist2_xy i j : 0 <= i < n -> 0 <= j < n -> rdist2 (PP i) (PP j) = dist2xy (PP i) (PP j).
Proof. intros Hi Hj. unfold rdist2, dist2xy. pose proof (same_z i j Hi Hj) as E. unfold rdot, rsub; simpl. rewrite ?E. ring. Qed.

Lemma seed0_range m : 0 <= seed0 vs m < n.
Proof.
  unfold seed0. destruct (argmin _ _ _ _ _ _ _) as [b m'] eqn:E. apply argmin_spec in E. destruct E as [_ [[-> _]|(k & q & E1 & -> & _)]]; simpl.
  - lia.
  - apply nth_vs_inv in E1. lia.
Qed.
Lemma seed1_spec i0 : 0 <= i0 < n -> let i1 := seed1 vs i0 (fv (PP i0)) in
  0 <= i1 < n /\
  ((forall j, 0 <= j < n -> samexy (PP i0) (PP j)) \/
   (i1 <> i0 /\ ~ samexy (PP i0) (PP i1) /\
    forall j, 0 <= j < n -> samexy (PP i0) (PP j) \/ (dist2xy (PP i0) (PP i1) <= dist2xy (PP i0) (PP j))%R)).
Proof.
  intros H0. cbv zeta. unfold seed1. destruct (argmin _ _ _ _ _ _ _) as [i1 m'] eqn:E. apply argmin_spec in E. cbn [fst].
  assert (Sy : forall a b, dist2xy a b = dist2xy b a) by (intros; unfold dist2xy; ring).
  assert (Z0 : forall j, ~ (0 < dist2xy (PP j) (PP i0))%R -> samexy (PP i0) (PP j)).
  { intros j Hj. destruct (sq2_nonneg (PP j) (PP i0)) as [Q|Q]; [contradiction|]. symmetry in Q. apply sq2_zero in Q. destruct Q. split; auto. }
  destruct E as [A B].
  assert (A' : forall j, 0 <= j < n -> j <> i0 -> (0 < dist2xy (PP j) (PP i0))%R -> flt XR (Fin (dist2xy (PP j) (PP i0))) m' = false).
  { intros j Hj Nj D. pose proof (A (Z.to_nat j) _ (nth_vs j Hj)) as Q. rewrite SquaredDistance_fv, rdist2_xy in Q by auto.
    apply Q.
    - rewrite Z2Nat.id by lia. rewrite Z.add_0_l. apply Z.eqb_neq. auto.
    - cbn. apply Rltb_true. auto. }
  destruct B as [[-> ->]|(k & q & B1 & B2 & B3 & B4 & B5 & B6)].
  - split; [lia|]. left. intros j Hj. destruct (Z.eq_dec j i0) as [->|N]; [split; auto|]. apply Z0. intros D.
    specialize (A' j Hj N D). discriminate.
  - apply nth_vs_inv in B1. destruct B1 as [Rk ->]. rewrite Z.add_0_l in B2. rewrite <- B2 in *.
    split; auto. right. rewrite SquaredDistance_fv, rdist2_xy in B4, B5 by auto. apply Z.eqb_neq in B3.
    cbn in B4. apply Rltb_true in B4. split; auto. split.
    + intros [Q1 Q2]. unfold dist2xy in B4. rewrite Q1, Q2 in B4. lra.
    + intros j Hj. destruct (Z.eq_dec j i0) as [->|N]; [left; split; auto|].
      destruct (Rlt_le_dec 0 (dist2xy (PP j) (PP i0))) as [D|D]; [|left; apply Z0; lra]. right.
      specialize (A' j Hj N D). rewrite B5 in A'. cbn in A'. rewrite !(Sy (PP i0)).
      unfold Rltb in A'. destruct Rlt_dec; [discriminate|]. lra.
Qed.

Lemma line_ar l a b c : on_a_line l -> In a l -> In b l -> In c l -> ar a b c = 0%R.
Proof.
  intros (u & v & k & N & L) Ha Hb Hc. unfold ar. assert (ccw a b c = 0%R); [|lra].
  apply ccw_zero_collinear. exists u, v, k. auto.
Qed.
Lemma line_same l a : (forall b, In b l -> samexy a b) -> on_a_line l.
Proof. intros H. exists 1%R, 0%R, (rx a). split; [lra|]. intros q Hq. destruct (H q Hq) as [-> _]. ring. Qed.
Lemma line_two l a b : ~ samexy a b -> (forall c, In c l -> ar a b c = 0%R) -> on_a_line l.
Proof.
  intros N H. exists (ry b - ry a)%R, (rx a - rx b)%R, ((ry b - ry a) * rx a + (rx a - rx b) * ry a)%R. split.
  - destruct (Req_dec (ry b - ry a) 0) as [E|]; auto. right. intros E2. apply N. split; lra.
  - intros c Hc. specialize (H c Hc). unfold ar, ccw in H. lra.
Qed.

Lemma seeds_ok m i1 i2 r : let i0 := seed0 vs m in
  i1 = seed1 vs i0 (fv (PP i0)) -> seed2 vs i0 i1 (fv (PP i0)) (fv (PP i1)) = (i2, r) ->
  0 <= i0 < n /\ 0 <= i1 < n /\
  ((r = PInf /\ on_a_line pts) \/
   (feq XR r infinity = false /\ 0 <= i2 < n /\ ar (PP i0) (PP i1) (PP i2) <> 0%R /\
    forall v, 0 <= v < n -> (0 <= ar (PP i0) (PP i1) (PP i2) * incirc (PP i0) (PP i1) (PP i2) (PP v))%R)).
Proof.
  cbv zeta. pose proof (seed0_range m) as R0. set (i0 := seed0 vs m) in *. clearbody i0. intros E1 E2.
  destruct (seed1_spec i0 R0) as [R1 D]. rewrite <- E1 in *. split; auto. split; auto.
  unfold seed2 in E2. apply argmin_spec in E2. destruct E2 as [A B].
  assert (A' : forall j, 0 <= j < n -> j <> i0 -> j <> i1 -> flt XR (circumradius (fv (PP i0)) (fv (PP i1)) (fv (PP j))) r = false).
  { intros j Hj N0 N1. apply (A (Z.to_nat j)); auto. apply nth_vs; auto. rewrite Z2Nat.id, Z.add_0_l by lia.
    apply orb_false_iff. split; apply Z.eqb_neq; auto. }
  destruct D as [D|(N10 & S01 & Near)].
  { left. assert (C : forall q, circumradius (fv (PP i0)) (fv (PP i1)) (fv q) = PInf).
    { intros q. rewrite circumradius_fv. destruct (D i1 R1) as [Q1 Q2]. unfold ccw. rewrite Q1, Q2.
      destruct (Reqb_spec ((rx (PP i1) - rx (PP i1)) * (ry q - ry (PP i1)) - (ry (PP i1) - ry (PP i1)) * (rx q - rx (PP i1))) 0); auto. lra. }
    split.
    - destruct B as [[_ ->]|(k & q & B1 & B2 & B3 & B4 & B5 & B6)]; auto.
      apply nth_vs_inv in B1. destruct B1 as [_ ->]. rewrite B5, C. auto.
    - apply (line_same pts (PP i0)). intros b Hb. destruct (In_PP b Hb) as (j & Hj & <-). auto. }
  destruct B as [[_ ->]|(k & q & B1 & B2 & B3 & B4 & B5 & B6)].
  - left. split; auto. apply (line_two pts (PP i0) (PP i1)); auto. intros c Hc. destruct (In_PP c Hc) as (j & Hj & <-).
    destruct (Z.eq_dec j i0) as [->|N0]; [apply ar_aba|]. destruct (Z.eq_dec j i1) as [->|N1]; [apply ar_baa|].
    specialize (A' j Hj N0 N1). rewrite circumradius_fv in A'. destruct (Reqb_spec (ccw (PP i0) (PP i1) (PP j)) 0).
    + unfold ar. lra.
    + discriminate.
  - right. apply nth_vs_inv in B1. destruct B1 as [Rk ->]. rewrite Z.add_0_l in B2. rewrite <- B2 in *.
    rewrite circumradius_fv in B5, B6. destruct (Reqb_spec (ccw (PP i0) (PP i1) (PP i2)) 0) as [Q|Q]; [discriminate|].
    subst r. split; [reflexivity|]. split; auto. assert (Ar : ar (PP i0) (PP i1) (PP i2) <> 0%R) by (unfold ar; lra). split; auto.
    intros v Hv. apply orb_false_iff in B3. destruct B3 as [B31 B32]. apply Z.eqb_neq in B31. apply Z.eqb_neq in B32.
    assert (Dt : forall j, 0 <= j < n -> (0 <= dt (PP j) (PP i0) (PP i1))%R).
    { intros j Hj. destruct (Near j Hj) as [[Q1 Q2]|Q1]; [|apply far_dt; auto]. unfold dt. rewrite Q1, Q2. lra. }
    apply seed_empty; auto. intros Nv. 
    destruct (Z.eq_dec v i0) as [->|N0]; [exfalso; apply Nv, ar_aba|].
    destruct (Z.eq_dec v i1) as [->|N1]; [exfalso; apply Nv, ar_baa|].
    specialize (A' v Hv N0 N1). rewrite circumradius_fv in A'. destruct (Reqb_spec (ccw (PP i0) (PP i1) (PP v)) 0) as [Qv|Qv].
    { exfalso. apply Nv. unfold ar. lra. }
    cbn in A'. unfold Rltb in A'. destruct Rlt_dec; [discriminate|]. lra.
Qed.
End Seeds.
