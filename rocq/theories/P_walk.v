From Coq Require Import ZArith Lia List Bool Reals Lra.
From Verif Require Import Base Spec_r3 Spec_plane Spec_halfedge Spec_delaunay Spec_delaunay2 P_ring P_result P_tri2 P_delcomp Spec_walk.
Import ListNotations.
Open Scope R_scope.

(** ** four points of a circle *)
Lemma dist2_pos a b d : 0 < ccw a b d -> 0 < dist2xy b a.
Proof.
  intros H. destruct (Rle_lt_or_eq_dec 0 (dist2xy b a)) as [Q|Q]; [apply d2_nonneg|exact Q|exfalso].
  unfold dist2xy in Q. assert (X : rx b - rx a = 0) by (pose proof (Rle_0_sqr (rx b - rx a)); pose proof (Rle_0_sqr (ry b - ry a)); unfold Rsqr in *; apply Rsqr_0_uniq; unfold Rsqr; lra).
  assert (Y : ry b - ry a = 0) by (pose proof (Rle_0_sqr (rx b - rx a)); pose proof (Rle_0_sqr (ry b - ry a)); unfold Rsqr in *; apply Rsqr_0_uniq; unfold Rsqr; lra).
  unfold ccw in H. rewrite X, Y in H. lra.
Qed.
Lemma arc1 a b d v o r2 : dist2xy a o = r2 -> dist2xy b o = r2 -> dist2xy d o = r2 -> dist2xy v o = r2 ->
  0 < ccw a b d -> 0 < ccw a d v -> 0 < ccw a b v.
Proof.
  intros Ha Hb Hd Hv D Y. destruct (Rlt_le_dec 0 (ccw a b v)) as [H|X]; [exact H|exfalso].
  pose proof (dist2_pos a b d D) as U.
  assert (I : ccw a b d * (ccw a d v * dist2xy b a + (- ccw a b v) * dist2xy d a) +
     ((ccw a d v * (rx b - rx a) + (- ccw a b v) * (rx d - rx a)) * (ccw a d v * (rx b - rx a) + (- ccw a b v) * (rx d - rx a)) +
      (ccw a d v * (ry b - ry a) + (- ccw a b v) * (ry d - ry a)) * (ccw a d v * (ry b - ry a) + (- ccw a b v) * (ry d - ry a))) =
     ccw a b d * (ccw a b d * (dist2xy v o - dist2xy a o) + ccw a d v * (dist2xy b o - dist2xy a o) - ccw a b v * (dist2xy d o - dist2xy a o))).
  { unfold ccw, dist2xy. ring. }
  rewrite Ha, Hb, Hd, Hv in I.
  pose proof (Rle_0_sqr (ccw a d v * (rx b - rx a) + (- ccw a b v) * (rx d - rx a))) as S1.
  pose proof (Rle_0_sqr (ccw a d v * (ry b - ry a) + (- ccw a b v) * (ry d - ry a))) as S2. unfold Rsqr in S1, S2.
  assert (P1 : 0 < ccw a b d * (ccw a d v * dist2xy b a)) by (apply Rmult_lt_0_compat; [exact D|apply Rmult_lt_0_compat; auto]).
  assert (P2 : 0 <= ccw a b d * ((- ccw a b v) * dist2xy d a)) by (apply Rmult_le_pos; [lra|apply Rmult_le_pos; [lra|apply d2_nonneg]]).
  rewrite Rmult_plus_distr_l in I. lra.
Qed.
Lemma ccw_cycle a b c : ccw a b c = ccw b c a. Proof. unfold ccw. ring. Qed.
Lemma ccw_flip a b c : ccw a b c = - ccw b a c. Proof. unfold ccw. ring. Qed.
Definition mirror (p : rv) : rv := RV (- rx p) (ry p) (rz p).
Lemma ccw_mirror a b c : ccw (mirror a) (mirror b) (mirror c) = - ccw a b c. Proof. unfold ccw, mirror. simpl. ring. Qed.
Lemma dist_mirror a b : dist2xy (mirror a) (mirror b) = dist2xy a b. Proof. unfold dist2xy, mirror. simpl. ring. Qed.
Lemma arc2 a b d v o r2 : dist2xy a o = r2 -> dist2xy b o = r2 -> dist2xy d o = r2 -> dist2xy v o = r2 ->
  0 < ccw a b d -> 0 < ccw d b v -> 0 < ccw a b v.
Proof.
  intros Ha Hb Hd Hv D Y. assert (G : 0 < ccw (mirror b) (mirror a) (mirror v)).
  { apply (arc1 (mirror b) (mirror a) (mirror d) (mirror v) (mirror o) r2); rewrite ?dist_mirror; auto; rewrite ccw_mirror, ccw_flip; lra. }
  rewrite ccw_mirror, ccw_flip in G. lra.
Qed.

(** ** power of a point *)
Definition pow (q o : rv) (r2 : R) : R := dist2xy q o - r2.
Lemma pow_bary a b c x o r2 o' r2' :
  (pow x o r2 - pow x o' r2') * ccw a b c =
  (pow a o r2 - pow a o' r2') * ccw x b c + (pow b o r2 - pow b o' r2') * ccw a x c + (pow c o r2 - pow c o' r2') * ccw a b x.
Proof. unfold pow, ccw, dist2xy. ring. Qed.
Lemma circle_unique a b c o r2 o' r2' x : ccw a b c <> 0 -> circle3 o r2 a b c -> circle3 o' r2' a b c -> pow x o r2 = pow x o' r2'.
Proof.
  intros N (A & B & C) (A' & B' & C'). pose proof (pow_bary a b c x o r2 o' r2') as E. unfold pow at 3 4 5 6 7 8 in E.
  rewrite A, B, C, A', B', C' in E. assert (Z : (pow x o r2 - pow x o' r2') * ccw a b c = 0) by (rewrite E; ring).
  apply Rmult_integral in Z. destruct Z as [Z|Z]; [lra|contradiction].
Qed.
(* crossing the edge ab of a triangle into a triangle b a d, towards q *)
Lemma cross_power a b d q o r2 o' r2' : dist2xy a o = r2 -> dist2xy b o = r2 -> dist2xy a o' = r2' -> dist2xy b o' = r2' -> dist2xy d o' = r2' ->
  r2 <= dist2xy d o -> 0 < ccw a b d -> 0 < ccw a b q ->
  pow q o' r2' <= pow q o r2 /\ (pow q o' r2' = pow q o r2 -> forall x, pow x o' r2' = pow x o r2).
Proof.
  intros A B A' B' C' D Hd Hq.
  assert (E : forall x, (pow x o r2 - pow x o' r2') * ccw a b d = (dist2xy d o - r2) * ccw a b x).
  { intros x. rewrite pow_bary. unfold pow. rewrite A, B, A', B', C'. ring. }
  pose proof (E q) as Eq. split.
  - destruct (Rle_lt_dec (pow q o' r2') (pow q o r2)) as [H|H]; [exact H|exfalso].
    assert (P1 : 0 <= (dist2xy d o - r2) * ccw a b q) by (apply Rmult_le_pos; lra).
    assert (P2 : 0 < (pow q o' r2' - pow q o r2) * ccw a b d) by (apply Rmult_lt_0_compat; lra). lra.
  - intros Q x. assert (Z : (dist2xy d o - r2) * ccw a b q = 0) by (rewrite <- Eq, Q; ring).
    apply Rmult_integral in Z. destruct Z as [Z|Z]; [|lra]. specialize (E x). rewrite Z, Rmult_0_l in E. apply Rmult_integral in E. destruct E as [E|E]; lra.
Qed.

(** ** corners and half-edges *)
Local Open Scope Z_scope.
Lemma triples_nth l : forall k, (3 * k + 2 < length l)%nat -> In (nth (3 * k) l (-1), nth (3 * k + 1) l (-1), nth (3 * k + 2) l (-1)) (triples l).
Proof.
  intros k. revert l. induction k as [|k IH]; intros l E.
  - destruct l as [|x [|y [|z l]]]; simpl in E; try lia. left. reflexivity.
  - destruct l as [|x [|y [|z l]]]; simpl in E; try lia. cbn [triples]. right.
    replace (3 * S k)%nat with (S (S (S (3 * k)))) by lia. cbn [nth Nat.add]. apply IH. lia.
Qed.
Lemma next_cases e : 0 <= e -> let k := e / 3 in (e = 3 * k /\ corner_next e = 3 * k + 1 /\ corner_next (corner_next e) = 3 * k + 2) \/
  (e = 3 * k + 1 /\ corner_next e = 3 * k + 2 /\ corner_next (corner_next e) = 3 * k) \/ (e = 3 * k + 2 /\ corner_next e = 3 * k /\ corner_next (corner_next e) = 3 * k + 1).
Proof.
  intros H k. assert (N : forall i, (0 <= i <= 2) -> corner_next (3 * k + i) = if i =? 2 then 3 * k else 3 * k + i + 1).
  { intros i Hi. unfold corner_next. replace (3 * k + i) with (i + k * 3) by ring. rewrite Z.mod_add by lia. rewrite Z.mod_small by lia. destruct (i =? 2) eqn:E; lia. }
  pose proof (Z.div_mod e 3 ltac:(lia)) as D. pose proof (Z.mod_pos_bound e 3 ltac:(lia)) as M. fold k in D.
  pose proof (N 0 ltac:(lia)) as N0. pose proof (N 1 ltac:(lia)) as N1. pose proof (N 2 ltac:(lia)) as N2. cbn [Z.eqb Pos.eqb] in N0, N1, N2.
  rewrite Z.add_0_r in N0. replace (3 * k + 1 + 1) with (3 * k + 2) in N1 by ring.
  assert (C : e = 3 * k \/ e = 3 * k + 1 \/ e = 3 * k + 2) by lia. destruct C as [C|[C|C]].
  - left. rewrite C, N0. auto.
  - right. left. rewrite C, N1. auto.
  - right. right. rewrite C, N2. auto.
Qed.

Section Walk.
Variables (pts : list rv) (T H : list Z).
Hypothesis Pr : paired T H.
Hypothesis Pos : forall a b c, In (a, b, c) (triples T) -> (ccw (point pts a) (point pts b) (point pts c) < 0)%R.
Hypothesis Del : delaunay pts T.
Notation N := (Z.of_nat (length T)).
Definition cA e := point pts (entry T e).
Definition cB e := point pts (entry T (corner_next e)).
Definition cC e := point pts (entry T (corner_next (corner_next e))).
Definition circ e o r2 := circle3 o r2 (cA e) (cB e) (cC e).

Lemma next3 e : 0 <= e -> corner_next (corner_next (corner_next e)) = e.
Proof.
  intros He. pose proof (next_cases e He) as D. cbv zeta in D. destruct D as [(E & E1 & E2)|[(E & E1 & E2)|(E & E1 & E2)]]; rewrite E2; set (k := e / 3) in *.
  - unfold corner_next. replace (3 * k + 2) with (2 + k * 3) by ring. rewrite Z.mod_add by lia. change (2 mod 3 =? 2) with true. cbv iota. lia.
  - unfold corner_next. replace (3 * k) with (0 + k * 3) by ring. rewrite Z.mod_add by lia. change (0 mod 3 =? 2) with false. cbv iota. lia.
  - unfold corner_next. replace (3 * k + 1) with (1 + k * 3) by ring. rewrite Z.mod_add by lia. change (1 mod 3 =? 2) with false. cbv iota. lia.
Qed.
Lemma next_div e : 0 <= e -> corner_next e / 3 = e / 3 /\ 0 <= corner_next e.
Proof.
  intros He. pose proof (next_cases e He) as D. cbv zeta in D. pose proof (Z.div_pos e 3 He ltac:(lia)). set (k := e / 3) in *.
  destruct D as [(E & E1 & E2)|[(E & E1 & E2)|(E & E1 & E2)]]; rewrite E1; (split; [symmetry|lia]).
  - apply (Z.div_unique _ _ _ 1); lia.
  - apply (Z.div_unique _ _ _ 2); lia.
  - apply (Z.div_unique _ _ _ 0); lia.
Qed.
Lemma same_tri e f : 0 <= e -> 0 <= f -> f / 3 = e / 3 -> f = e \/ f = corner_next e \/ f = corner_next (corner_next e).
Proof.
  intros He Hf E. pose proof (next_cases e He) as D. pose proof (next_cases f Hf) as D'. cbv zeta in D, D'. rewrite E in D'. set (k := e / 3) in *.
  destruct D as [(? & ? & ?)|[(? & ? & ?)|(? & ? & ?)]]; destruct D' as [(? & ? & ?)|[(? & ? & ?)|(? & ? & ?)]]; lia.
Qed.
Lemma entry_nth e : 0 <= e -> entry T e = nth (Z.to_nat e) T (-1). Proof. reflexivity. Qed.
Lemma tri_corners k : 0 <= 3 * k < N -> In (corners T k) (triples T).
Proof.
  intros Hk. destruct (pr_whole _ _ Pr) as (n & En). pose proof (triples_nth T (Z.to_nat k) ltac:(lia)) as P. unfold corners, entry.
  replace (Z.to_nat (3 * k)) with (3 * Z.to_nat k)%nat by lia. replace (Z.to_nat (3 * k + 1)) with (3 * Z.to_nat k + 1)%nat by lia. replace (Z.to_nat (3 * k + 2)) with (3 * Z.to_nat k + 2)%nat by lia. exact P.
Qed.
Lemma div_range e : 0 <= e < N -> 0 <= 3 * (e / 3) < N.
Proof. intros He. pose proof (Z.div_mod e 3 ltac:(lia)). pose proof (Z.mod_pos_bound e 3 ltac:(lia)). pose proof (Z.div_pos e 3 ltac:(lia) ltac:(lia)). lia. Qed.
Lemma edge_pos e : 0 <= e < N -> (ccw (cA e) (cB e) (cC e) < 0)%R.
Proof.
  intros He. pose proof (tri_corners _ (div_range e He)) as Q. apply Pos in Q. unfold cA, cB, cC.
  pose proof (next_cases e (proj1 He)) as D. cbv zeta in D. set (k := e / 3) in *.
  destruct D as [(E & E1 & E2)|[(E & E1 & E2)|(E & E1 & E2)]]; rewrite E1, E2, E at 1; [exact Q| |]; [rewrite ccw_cycle, ccw_cycle; exact Q|rewrite ccw_cycle; exact Q].
Qed.
Lemma circ_next e o r2 : 0 <= e -> circ e o r2 -> circ (corner_next e) o r2.
Proof. intros He (A & B & C). unfold circ, cA, cB, cC in *. rewrite next3 by exact He. split; [exact B|split; [exact C|exact A]]. Qed.
Lemma circ_same e f o r2 : 0 <= e -> 0 <= f -> f / 3 = e / 3 -> circ e o r2 -> circ f o r2.
Proof.
  intros He Hf E C. destruct (same_tri e f He Hf E) as [->|[->| ->]]; auto using circ_next. apply circ_next; [apply next_div; exact He|apply circ_next; auto].
Qed.
Lemma circ_corners e k a b c o r2 : 0 <= e -> e / 3 = k -> corners T k = (a, b, c) -> circle3 o r2 (point pts a) (point pts b) (point pts c) -> circ e o r2.
Proof.
  intros He Ek Ec (A & B & C). unfold corners in Ec. assert (E0 : entry T (3 * k) = a) by congruence. assert (E1 : entry T (3 * k + 1) = b) by congruence. assert (E2 : entry T (3 * k + 2) = c) by congruence.
  pose proof (next_cases e He) as D. cbv zeta in D. rewrite Ek in D. unfold circ, cA, cB, cC, circle3.
  destruct D as [(D0 & D1 & D2)|[(D0 & D1 & D2)|(D0 & D1 & D2)]]; rewrite D2, D1, D0, E0, E1, E2; auto.
Qed.
Lemma circ_ex e : 0 <= e < N -> exists o r2, circ e o r2.
Proof. intros He. pose proof (edge_pos e He). eexists; eexists. apply rcircumcenter_circle. lra. Qed.
Lemma entry_in e : 0 <= e < N -> In (entry T e) T. Proof. intros He. apply nth_In. lia. Qed.
Lemma circ_del e o r2 v : 0 <= e < N -> circ e o r2 -> In v T -> (r2 <= dist2xy (point pts v) o)%R.
Proof.
  intros He C Hv. pose proof (tri_corners _ (div_range e He)) as Q. refine (Del _ _ _ Q o r2 _ v Hv).
  assert (K : circ (3 * (e / 3)) o r2).
  { apply (circ_same e); try lia; auto; [apply (div_range e He)|]. rewrite Z.mul_comm, Z.div_mul by lia. reflexivity. }
  pose proof (next_cases (3 * (e / 3)) (proj1 (div_range e He))) as D. cbv zeta in D. rewrite (Z.mul_comm 3 (e / 3)), Z.div_mul in D by lia. rewrite (Z.mul_comm (e / 3) 3) in D.
  unfold circ, cA, cB, cC in K. destruct D as [(E & E1 & E2)|[(E & E1 & E2)|(E & E1 & E2)]]; try lia. rewrite E2, E1 in K. exact K.
Qed.
Lemma twin e : 0 <= e < N -> entry H e <> -1 -> let f := entry H e in 0 <= f < N /\ f / 3 <> e / 3 /\ cA f = cB e /\ cB f = cA e.
Proof. intros He X. destruct (pr_twin _ _ Pr e He) as [Y|(R & _ & D & A & B)]; [contradiction|]. cbv zeta. unfold cA, cB. rewrite A, B. auto. Qed.

(** ** crossing one edge *)
Lemma crossing q e o r2 o' r2' : 0 <= e < N -> entry H e <> -1 -> beyond pts T q e -> circ e o r2 -> circ (entry H e) o' r2' ->
  (pow q o' r2' <= pow q o r2)%R /\ (pow q o' r2' = pow q o r2 -> forall x, pow x o' r2' = pow x o r2)%R.
Proof.
  intros He X Bq C C'. destruct (twin e He X) as (Hf & _ & A & B). set (f := entry H e) in *. pose proof (edge_pos f Hf) as Q. destruct C as (C1 & C2 & C3), C' as (D1 & D2 & D3).
  rewrite A, B in *. apply (cross_power (cA e) (cB e) (cC f)); auto; [|rewrite ccw_flip; lra].
  apply (circ_del e); [exact He|split; [exact C1|split; [exact C2|exact C3]]|]. apply entry_in. apply (corner_next_range T H); [exact Pr|]. apply (corner_next_range T H); [exact Pr|exact Hf].
Qed.

(** ** walks never come back *)
Section From.
Variables (q : rv) (e0 : Z) (o : rv) (r2 : R).
Hypothesis He0 : 0 <= e0 < N.
Hypothesis C0 : circ e0 o r2.
Definition inv f := 0 <= f < N /\ entry H f <> -1 /\ beyond pts T q f /\ exists o' r2', circ (entry H f) o' r2' /\
  ((pow q o' r2' < pow q o r2)%R \/
   ((forall x, pow x o' r2' = pow x o r2)%R /\ (forall v, dist2xy v o = r2 -> 0 < ccw (cA f) (cB f) v -> 0 < ccw (cA e0) (cB e0) v)%R /\
    (0 <= ccw (cA e0) (cB e0) (cA f))%R /\ (0 <= ccw (cA e0) (cB e0) (cB f))%R)).
Lemma inv_start : entry H e0 <> -1 -> beyond pts T q e0 -> inv e0.
Proof.
  intros X Bq. split; [exact He0|]. split; [exact X|]. split; [exact Bq|]. destruct (twin e0 He0 X) as (Hf & _ & A & B). destruct (circ_ex _ Hf) as (o' & r2' & C').
  exists o', r2'. split; [exact C'|]. destruct (crossing q e0 o r2 o' r2' He0 X Bq C0 C') as (L & Q). destruct (Rle_lt_or_eq_dec _ _ L) as [Lt|Eq]; [left; exact Lt|right].
  split; [apply Q; exact Eq|]. split; [auto|]. unfold ccw. split; right; ring.
Qed.
Lemma inv_step f g : inv f -> 0 <= g < N -> g / 3 = entry H f / 3 -> entry H g <> -1 -> beyond pts T q g -> inv g.
Proof.
  intros (Hf & Xf & Bf & o1 & r1 & C1 & I1) Hg Eg Xg Bg. split; [exact Hg|]. split; [exact Xg|]. split; [exact Bg|].
  destruct (twin f Hf Xf) as (Ht & _ & A & B). set (t := entry H f) in *. destruct (twin g Hg Xg) as (Hu & _ & A' & B'). destruct (circ_ex _ Hu) as (o' & r2' & C').
  exists o', r2'. split; [exact C'|]. assert (Cg : circ g o1 r1) by (apply (circ_same t); auto; lia).
  destruct (crossing q g o1 r1 o' r2' Hg Xg Bg Cg C') as (L & Q). destruct I1 as [I1|(S1 & N1 & PA & PB)]; [left; lra|].
  destruct (Rle_lt_or_eq_dec _ _ L) as [Lt|Eq]; [left; rewrite <- (S1 q); exact Lt|right]. specialize (Q Eq). split; [intros x; rewrite Q; apply S1|].
  (* the circle is the same *)
  assert (On : forall v, dist2xy v o1 = r1 -> dist2xy v o = r2) by (intros v Hv; specialize (S1 v); unfold pow in S1; lra).
  pose proof (edge_pos t Ht) as Dt. destruct C1 as (T1 & T2 & T3). rewrite A, B in *. apply On in T1, T2, T3.
  assert (Dp : (0 < ccw (cA f) (cB f) (cC t))%R) by (rewrite ccw_flip; lra).
  assert (Pd : (0 <= ccw (cA e0) (cB e0) (cC t))%R) by (apply Rlt_le, N1; auto).
  destruct (same_tri t g (proj1 Ht) (proj1 Hg) Eg) as [->|[->| ->]].
  - exfalso. unfold beyond in Bg, Bf. fold (cA t) (cB t) in Bg. fold (cA f) (cB f) in Bf. rewrite A, B, ccw_flip in Bg. lra.
  - assert (EA : cA (corner_next t) = cA f) by exact B. assert (EB : cB (corner_next t) = cC t) by reflexivity. rewrite EA, EB. split; [|split; [exact PA|exact Pd]].
    intros v Hv Lv. apply N1; [exact Hv|]. apply (arc1 _ _ (cC t) v o r2); auto.
  - assert (EA : cA (corner_next (corner_next t)) = cC t) by reflexivity.
    assert (EB : cB (corner_next (corner_next t)) = cB f) by (unfold cB at 1; rewrite next3 by lia; exact A). rewrite EA, EB. split; [|split; [exact Pd|exact PB]].
    intros v Hv Lv. apply N1; [exact Hv|]. apply (arc2 _ _ (cC t) v o r2); auto.
Qed.
Lemma inv_other f : inv f -> entry H f / 3 <> e0 / 3.
Proof.
  intros (Hf & Xf & Bf & o1 & r1 & C1 & I1) E. destruct (twin f Hf Xf) as (Ht & _ & A & B). set (t := entry H f) in *. pose proof (edge_pos e0 He0) as D0.
  destruct I1 as [I1|(S1 & N1 & PA & PB)].
  - assert (C2 : circ e0 o1 r1) by (apply (circ_same t); auto; lia). assert (X : pow q o r2 = pow q o1 r1) by (apply (circle_unique (cA e0) (cB e0) (cC e0)); auto; lra). lra.
  - assert (On : forall v, dist2xy v o1 = r1 -> dist2xy v o = r2) by (intros v Hv; specialize (S1 v); unfold pow in S1; lra).
    pose proof (edge_pos t Ht) as Dt. destruct C1 as (T1 & T2 & T3). rewrite A, B in *. apply On in T3.
    assert (Pd : (0 <= ccw (cA e0) (cB e0) (cC t))%R) by (apply Rlt_le, N1; auto; rewrite ccw_flip; lra).
    destruct (next_div e0 (proj1 He0)) as (E1 & P1). destruct (next_div _ P1) as (E2 & P2).
    assert (EC : cC e0 = cA (corner_next (corner_next e0))) by reflexivity. rewrite EC in D0.
    destruct (same_tri t (corner_next (corner_next e0)) (proj1 Ht) P2 ltac:(lia)) as [X|[X|X]]; rewrite X in D0.
    + rewrite A in D0. lra.
    + change (cA (corner_next t)) with (cB t) in D0. rewrite B in D0. lra.
    + change (cA (corner_next (corner_next t))) with (cC t) in D0. lra.
Qed.
Lemma walk_avoids l : walk pts T H q l -> forall f l', inv f -> l = entry H f / 3 :: l' -> ~ In (e0 / 3) l.
Proof.
  intros W. induction W as [k Hk|k k' l (g & Hg & Eg & Bg & Xg & Ek) W IH]; intros f l' If E.
  - assert (k = entry H f / 3) by congruence. intros [Q|[]]. apply (inv_other f If). congruence.
  - assert (Ek' : k = entry H f / 3) by congruence. intros [Q|Q]; [apply (inv_other f If); congruence|]. revert Q. apply (IH g l); [|congruence].
    apply (inv_step f g); auto. congruence.
Qed.
End From.

Lemma walk_nodup q l : walk pts T H q l -> NoDup l.
Proof.
  intros W. induction W as [k Hk|k k' l (e & He & Ee & Be & Xe & Ek) W IH]; [repeat constructor; intros []|]. constructor; [|exact IH].
  destruct (circ_ex e He) as (o & r2 & C). rewrite <- Ee. apply (walk_avoids q e o r2 He C (k' :: l) W e l); [|congruence]. apply inv_start; auto.
Qed.
Lemma walk_range q l : walk pts T H q l -> forall k, In k l -> 0 <= 3 * k < N.
Proof.
  intros W. induction W as [k Hk|k k' l (e & He & Ee & Be & Xe & Ek) W IH]; intros x [<-|Hx]; auto; [destruct Hx|]. rewrite <- Ee. apply div_range. exact He.
Qed.
Lemma walk_length q l : walk pts T H q l -> (length l <= length (triples T))%nat.
Proof.
  intros W. assert (L : length T = (3 * length (triples T))%nat) by (destruct (pr_whole _ _ Pr) as (n & En); rewrite (triples_length T n En); exact En).
  rewrite <- (seq_length (length (triples T)) 0), <- (map_length Z.of_nat). apply NoDup_incl_length; [apply (walk_nodup q); exact W|].
  intros k Hk. apply (walk_range q l W) in Hk. apply in_map_iff. exists (Z.to_nat k). split; [lia|]. apply in_seq. lia.
Qed.

(** ** where a walk stops *)
Lemma edges_of k : 0 <= 3 * k < N -> forall i, 0 <= i <= 2 -> 0 <= 3 * k + i < N /\ (3 * k + i) / 3 = k.
Proof. intros Hk i Hi. destruct (pr_whole _ _ Pr) as (n & En). split; [lia|]. symmetry. apply (Z.div_unique _ _ _ i); lia. Qed.
Lemma inside_iff q k : 0 <= 3 * k < N -> (in_triangle_or_edge pts q (corners T k) <-> forall e, 0 <= e < N -> e / 3 = k -> ~ beyond pts T q e).
Proof.
  intros Hk. assert (K : forall i, 0 <= i <= 2 -> corner_next (3 * k + i) = if i =? 2 then 3 * k else 3 * k + (i + 1)).
  { intros i Hi. unfold corner_next. replace (3 * k + i) with (i + k * 3) by ring. rewrite Z.mod_add by lia. rewrite Z.mod_small by lia. destruct (i =? 2) eqn:E; lia. }
  pose proof (K 0 ltac:(lia)) as K0. pose proof (K 1 ltac:(lia)) as K1. pose proof (K 2 ltac:(lia)) as K2. cbn [Z.eqb Pos.eqb Z.add Pos.add] in K0, K1, K2.
  rewrite Z.add_0_r in K0. unfold corners, in_triangle_or_edge. split.
  - intros (A & B & C) e He Ee Bq. unfold beyond in Bq. pose proof (next_cases e (proj1 He)) as D. cbv zeta in D. rewrite Ee in D.
    destruct D as [(E & E1 & E2)|[(E & E1 & E2)|(E & E1 & E2)]]; rewrite E1, E in Bq; lra.
  - intros Q. destruct (edges_of k Hk 0 ltac:(lia)) as (R0 & D0). destruct (edges_of k Hk 1 ltac:(lia)) as (R1 & D1). destruct (edges_of k Hk 2 ltac:(lia)) as (R2 & D2).
    pose proof (Q _ R0 D0) as Q0. pose proof (Q _ R1 D1) as Q1. pose proof (Q _ R2 D2) as Q2. unfold beyond in Q0, Q1, Q2. rewrite Z.add_0_r, K0 in Q0. rewrite K1 in Q1. rewrite K2 in Q2.
    repeat split; apply Rnot_lt_le; auto.
Qed.
Lemma beyond_dec q e : {beyond pts T q e} + {~ beyond pts T q e}.
Proof. unfold beyond. apply Rlt_dec. Qed.
(* one step further, or in the triangle, or at the boundary and outside *)
Lemma step_or_stop q k : 0 <= 3 * k < N -> (exists k', towards pts T H q k k' /\ 0 <= 3 * k' < N) \/ in_triangle_or_edge pts q (corners T k) \/
  (exists e, 0 <= e < N /\ e / 3 = k /\ beyond pts T q e /\ entry H e = -1).
Proof.
  intros Hk. assert (Cs : forall i, 0 <= i <= 2 -> (exists k', towards pts T H q k k' /\ 0 <= 3 * k' < N) \/
    (exists e, 0 <= e < N /\ e / 3 = k /\ beyond pts T q e /\ entry H e = -1) \/ ~ beyond pts T q (3 * k + i)).
  { intros i Hi. destruct (edges_of k Hk i Hi) as (R & D). destruct (beyond_dec q (3 * k + i)) as [Bq|Bq]; [|auto].
    destruct (Z.eq_dec (entry H (3 * k + i)) (-1)) as [X|X]; [right; left; eauto|]. left. destruct (twin _ R X) as (Ht & _). exists (entry H (3 * k + i) / 3). split; [exists (3 * k + i); auto|apply div_range; exact Ht]. }
  destruct (Cs 0 ltac:(lia)) as [S|[S|S0]]; auto. destruct (Cs 1 ltac:(lia)) as [S|[S|S1]]; auto. destruct (Cs 2 ltac:(lia)) as [S|[S|S2]]; auto.
  right. left. apply inside_iff; [exact Hk|]. intros e He Ee. pose proof (next_cases e (proj1 He)) as D. cbv zeta in D. rewrite Ee in D.
  destruct D as [(E & _)|[(E & _)|(E & _)]]; rewrite E; auto. rewrite <- (Z.add_0_r (3 * k)). exact S0.
Qed.
Lemma walk_snoc q l k k' : walk pts T H q (l ++ [k]) -> towards pts T H q k k' -> 0 <= 3 * k' < N -> walk pts T H q ((l ++ [k]) ++ [k']).
Proof.
  intros W To Hk'. induction l as [|x l IH]; [apply walk_cons; [exact To|constructor; exact Hk']|].
  destruct l as [|y l]; cbn [app] in *; inversion W as [|? ? ? Ta Wa]; subst; apply walk_cons; auto.
Qed.
Lemma last_any (x : Z) l : forall d d', last (x :: l) d = last (x :: l) d'.
Proof. revert x. induction l as [|y l IH]; intros x d d'; [reflexivity|]. change (last (y :: l) d = last (y :: l) d'). apply IH. Qed.
(* every walk can be carried on until it stops *)
Lemma walk_extend q l k : walk pts T H q (l ++ [k]) -> exists m z, walk pts T H q (l ++ k :: m) /\ last (k :: m) k = z /\ 0 <= 3 * z < N /\
  (in_triangle_or_edge pts q (corners T z) \/ exists e, 0 <= e < N /\ e / 3 = z /\ beyond pts T q e /\ entry H e = -1).
Proof.
  remember (length (triples T) - length l)%nat as n eqn:En. revert l k En. induction n as [|n IH]; intros l k En W.
  - exfalso. apply walk_length in W. rewrite app_length in W. simpl in W. lia.
  - pose proof (walk_range q _ W k ltac:(apply in_or_app; right; left; reflexivity)) as Hk.
    destruct (step_or_stop q k Hk) as [(k' & To & Hk')|S]; [|exists [], k; auto].
    destruct (IH (l ++ [k]) k') as (m & z & Wm & Ez & Hz & Sz); [rewrite app_length; simpl; lia|apply walk_snoc; auto|].
    exists (k' :: m), z. rewrite <- app_assoc in Wm. split; [exact Wm|]. split; [|auto]. rewrite <- Ez. change (last (k :: k' :: m) k) with (last (k' :: m) k). apply last_any.
Qed.
End Walk.
