(** Proofs about the Voronoi diagram and empty circles (property C179). *)
From Coq Require Import ZArith Lia List Bool Reals Lra.
From Verif Require Import Spec_r3 Spec_plane Spec_halfedge Spec_delaunay Spec_delaunay2 Spec_voronoi P_tri2 P_ring P_result P_delcomp.
Import ListNotations.
Open Scope R_scope.

Section voronoi.
Variables (pts : list rv) (T I : list Z).
Hypothesis G : good pts T I.
Notation P := (point pts).
Lemma hull_within q : hull_point pts T q -> exists a b c al be ga, In (a, b, c) (triples T) /\ mean_of (P a) (P b) (P c) q al be ga.
Proof.
  intros (u & v & w & al & be & ga & Hu & Hv & Hw & B).
  destruct (cover_closed _ _ _ G q) as ([[a b] c] & Ht & K).
  { apply within_ccw. intros e He.
    pose proof (proj1 (within_ccw _ _ _) (within_T _ _ _ G _ Hu) e He) as X. pose proof (proj1 (within_ccw _ _ _) (within_T _ _ _ G _ Hv) e He) as Y. pose proof (proj1 (within_ccw _ _ _) (within_T _ _ _ G _ Hw) e He) as Z.
    destruct B as (A0 & B0 & G0 & S & Ex & Ey).
    replace (ccw (fst e) (snd e) q) with (al * ccw (fst e) (snd e) (P u) + be * ccw (fst e) (snd e) (P v) + ga * ccw (fst e) (snd e) (P w)).
    - pose proof (Rmult_le_pos _ _ A0 X). pose proof (Rmult_le_pos _ _ B0 Y). pose proof (Rmult_le_pos _ _ G0 Z). lra.
    - unfold ccw. rewrite Ex, Ey. replace al with (1 - be - ga) by lra. ring. }
  destruct (tri_bary _ _ _ G _ _ _ _ Ht K) as (al' & be' & ga' & B'). exists a, b, c, al', be', ga'. auto.
Qed.
Lemma corner_near a b c q al be ga o r2 : mean_of a b c q al be ga -> circle3 o r2 a b c ->
  al * dist2xy a q + be * dist2xy b q + ga * dist2xy c q = r2 - dist2xy q o.
Proof.
  intros M (C1 & C2 & C3). destruct M as (_ & _ & _ & S & Ex & Ey). rewrite <- C1. assert (E2 : dist2xy b o = dist2xy a o) by congruence. assert (E3 : dist2xy c o = dist2xy a o) by congruence.
  assert (Q : al * dist2xy a q + be * dist2xy b q + ga * dist2xy c q = al * dist2xy a o + be * dist2xy b o + ga * dist2xy c o - dist2xy q o).
  { unfold dist2xy. rewrite Ex, Ey. replace al with (1 - be - ga) by lra. ring. }
  rewrite Q, E2, E3. replace al with (1 - be - ga) by lra. ring.
Qed.
Lemma near_corner q : hull_point pts T q -> exists o r2 v, circumcircle_of pts T o r2 /\ In v T /\ dist2xy (P v) q + dist2xy q o <= r2.
Proof.
  intros H. destruct (hull_within q H) as (a & b & c & al & be & ga & Ht & M). destruct (circum _ _ _ G _ _ _ Ht) as (o & r2 & C).
  pose proof (corner_near _ _ _ _ _ _ _ _ _ M C) as E. destruct (triples_In _ _ _ _ Ht) as (Ia & Ib & Ic).
  exists o, r2. assert (CC : circumcircle_of pts T o r2) by (exists a, b, c; auto). set (m := r2 - dist2xy q o) in *.
  destruct (Rle_or_lt (dist2xy (P a) q) m) as [L|La]; [exists a; unfold m in L; repeat split; auto; lra|].
  destruct (Rle_or_lt (dist2xy (P b) q) m) as [L|Lb]; [exists b; unfold m in L; repeat split; auto; lra|].
  destruct (Rle_or_lt (dist2xy (P c) q) m) as [L|Lc]; [exists c; unfold m in L; repeat split; auto; lra|].
  exfalso. destruct M as (A0 & B0 & G0 & S & _).
  assert (0 <= al * (dist2xy (P a) q - m)) by (apply Rmult_le_pos; lra). assert (0 <= be * (dist2xy (P b) q - m)) by (apply Rmult_le_pos; lra). assert (0 <= ga * (dist2xy (P c) q - m)) by (apply Rmult_le_pos; lra).
  assert (Z : al * (dist2xy (P a) q - m) + be * (dist2xy (P b) q - m) + ga * (dist2xy (P c) q - m) = 0) by (replace al with (1 - be - ga) in * by lra; lra).
  assert (Za : al * (dist2xy (P a) q - m) = 0) by lra. assert (Zb : be * (dist2xy (P b) q - m) = 0) by lra. assert (Zc : ga * (dist2xy (P c) q - m) = 0) by lra.
  apply Rmult_integral in Za, Zb, Zc. lra.
Qed.
Lemma empty_in_hull q s2 : hull_point pts T q -> free_circle pts T q s2 -> exists o r2, circumcircle_of pts T o r2 /\ s2 + dist2xy q o <= r2.
Proof. intros H F. destruct (near_corner q H) as (o & r2 & v & C & Hv & L). exists o, r2. split; [exact C|]. specialize (F v Hv). lra. Qed.
Lemma circum_free o r2 : circumcircle_of pts T o r2 -> free_circle pts T o r2.
Proof. intros (a & b & c & Ht & C) v Hv. exact (g_del _ _ _ G _ _ _ Ht _ _ C v Hv). Qed.
Lemma corner_circum o r2 : voronoi_corner pts T o r2 <-> circumcircle_of pts T o r2.
Proof.
  split.
  - intros (F & u & v & w & Hu & Hv & Hw & (Ou & Ov & Ow) & Or).
    set (x := RV ((rx (P u) + rx (P v) + rx (P w)) / 3) ((ry (P u) + ry (P v) + ry (P w)) / 3) 0).
    assert (Bx : mean_of (P u) (P v) (P w) x (/ 3) (/ 3) (/ 3)) by (unfold x; repeat split; cbn [rx ry]; lra).
    destruct (hull_within x) as (a & b & c & al & be & ga & Ht & Ba); [exists u, v, w, (/ 3), (/ 3), (/ 3); auto|].
    destruct (circum _ _ _ G _ _ _ Ht) as (o2 & s2 & C). exists a, b, c. split; [exact Ht|].
    pose proof (g_del _ _ _ G _ _ _ Ht _ _ C u Hu) as Du. pose proof (g_del _ _ _ G _ _ _ Ht _ _ C v Hv) as Dv. pose proof (g_del _ _ _ G _ _ _ Ht _ _ C w Hw) as Dw. destruct C as (C1 & C2 & C3).
    destruct (triples_In _ _ _ _ Ht) as (Ia & Ib & Ic). pose proof (F a Ia) as Ga. pose proof (F b Ib) as Gb. pose proof (F c Ic) as Gc. 
    pose proof (bary_gap _ _ _ _ _ _ _ o2 o Ba) as E. rewrite (bary_gap _ _ _ _ _ _ _ o2 o Bx) in E. pose proof Ba as (A0 & B0 & G0 & S & _).
    assert (Q1 : 0 <= al * (dist2xy (P a) o - r2)) by (apply Rmult_le_pos; lra). assert (Q2 : 0 <= be * (dist2xy (P b) o - r2)) by (apply Rmult_le_pos; lra). assert (Q3 : 0 <= ga * (dist2xy (P c) o - r2)) by (apply Rmult_le_pos; lra).
    assert (EQ : dist2xy (P u) o2 = s2 /\ dist2xy (P v) o2 = s2 /\ dist2xy (P w) o2 = s2).
    { unfold gap in E. rewrite C1, C2, C3, Ou, Ov, Ow in E. replace al with (1 - be - ga) in E, Q1 by lra. lra. }
    destruct EQ as (Eu & Ev & Ew).
    assert (OO : rx o = rx o2 /\ ry o = ry o2 /\ r2 = s2).
    { destruct (circle3_unique (P u) (P v) (P w) o r2 Or) as (X1 & Y1 & R1); [repeat split; auto|].
      destruct (circle3_unique (P u) (P v) (P w) o2 s2 Or) as (X2 & Y2 & R2); [repeat split; auto|]. repeat split; congruence. }
    destruct OO as (OX & OY & ->). assert (Sd : forall p, dist2xy p o = dist2xy p o2) by (intros p; unfold dist2xy; rewrite OX, OY; reflexivity).
    split; [rewrite Sd; exact C1|]. split; [rewrite Sd; exact C2|rewrite Sd; exact C3].
  - intros H. split; [apply circum_free, H|]. destruct H as (a & b & c & Ht & C). destruct (triples_In _ _ _ _ Ht) as (Ia & Ib & Ic).
    exists a, b, c. do 4 (split; [assumption|]). pose proof (g_pos _ _ _ G _ _ _ Ht). lra.
Qed.
Lemma joined_neighbours u v : joined T u v -> voronoi_neighbours pts T u v.
Proof.
  intros (N & a & b & c & Ht & Hu & Hv). destruct (circum _ _ _ G _ _ _ Ht) as (o & r2 & C). pose proof (g_del _ _ _ G _ _ _ Ht _ _ C) as D. destruct C as (C1 & C2 & C3).
  assert (Eu : dist2xy (P u) o = r2) by (destruct Hu as [<-|[<-|[<-|[]]]]; assumption). assert (Ev : dist2xy (P v) o = r2) by (destruct Hv as [<-|[<-|[<-|[]]]]; assumption).
  exists o. rewrite Eu, Ev. split; [reflexivity|]. exact D.
Qed.
End voronoi.
Lemma shows_all pts T : (T <> [] -> exists I, good pts T I) -> shows_nearest pts T.
Proof.
  intros GG. assert (Gu : forall u, In u T -> exists I, good pts T I) by (intros u Hu; apply GG; intros ->; destruct Hu).
  assert (Gt : forall a b c, In (a, b, c) (triples T) -> exists I, good pts T I) by (intros a b c H; destruct (triples_In _ _ _ _ H) as (Ha & _); exact (Gu a Ha)).
  split; [|split; [|split; [|split]]].
  - intros o r2. split; intros H.
    + pose proof H as (_ & u & v & w & Hu & _). destruct (Gu u Hu) as (I & G). apply (corner_circum _ _ _ G); exact H.
    + pose proof H as (a & b & c & Ht & _). destruct (Gt a b c Ht) as (I & G). apply (corner_circum _ _ _ G); exact H.
  - intros u v J. pose proof J as (_ & a & b & c & Ht & _). destruct (Gt a b c Ht) as (I & G). exact (joined_neighbours _ _ _ G u v J).
  - intros u v o Hu Hv N E F. destruct (Gu u Hu) as (I & G). apply (edge_required _ _ _ G u v o (dist2xy (point pts u) o) Hu Hv N). split.
    + intros x [<-|[<-|[]]]; [reflexivity|symmetry; exact E].
    + intros w Hw K. apply F; [exact Hw|intros ->; apply K; left; reflexivity|intros ->; apply K; right; left; reflexivity].
  - intros q s2 H F. pose proof H as (u & _ & _ & _ & _ & _ & Hu & _). destruct (Gu u Hu) as (I & G). exact (empty_in_hull _ _ _ G q s2 H F).
  - intros m B q H. pose proof H as (u & _ & _ & _ & _ & _ & Hu & _). destruct (Gu u Hu) as (I & G). destruct (near_corner _ _ _ G q H) as (o & r2 & v & C & Hv & L).
    exists v. split; [exact Hv|]. specialize (B o r2 C). assert (0 <= dist2xy q o) by (unfold dist2xy; pose proof (Rle_0_sqr (rx q - rx o)); pose proof (Rle_0_sqr (ry q - ry o)); unfold Rsqr in *; lra). lra.
Qed.
