(** Adding a triangle (x, p, y) to the mesh (triangulate2/triangulator.go:addTriangle). *)
From Coq Require Import ZArith Lia List Bool Reals Lra.
From Verif Require Import Base Arith Spec_r3 Spec_plane P_tri2 P_delgeom P_halfedge P_ring P_flip P_leg.
Import ListNotations.
Open Scope Z_scope.

Definition addT (T : Z -> Z) (L x p y : Z) : Z -> Z := upd (upd (upd T L x) (L + 1) p) (L + 2) y.
Definition addH (H : Z -> Z) (L l0 l1 l2 : Z) : Z -> Z := flink (flink (flink H L l0) (L + 1) l1) (L + 2) l2.

Section Add.
Variables (L : Z) (T H : Z -> Z) (x p y l0 l1 l2 : Z).
Hypothesis M : mesh L T H.
Hypothesis Hxp : x <> p.
Hypothesis Hpy : p <> y.
Hypothesis Hyx : y <> x.
(* the boundary slot l joins u and v in this direction *)
Definition joins (l u v : Z) : Prop := 0 <= l < L /\ H l = -1 /\ T l = u /\ T (nx l) = v.
Hypothesis J0 : l0 = -1 \/ joins l0 p x.
Hypothesis J1 : l1 = -1 \/ joins l1 y p.
Hypothesis J2 : l2 = -1 \/ joins l2 x y.
Notation T1 := (addT T L x p y).
Notation H1 := (addH H L l0 l1 l2).

Lemma add_slots : nx L = L + 1 /\ nx (L + 1) = L + 2 /\ nx (L + 2) = L /\ pv L = L + 2 /\ pv (L + 1) = L /\ pv (L + 2) = L + 1.
Proof.
  clear Hxp Hpy Hyx J0 J1 J2.
  pose proof (m_L3 _ _ _ M) as L3. apply Z.mod_divide in L3; [|lia]. destruct L3 as [k E].
  replace L with (3 * k) by lia. rewrite nx_0, nx_1, nx_2, pv_0, pv_1, pv_2. repeat split.
Qed.
Lemma addT_new : T1 L = x /\ T1 (L + 1) = p /\ T1 (L + 2) = y.
Proof.
  clear M Hxp Hpy Hyx J0 J1 J2. unfold addT. repeat split.
  - rewrite !upd_other by lia. apply upd_same.
  - rewrite !upd_other by lia. apply upd_same.
  - apply upd_same.
Qed.
Lemma addT_old e : 0 <= e < L -> T1 e = T e /\ T1 (nx e) = T (nx e) /\ T1 (pv e) = T (pv e).
Proof.
  clear Hxp Hpy Hyx J0 J1 J2.
  intros He. pose proof (nx_range L e (m_L3 _ _ _ M) He). pose proof (pv_range L e (m_L3 _ _ _ M) He).
  unfold addT. rewrite !upd_other by lia. auto.
Qed.
Lemma addH_eqs :
  H1 L = l0 /\ H1 (L + 1) = l1 /\ H1 (L + 2) = l2 /\
  (0 <= l0 -> H1 l0 = L) /\ (0 <= l1 -> H1 l1 = L + 1) /\ (0 <= l2 -> H1 l2 = L + 2) /\
  (forall e, 0 <= e < L -> e <> l0 -> e <> l1 -> e <> l2 -> H1 e = H e).
Proof.
  pose proof (m_L _ _ _ M) as LL.
  assert (B0 : l0 < L) by (destruct J0 as [->|(Q & _)]; lia).
  assert (B1 : l1 < L) by (destruct J1 as [->|(Q & _)]; lia).
  assert (B2 : l2 < L) by (destruct J2 as [->|(Q & _)]; lia).
  assert (N01 : 0 <= l0 -> l0 <> l1).
  { intros P0 E. destruct J0 as [|(_ & _ & Q & _)]; [lia|]. destruct J1 as [|(_ & _ & Q' & _)]; [lia|]. congruence. }
  assert (N02 : 0 <= l0 -> l0 <> l2).
  { intros P0 E. destruct J0 as [|(_ & _ & Q & _)]; [lia|]. destruct J2 as [|(_ & _ & Q' & _)]; [lia|]. congruence. }
  assert (N12 : 0 <= l1 -> l1 <> l2).
  { intros P0 E. destruct J1 as [|(_ & _ & Q & _)]; [lia|]. destruct J2 as [|(_ & _ & Q' & _)]; [lia|]. congruence. }
  assert (F : forall G u l e, e <> u -> (0 <= l -> e <> l) -> flink G u l e = G e).
  { intros G u l e E1 E2. unfold flink. destruct (Z.leb_spec 0 l); rewrite ?upd_other; auto. }
  assert (F1 : forall G u l, l < u -> flink G u l u = l).
  { intros G u l E. unfold flink. destruct (Z.leb_spec 0 l).
    - rewrite upd_other by lia. apply upd_same.
    - apply upd_same. }
  assert (F2 : forall G u l, 0 <= l -> flink G u l l = u).
  { intros G u l E. unfold flink. destruct (Z.leb_spec 0 l); [|lia]. apply upd_same. }
  unfold addH. repeat split.
  - rewrite !F by lia. apply F1; lia.
  - rewrite F by lia. apply F1; lia.
  - apply F1; lia.
  - intros Q. rewrite F by (auto; lia). rewrite F by (auto; lia). apply F2; auto.
  - intros Q. rewrite F by (auto; lia). apply F2; auto.
  - intros Q. apply F2; auto.
  - intros e He E0 E1 E2. rewrite !F by (auto; lia). reflexivity.
Qed.
Lemma new_slot e : 0 <= e < L + 3 -> 0 <= e < L \/ e = L \/ e = L + 1 \/ e = L + 2.
Proof. clear. lia. Qed.

Lemma add_mesh : mesh (L + 3) T1 H1.
Proof.
  destruct add_slots as (S1 & S2 & S3 & S4 & S5 & S6).
  destruct addT_new as (A1 & A2 & A3).
  destruct addH_eqs as (B1 & B2 & B3 & B4 & B5 & B6 & B7).
  pose proof (m_L _ _ _ M) as LL. pose proof (m_L3 _ _ _ M) as L3.
  assert (JJ : forall l u v w, l = -1 \/ joins l u v -> 0 <= w < L + 3 -> T1 (nx w) = u -> T1 w = v -> (0 <= l -> H1 l = w) -> H1 w = l ->
     H1 w = -1 \/ (0 <= H1 w < L + 3 /\ H1 (H1 w) = w /\ T1 (H1 w) = T1 (nx w) /\ T1 (nx (H1 w)) = T1 w)).
  { intros l u v w [->|(Q1 & Q2 & Q3 & Q4)] Hw E1 E2 E3 E4; [left; auto|right].
    rewrite E4. destruct (addT_old l Q1) as (O1 & O2 & _). rewrite E3, O1, O2 by lia.
    repeat split; try lia; congruence. }
  constructor.
  - lia.
  - rewrite Z.add_mod, L3 by lia. reflexivity.
  - intros e He. destruct (new_slot e He) as [Ho|[->|[->| ->]]].
    + destruct (Z.eq_dec e l0) as [E0|E0].
      { right. rewrite E0 in *. destruct J0 as [|(Q1 & Q2 & Q3 & Q4)]; [lia|].
        destruct (addT_old l0 Ho) as (O1 & O2 & _). rewrite B4 by lia. rewrite B1, S1, A1, A2, O1, O2. repeat split; auto; lia. }
      destruct (Z.eq_dec e l1) as [E1|E1].
      { right. rewrite E1 in *. destruct J1 as [|(Q1 & Q2 & Q3 & Q4)]; [lia|].
        destruct (addT_old l1 Ho) as (O1 & O2 & _). rewrite B5 by lia. rewrite B2, S2, A2, A3, O1, O2. repeat split; auto; lia. }
      destruct (Z.eq_dec e l2) as [E2|E2].
      { right. rewrite E2 in *. destruct J2 as [|(Q1 & Q2 & Q3 & Q4)]; [lia|].
        destruct (addT_old l2 Ho) as (O1 & O2 & _). rewrite B6 by lia. rewrite B3, S3, A1, A3, O1, O2. repeat split; auto; lia. }
      rewrite B7 by auto. destruct (m_pair _ _ _ M e Ho) as [Q|(Q1 & Q2 & Q3 & Q4)]; [left; auto|right].
      destruct (addT_old e Ho) as (O1 & O2 & _). destruct (addT_old (H e) Q1) as (O3 & O4 & _).
      rewrite O1, O2, O3, O4. rewrite B7; auto.
      * repeat split; auto; lia.
      * intros E. destruct J0 as [|(_ & W & _)]; [lia|]. rewrite <- E, Q2 in W. lia.
      * intros E. destruct J1 as [|(_ & W & _)]; [lia|]. rewrite <- E, Q2 in W. lia.
      * intros E. destruct J2 as [|(_ & W & _)]; [lia|]. rewrite <- E, Q2 in W. lia.
    + apply (JJ l0 p x); auto; try lia; congruence.
    + apply (JJ l1 y p); auto; try lia; congruence.
    + apply (JJ l2 x y); auto; try lia; congruence.
  - intros e He. destruct (new_slot e He) as [Ho|[->|[->| ->]]].
    + destruct (addT_old e Ho) as (O1 & O2 & _). rewrite O1, O2. apply (m_ne _ _ _ M); auto.
    + rewrite S1. congruence.
    + rewrite S2. congruence.
    + rewrite S3. congruence.
Qed.
End Add.

Section AddGeo.
Variables (P : Z -> rv) (p : Z) (V0 : list Z).
Variables (L : Z) (T H : Z -> Z) (x y l0 l1 l2 : Z).
Hypothesis G : ginv P p V0 L T H.
Hypothesis LE : legal_except P p L T H (fun _ => False).
Hypothesis Hp : ~ In p V0.
Hypothesis Hx : In x V0.
Hypothesis Hy : In y V0.
Hypothesis Hyx : y <> x.
Hypothesis J0 : l0 = -1 \/ joins L T H l0 p x.
Hypothesis J1 : l1 = -1 \/ joins L T H l1 y p.
Hypothesis J2 : joins L T H l2 x y.
Hypothesis Hvis : (ar (P p) (P x) (P y) < 0)%R.
Hypothesis Hhull : forall v, In v V0 -> (0 <= ar (P v) (P x) (P y))%R.
Notation T1 := (addT T L x p y).
Notation H1 := (addH H L l0 l1 l2).
Notation M := (g_mesh _ _ _ _ _ _ G).

Lemma add_xp : x <> p. Proof. congruence. Qed.
Lemma add_py : p <> y. Proof. congruence. Qed.
Lemma add_neigh : ~ has p T l2.
Proof.
  destruct J2 as (Q1 & Q2 & Q3 & Q4). intros [E|[E|E]]; [congruence|congruence|].
  pose proof (g_or _ _ _ _ _ _ G l2 Q1) as O. unfold orient in O. rewrite Q3, Q4, E in O.
  clear - O Hvis. arlra.
Qed.
Lemma add_old_same e : 0 <= e < L -> orient P T1 e = orient P T e /\ (forall v, circ P T1 e v = circ P T e v) /\
  (has p T1 e <-> has p T e) /\ T1 e = T e /\ T1 (nx e) = T (nx e) /\ T1 (pv e) = T (pv e).
Proof.
  intros He. destruct (addT_old L T H x p y M e He) as (O1 & O2 & O3).
  unfold orient, circ, has. rewrite O1, O2, O3. intuition.
Qed.
Lemma add_ginv : ginv P p V0 (L + 3) T1 H1.
Proof.
  destruct (add_slots L T H M) as (S1 & S2 & S3 & S4 & S5 & S6).
  destruct (addT_new L T x p y) as (A1 & A2 & A3).
  pose proof (m_L _ _ _ M) as LL.
  assert (O : orient P T1 L = ar (P x) (P p) (P y)).
  { unfold orient. rewrite S1, S4, A1, A2, A3. reflexivity. }
  assert (st : forall e, e = L \/ e = L + 1 \/ e = L + 2 -> same_tri L e).
  { intros e. unfold same_tri. rewrite S1, S4. intuition. }
  constructor.
  - apply (add_mesh L T H x p y l0 l1 l2 M add_xp add_py Hyx J0 J1 (or_intror J2)).
  - intros e He. destruct (new_slot L e He) as [Ho|Hn].
    + destruct (add_old_same e Ho) as (-> & _). apply (g_or _ _ _ _ _ _ G); auto.
    + rewrite (orient_same P T1 L e) by (apply st; auto). rewrite O. clear - Hvis. arlra.
  - intros e He. destruct (new_slot L e He) as [Ho|[->|[->| ->]]].
    + destruct (add_old_same e Ho) as (_ & _ & _ & -> & _). apply (g_vert _ _ _ _ _ _ G); auto.
    + rewrite A1. auto.
    + rewrite A2. auto.
    + rewrite A3. auto.
  - intros e He Hne v Hv. destruct (new_slot L e He) as [Ho|Hn].
    + destruct (add_old_same e Ho) as (_ & -> & Q & _). apply (g_empty _ _ _ _ _ _ G); auto. tauto.
    + exfalso. apply Hne. apply (has_same_tri p T1 L e); [apply st; auto|]. right; left. rewrite S1. auto.
  - intros e He Hpe v Hv Hs. destruct (new_slot L e He) as [Ho|[->|[->| ->]]].
    + destruct (add_old_same e Ho) as (_ & Q & _ & O1 & O2 & O3). rewrite Q.
      rewrite O3 in Hpe. rewrite O1, O2 in Hs. apply (g_side _ _ _ _ _ _ G); auto.
    + rewrite S4, A3 in Hpe. exfalso. apply add_py; auto.
    + rewrite S5, A1 in Hpe. exfalso. apply add_xp; auto.
    + unfold circ. rewrite S3, S6, A1, A2, A3 in *.
      destruct J2 as (Q1 & Q2 & Q3 & Q4).
      assert (Z0 : ar (P x) (P y) (P v) = 0%R).
      { specialize (Hhull v Hv). clear - Hhull Hs. arlra. }
      pose proof (g_empty _ _ _ _ _ _ G l2 Q1 add_neigh v Hv) as Em. unfold circ in Em. rewrite Q3, Q4 in Em.
      rewrite incirc_pencil, Z0 in Em.
      pose proof (g_or _ _ _ _ _ _ G l2 Q1) as Or. unfold orient in Or. rewrite Q3, Q4 in Or.
      assert (D : (0 <= dt (P v) (P x) (P y))%R).
      { destruct (Rle_lt_dec 0 (dt (P v) (P x) (P y))) as [|N]; auto.
        pose proof (Rmult_lt_0_compat _ _ Or (Ropp_0_gt_lt_contravar _ N)). lra. }
      rewrite incirc_pencil. replace (dt (P v) (P y) (P x)) with (dt (P v) (P x) (P y)) by (unfold dt; ring).
      rewrite (ar_swap (P x) (P y) (P v)), Z0.
      assert (E : (0 <= ar (P y) (P x) (P p))%R) by (clear - Hvis; arlra).
      pose proof (Rmult_le_pos _ _ E D). lra.
Qed.
Lemma add_legal : legal_except P p (L + 3) T1 H1 (fun e => e = L + 2 \/ False).
Proof.
  destruct (add_slots L T H M) as (S1 & S2 & S3 & S4 & S5 & S6).
  destruct (addT_new L T x p y) as (A1 & A2 & A3).
  destruct (addH_eqs L T H x p y l0 l1 l2 M add_xp add_py Hyx J0 J1 (or_intror J2)) as (B1 & B2 & B3 & B4 & B5 & B6 & B7).
  intros e He Hpe HQ HH. destruct (new_slot L e He) as [Ho|[->|[->| ->]]].
  - destruct (add_old_same e Ho) as (_ & -> & _ & _ & _ & O3). rewrite O3 in Hpe.
    destruct (mesh_distinct _ _ _ e M Ho) as (D1 & D2 & D3).
    assert (E : H1 e = H e).
    { apply B7; auto; intros ->.
      - destruct J0 as [->|(_ & _ & Q & _)]; [lia|congruence].
      - destruct J1 as [->|(_ & _ & _ & Q)]; [lia|congruence].
      - apply add_neigh. right; right; auto. }
    rewrite E in *. destruct (m_pair _ _ _ M e Ho) as [Q|(Q & _)]; [lia|].
    destruct (add_old_same (H e) Q) as (_ & _ & _ & _ & _ & ->). apply LE; auto.
  - rewrite S4, A3 in Hpe. exfalso. apply add_py; auto.
  - rewrite S5, A1 in Hpe. exfalso. apply add_xp; auto.
  - exfalso. auto.
Qed.
End AddGeo.
