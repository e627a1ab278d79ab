(** The flip recursion (triangulate2/triangulator.go:legalize) as a relation on
    slot -> vertex, slot -> twin and hull node -> slot functions, and what it preserves. *)
From Coq Require Import ZArith Lia List Bool Reals Lra.
From Verif Require Import Base Arith Spec_r3 Spec_plane P_tri2 P_delgeom P_halfedge P_ring P_flip.
Import ListNotations.
Open Scope Z_scope.

(* one hull node with t = bl gets t = a, if there is one and bl is on the boundary *)
Definition FixN (R : list Z) (H N : Z -> Z) (bl a : Z) (N1 : Z -> Z) : Prop :=
  (H bl = -1 -> (exists v, In v R /\ N v = bl /\ N1 = upd N v a) \/ ((forall v, In v R -> N v <> bl) /\ N1 = N)) /\
  (H bl <> -1 -> N1 = N).

Inductive Leg (bad : Z -> Z -> Z -> Z -> bool) (R : list Z) :
  (Z -> Z) -> (Z -> Z) -> (Z -> Z) -> Z -> (Z -> Z) -> (Z -> Z) -> (Z -> Z) -> Z -> Prop :=
| Leg_stop T H N a :
    H a < 0 \/ bad (T (pv a)) (T a) (T (nx a)) (T (pv (H a))) = false ->
    Leg bad R T H N a T H N (pv a)
| Leg_flip T H N a N1 T2 H2 N2 r2 T3 H3 N3 r :
    0 <= H a -> bad (T (pv a)) (T a) (T (nx a)) (T (pv (H a))) = true ->
    FixN R H N (pv (H a)) a N1 ->
    Leg bad R (flipT T a (H a)) (flipH H a (H a)) N1 a T2 H2 N2 r2 ->
    Leg bad R T2 H2 N2 (nx (H a)) T3 H3 N3 r ->
    Leg bad R T H N a T3 H3 N3 r.

Section Hull.
Variables (P : Z -> rv) (p : Z) (V0 : list Z) (R : list Z) (X : Z -> Prop).
(* tin: a boundary slot into p not yet recorded in the hull; o: one out of p *)
Variable tin : Z.
Implicit Type o : Z.

Definition safe (T H : Z -> Z) (e : Z) : Prop :=
  0 <= e /\ (has p T e \/ 0 <= H e \/ (0 <= circ P T e p)%R).
Record hinv o (L : Z) (T H N : Z -> Z) : Prop := {
  h_ok : forall v w, In (v, w) (polygon_edges R) -> ~ X v ->
     0 <= N v < L /\ H (N v) = -1 /\ T (N v) = v /\ T (nx (N v)) = w;
  h_cov : forall e, 0 <= e < L -> H e = -1 ->
     (exists v, In v R /\ ~ X v /\ N v = e) \/ (e = tin /\ T (nx e) = p) \/ (e = o /\ T e = p);
  h_exc : forall v, In v R -> X v -> safe T H (N v) }.

Section One.
Variables (o L a : Z) (T H N N1 : Z -> Z).
Hypothesis G : ginv P p V0 L T H.
Hypothesis Ha : 0 <= a < L.
Hypothesis Hpa : T (pv a) = p.
Hypothesis Hb : 0 <= H a.
Hypothesis Hill : (circ P T a (T (pv (H a))) < 0)%R.
Hypothesis HI : hinv o L T H N.
Hypothesis HX : X p \/ 0 <= H (pv a).
Hypothesis HF : FixN R H N (pv (H a)) a N1.
Hypothesis Xdec : forall v, X v \/ ~ X v.
Notation b := (H a).
Notation M := (g_mesh _ _ _ _ _ _ G).
Notation p01 := (flip_p01 P p a T H Hpa Hill).
Notation T' := (flipT T a b).
Notation H' := (flipH H a b).

Lemma flip_circ_b : (circ P T b p < 0)%R.
Proof.
  destruct (flip_b _ _ _ a M Ha Hb) as (Rb & Ib & E1 & E2).
  revert Hill. unfold circ. rewrite Hpa, E1, E2.
  rewrite (incirc_swap2 (P (T a)) (P (T (nx a))) (P p) (P (T (pv b)))). auto.
Qed.
Lemma flip_keep e : ~ has p T e -> (0 <= circ P T e p)%R ->
  T' e = T e /\ T' (nx e) = T (nx e) /\ T' (pv e) = T (pv e).
Proof.
  intros He Hc. apply (flip_other_tri _ _ _ a M Ha Hb p01).
  - intros S. apply He. apply (has_same_tri p T a e S). right; right; auto.
  - intros S. rewrite (circ_same P T b e p S) in Hc. pose proof flip_circ_b. lra.
Qed.
Lemma flip_safe e : safe T H e -> safe T' H' e.
Proof.
  intros [Pe S]. split; [exact Pe|]. destruct S as [S|[S|S]].
  - left. apply (flip_has P p V0 L a T H); auto.
  - destruct (has_dec p T' e) as [|Hn]; [left; auto|]. right. left.
    destruct (flipH_eqs _ _ _ a M Ha Hb p01) as (A1 & A2 & A3 & A4 & A5 & A6 & A7).
    destruct (flip_tris _ _ _ a M Ha Hb p01) as (T1 & T2 & T3 & T4 & T5 & T6).
    assert (Ia : has p T' a) by (unfold has; rewrite T3; auto).
    assert (Ib : has p T' b) by (unfold has; rewrite T4; auto).
    assert (e <> a) by (intros ->; auto). assert (e <> b) by (intros ->; auto).
    assert (e <> pv a) by (intros ->; apply Hn; rewrite has_pv; auto).
    assert (e <> pv b) by (intros ->; apply Hn; rewrite has_pv; auto).
    destruct (flip_b _ _ _ a M Ha Hb) as (Rb & _).
    destruct (Z.eq_dec e (H (pv b))) as [->|Nc]. { rewrite A5; lia. }
    destruct (Z.eq_dec e (H (pv a))) as [->|Nd]. { rewrite A6; lia. }
    rewrite A7; auto.
  - destruct (has_dec p T e) as [Hh|Hn]; [left; apply (flip_has P p V0 L a T H); auto|].
    destruct (flip_keep e Hn S) as (K1 & K2 & K3). right. right. unfold circ in *. rewrite K1, K2, K3. auto.
Qed.

Lemma flip_hinv : hinv (if o =? pv a then b else o) L T' H' N1.
Proof.
  destruct (flip_b _ _ _ a M Ha Hb) as (Rb & Ib & E1 & E2).
  destruct (flip_tris _ _ _ a M Ha Hb p01) as (T1 & T2 & T3 & T4 & T5 & T6).
  destruct (flipT_eqs _ _ _ a M Ha Hb p01) as (_ & _ & TF).
  destruct (flipH_eqs _ _ _ a M Ha Hb p01) as (A1 & A2 & A3 & A4 & A5 & A6 & A7).
  destruct (mesh_distinct _ _ _ a M Ha) as (D1 & D2 & D3).
  pose proof (flip_nohas P p V0 L a T H G Ha Hpa Hb Hill) as NH.
  pose proof (pv_range L b (m_L3 _ _ _ M) Rb) as Rbl. pose proof (pv_range L a (m_L3 _ _ _ M) Ha) as Rar.
  (* the node of bl *)
  assert (NB : forall v, In v R -> N v = pv b -> H (pv b) = -1 -> ~ X v /\ v = T (pv b)).
  { intros v Hv Ev Hm. assert (NX : ~ X v).
    { intros Hx. destruct (h_exc _ _ _ _ _ HI v Hv Hx) as [_ [S|[S|S]]]; rewrite Ev in S.
      - apply NH. rewrite <- has_pv. auto.
      - lia.
      - rewrite circ_pv in S. pose proof flip_circ_b. lra. }
    split; auto. destruct (pe_succ R v Hv) as (w & Hw).
    destruct (h_ok _ _ _ _ _ HI v w Hw NX) as (_ & _ & Q & _). rewrite Ev in Q. auto. }
  assert (HN1 : forall v, In v R -> (N v = pv b -> H (pv b) = -1 -> N1 v = a) /\ (N v <> pv b \/ H (pv b) <> -1 -> N1 v = N v)).
  { intros v Hv. destruct (Z.eq_dec (H (pv b)) (-1)) as [Em|Em].
    - destruct (proj1 HF Em) as [(u & Hu & Eu & ->)|(Hno & ->)].
      + destruct (NB u Hu Eu Em) as [_ Q]. split.
        * intros Ev _. destruct (NB v Hv Ev Em) as [_ Q']. replace v with u by congruence. apply upd_same.
        * intros [Nv|]; [|contradiction]. apply upd_other. congruence.
      + split; [intros Ev; exfalso; apply (Hno v Hv Ev)|auto].
    - rewrite (proj2 HF Em). split; [lia|auto]. }
  constructor.
  - intros v w Hvw HXv. destruct (pe_In R v w Hvw) as [Hv Hw].
    destruct (h_ok _ _ _ _ _ HI v w Hvw HXv) as (K1 & K2 & K3 & K4).
    destruct (HN1 v Hv) as [Q1 Q2].
    destruct (Z.eq_dec (N v) (pv b)) as [Ev|Ev].
    { rewrite Ev in *. rewrite Q1 by auto. rewrite A1, T1, T2. rewrite nx_pv in K4.
      split; [exact Ha|]. repeat split; auto; congruence. }
    rewrite Q2 by auto. set (e := N v) in *. clearbody e.
    assert (Na : e <> a) by (intros ->; lia).
    assert (Nb : e <> b) by (intros ->; lia).
    assert (Nar : e <> pv a).
    { intros ->. destruct HX as [Hx|Hx]; [apply HXv; congruence|lia]. }
    split; [exact K1|]. repeat split.
    + rewrite A7; auto; intros Hc ->.
      * destruct (flip_c _ _ _ a M Ha Hb p01) as [Q|(_ & Q & _)]; [lia|]. lia.
      * destruct (flip_d _ _ _ a M Ha Hb p01) as [Q|(_ & Q & _)]; [lia|]. lia.
    + rewrite TF; auto.
    + rewrite TF; auto; intros Q; apply (f_equal pv) in Q; rewrite pv_nx in Q; auto.
  - intros e He Hm.
    destruct (Z.eq_dec e a) as [->|Na].
    { rewrite A1 in Hm.
      destruct (h_cov _ _ _ _ _ HI (pv b) Rbl Hm) as [(v & Hv & HXv & Ev)|[[_ Q]|[_ Q]]].
      - left. exists v. repeat split; auto. apply (HN1 v Hv); auto.
      - exfalso. rewrite nx_pv in Q. apply NH. left; auto.
      - exfalso. apply NH. unfold has. auto. }
    destruct (Z.eq_dec e b) as [->|Nb].
    { right. right. split; [|congruence]. rewrite A2 in Hm.
      destruct (h_cov _ _ _ _ _ HI (pv a) Rar Hm) as [(v & Hv & HXv & Ev)|[[_ Q]|[<- _]]].
      - exfalso. destruct (pe_succ R v Hv) as (w & Hw).
        destruct (h_ok _ _ _ _ _ HI v w Hw HXv) as (_ & _ & Q & _). rewrite Ev, Hpa in Q. subst v.
        destruct HX; [auto|lia].
      - rewrite nx_pv in Q. exfalso. congruence.
      - rewrite Z.eqb_refl. reflexivity. }
    destruct (Z.eq_dec e (pv a)) as [->|Nar]. { rewrite A3 in Hm. lia. }
    destruct (Z.eq_dec e (pv b)) as [->|Nbl]. { rewrite A4 in Hm. lia. }
    assert (HeE : H' e = H e).
    { apply A7; auto; intros Hc ->.
      - rewrite A5 in Hm; lia.
      - rewrite A6 in Hm; lia. }
    rewrite HeE in Hm.
    destruct (h_cov _ _ _ _ _ HI e He Hm) as [(v & Hv & HXv & Ev)|[[Qt Q]|[Qo Q]]].
    + left. exists v. repeat split; auto. rewrite (proj2 (HN1 v Hv)); auto. left. congruence.
    + right. left. split; auto. rewrite TF; auto; intros Z0; apply (f_equal pv) in Z0; rewrite pv_nx in Z0; auto.
    + right. right. split; [|rewrite TF; auto].
      destruct (Z.eqb_spec o (pv a)); congruence.
  - intros v Hv Hx. pose proof (h_exc _ _ _ _ _ HI v Hv Hx) as S.
    rewrite (proj2 (HN1 v Hv)); [apply flip_safe; auto|].
    destruct (Z.eq_dec (N v) (pv b)) as [Ev|]; auto.
    destruct (Z.eq_dec (H (pv b)) (-1)) as [Em|]; auto.
    destruct (NB v Hv Ev Em); contradiction.
Qed.
End One.
End Hull.

Section LegPlanar.
Variables (P : Z -> rv) (p : Z) (V0 : list Z) (R : list Z) (X : Z -> Prop) (tin L : Z).
Variable bad : Z -> Z -> Z -> Z -> bool.
Hypothesis Xdec : forall v, X v \/ ~ X v.
(* the test is exact on counterclockwise triangles of known vertices *)
Definition known (v : Z) : Prop := v = p \/ In v V0.
Hypothesis Hbad : forall a b c v, known a -> known b -> known c -> known v -> (0 < ar (P a) (P b) (P c))%R ->
  bad a b c v = Rltb (incirc (P a) (P b) (P c) (P v)) 0.

Lemma bad_circ T H a v : ginv P p V0 L T H -> 0 <= a < L -> known v -> bad (T (pv a)) (T a) (T (nx a)) v = Rltb (circ P T a v) 0.
Proof.
  intros G Ha Kv. pose proof (m_L3 _ _ _ (g_mesh _ _ _ _ _ _ G)) as L3.
  rewrite Hbad; [unfold circ; rewrite incirc_rot2; reflexivity| | | |exact Kv|].
  - apply (g_vert _ _ _ _ _ _ G), pv_range; auto.
  - apply (g_vert _ _ _ _ _ _ G); auto.
  - apply (g_vert _ _ _ _ _ _ G), nx_range; auto.
  - pose proof (g_or _ _ _ _ _ _ G a Ha) as Q. unfold orient in Q. rewrite ar_rot2. exact Q.
Qed.

Record leg_post (o : Z) (T H N : Z -> Z) (a : Z) (T' H' N' : Z -> Z) (r : Z) : Prop := {
  l_ginv : ginv P p V0 L T' H';
  l_hinv : hinv P p R X tin (if o =? pv a then r else o) L T' H' N';
  l_r : 0 <= r < L /\ T' r = p /\ T' (nx r) = T a /\ H' r = H (pv a);
  l_T : forall e, has p T e -> e <> a -> T' e = T e;
  l_has : forall e, has p T e -> has p T' e;
  l_H : forall e, 0 <= e < L -> has p T e -> e <> a -> e <> pv a -> H e <> pv a -> H' e = H e;
  l_keep : forall e, ~ has p T e -> (0 <= circ P T e p)%R ->
     T' e = T e /\ T' (nx e) = T (nx e) /\ T' (pv e) = T (pv e);
  l_used : forall v, (exists e, 0 <= e < L /\ T e = v) -> exists e, 0 <= e < L /\ T' e = v }.

Lemma leg_planar T H N a T' H' N' r :
  Leg bad R T H N a T' H' N' r ->
  forall o, ginv P p V0 L T H -> hinv P p R X tin o L T H N -> 0 <= a < L -> T (pv a) = p ->
  X p \/ 0 <= H (pv a) -> has p T o \/ o = -1 ->
  leg_post o T H N a T' H' N' r /\
  (forall Q, legal_except P p L T H (fun e => e = a \/ Q e) -> legal_except P p L T' H' Q).
Proof.
  intros LG. induction LG as [T H N a Hs|T H N a N1 T2 H2 N2 r2 T3 H3 N3 r Hb Hbad1 HF L1 IH1 L2 IH2];
    intros o G HI Ha Hpa HX Ho.
  - split.
    + constructor; auto.
      { destruct (Z.eqb_spec o (pv a)); [subst o|]; auto. }
      rewrite nx_pv. repeat split; auto; apply (pv_range L a (m_L3 _ _ _ (g_mesh _ _ _ _ _ _ G)) Ha).
    + intros Q LE e He Hpe HQ HH. destruct (Z.eq_dec e a) as [->|Ne].
      * destruct Hs as [Hs|Hs]; [zl|]. rewrite (bad_circ T H) in Hs; auto; [|apply (g_vert _ _ _ _ _ _ G), pv_range; [apply (m_L3 _ _ _ (g_mesh _ _ _ _ _ _ G))|]; destruct (flip_b _ _ _ a (g_mesh _ _ _ _ _ _ G) Ha HH) as (Rb' & _); exact Rb']. unfold Rltb in Hs. destruct (Rlt_dec _ _); [discriminate|lra].
      * apply LE; auto. intros [?|?]; auto.
  - assert (Hill : (circ P T a (T (pv (H a))) < 0)%R).
    { rewrite (bad_circ T H) in Hbad1; auto; [|apply (g_vert _ _ _ _ _ _ G), pv_range; [apply (m_L3 _ _ _ (g_mesh _ _ _ _ _ _ G))|]; destruct (flip_b _ _ _ a (g_mesh _ _ _ _ _ _ G) Ha Hb) as (Rb' & _); exact Rb']. unfold Rltb in Hbad1. destruct (Rlt_dec _ _); [auto|discriminate]. }
    pose proof (g_mesh _ _ _ _ _ _ G) as M.
    pose proof (flip_p01 P p a T H Hpa Hill) as p01.
    destruct (flip_b _ _ _ a M Ha Hb) as (Rb & Ib & E1 & E2).
    destruct (flip_tris _ _ _ a M Ha Hb p01) as (T1 & T2' & T3' & T4 & T5 & T6).
    destruct (flipH_eqs _ _ _ a M Ha Hb p01) as (A1 & A2 & A3 & A4 & A5 & A6 & A7).
    pose proof (flip_nohas P p V0 L a T H G Ha Hpa Hb Hill) as NH.
    destruct (flip_six _ _ _ a M Ha Hb p01) as (S1 & S2 & S3 & S4 & S5 & S6 & S7 & S8 & S9 & S10 & S11 & S12 & S13 & S14 & S15).
    pose proof (pv_range L (H a) (m_L3 _ _ _ M) Rb) as Rbl.
    pose proof (nx_range L (H a) (m_L3 _ _ _ M) Rb) as Rbr.
    assert (hb : has p (flipT T a (H a)) (H a)) by (left; congruence).
    pose proof (flip_hinv P p V0 R X tin o L a T H N N1 G Ha Hpa Hb Hill HI HX HF) as HI1.
    pose proof (pv_range L a (m_L3 _ _ _ M) Ha) as Rar.
    pose proof (nx_range L a (m_L3 _ _ _ M) Ha) as Ral.
    assert (No : o <> H a). { intros ->. destruct Ho as [|E]; [auto|zl]. }
    set (o1 := if o =? pv a then H a else o) in *.
    assert (Ho1 : has p (flipT T a (H a)) o1 \/ o1 = -1).
    { unfold o1. destruct (Z.eqb_spec o (pv a)); [left; auto|].
      destruct Ho; [left|right; auto]. apply (flip_has P p V0 L a T H); auto. }
    assert (No1 : (o1 =? pv a) = false).
    { unfold o1. apply Z.eqb_neq. destruct (Z.eqb_spec o (pv a)); auto. }
    assert (Eo : forall x, (if o1 =? H a then x else o1) = (if o =? pv a then x else o)).
    { intros x. unfold o1. destruct (Z.eqb_spec o (pv a)); [rewrite Z.eqb_refl; auto|].
      destruct (Z.eqb_spec o (H a)); [contradiction|auto]. }
    clearbody o1.
    destruct (IH1 o1) as [P1 Q1]; auto.
    { apply flip_ginv; auto. }
    { rewrite T3'; auto. }
    { right. rewrite A3. zl. }
    destruct P1 as [G2 HI2 R2 F2 Fh2 FH2 K2 U2']. rewrite No1 in HI2.
    assert (HB : H2 (H a) = H (pv a)).
    { rewrite FH2; auto. rewrite A2. destruct (flip_d _ _ _ a M Ha Hb p01) as [E|(_ & _ & _ & _ & D1 & D2)].
      - pose proof (pv_range L a (m_L3 _ _ _ M) Ha). zl.
      - intros E. apply D1. rewrite E. apply same_tri_pv. }
    assert (TBR : T2 (nx (H a)) = T a).
    { rewrite F2; auto. rewrite has_nx. auto. }
    assert (TB : T2 (H a) = p). { rewrite F2; auto; congruence. }
    destruct (IH2 o1) as [P3 Q3]; auto.
    { rewrite pv_nx. exact TB. }
    { rewrite pv_nx, HB. auto. }
    { destruct Ho1; auto. }
    destruct P3 as [G3 HI3 R3 F3 Fh3 FH3 K3 U3']. rewrite pv_nx, Eo in HI3.
    split.
    + constructor; auto.
      * rewrite TBR, pv_nx, HB in R3. exact R3.
      * intros e He Ne.
        assert (e <> nx (H a)) by (intros ->; apply NH; rewrite <- has_nx; auto).
        pose proof (flip_has P p V0 L a T H G Ha Hpa Hb Hill e He) as He1.
        rewrite F3; auto. rewrite F2; auto. apply (flip_T_frame P p V0 L a T H); auto.
      * intros e He. apply Fh3, Fh2. apply (flip_has P p V0 L a T H); auto.
      * intros e Re He N1' N2' N3'.
        pose proof (flip_has P p V0 L a T H G Ha Hpa Hb Hill e He) as He1.
        assert (EH : flipH H a (H a) e = H e) by (apply (flip_H_frame P p V0 L a T H); auto).
        assert (EH2 : H2 e = H e). { rewrite FH2; auto. congruence. }
        rewrite FH3; auto.
        -- intros ->; apply NH; rewrite <- has_nx; auto.
        -- rewrite pv_nx. intros ->. auto.
        -- rewrite pv_nx, EH2. intros E.
           destruct (m_pair _ _ _ M e Re) as [Q|(_ & I & _)]; [zl|]. rewrite E, Ib in I. auto.
      * intros e Hn Hc.
        destruct (flip_keep P p V0 L a T H G Ha Hpa Hb Hill e Hn Hc) as (U1 & U2 & U3).
        assert (Hn1 : ~ has p (flipT T a (H a)) e) by (unfold has; rewrite U1, U2, U3; exact Hn).
        assert (Hc1 : (0 <= circ P (flipT T a (H a)) e p)%R) by (unfold circ; rewrite U1, U2, U3; exact Hc).
        destruct (K2 e Hn1 Hc1) as (W1 & W2 & W3).
        assert (Hn2 : ~ has p T2 e) by (unfold has; rewrite W1, W2, W3; exact Hn1).
        assert (Hc2 : (0 <= circ P T2 e p)%R) by (unfold circ; rewrite W1, W2, W3; exact Hc1).
        destruct (K3 e Hn2 Hc2) as (Y1 & Y2 & Y3). repeat split; congruence.
      * intros v (e & Re & Ev). apply U3', U2'.
        destruct (flipT_eqs _ _ _ a M Ha Hb p01) as (_ & _ & TF).
        destruct (Z.eq_dec e a) as [->|Na]. { exists (nx (H a)). split; auto. congruence. }
        destruct (Z.eq_dec e (H a)) as [->|Nb]. { exists (nx a). split; auto. congruence. }
        exists e. split; auto. rewrite TF; auto.
    + intros Q LE. apply Q3. apply Q1. apply (flip_legal P p V0 L a T H); auto.
Qed.
End LegPlanar.
