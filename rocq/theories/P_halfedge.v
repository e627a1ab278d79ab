(** Half-edge combinatorics of the flip (triangulate2/triangulator.go:legalize), on functions
    slot -> vertex and slot -> twin.  No geometry here. *)
From Coq Require Import ZArith Lia List Bool.
From Verif Require Import Base.
Import ListNotations.
Open Scope Z_scope.

Definition nx (e : Z) : Z := 3 * (e / 3) + (e + 1) mod 3.
Definition pv (e : Z) : Z := 3 * (e / 3) + (e + 2) mod 3.

Lemma slot_cases e : exists q, (e = 3 * q /\ nx e = 3 * q + 1 /\ pv e = 3 * q + 2) \/
  (e = 3 * q + 1 /\ nx e = 3 * q + 2 /\ pv e = 3 * q) \/ (e = 3 * q + 2 /\ nx e = 3 * q /\ pv e = 3 * q + 1).
Proof.
  unfold nx, pv. exists (e / 3).
  pose proof (Z.div_mod e 3). pose proof (Z.mod_pos_bound e 3).
  pose proof (Z.div_mod (e + 1) 3). pose proof (Z.mod_pos_bound (e + 1) 3).
  pose proof (Z.div_mod (e + 2) 3). pose proof (Z.mod_pos_bound (e + 2) 3). lia.
Qed.
(* replace nx e, pv e by their values *)
Lemma div3_eq q r : 0 <= r < 3 -> (3 * q + r) / 3 = q.
Proof. intros. symmetry. apply (Z.div_unique _ 3 q r); lia. Qed.
Lemma nx_0 q : nx (3 * q) = 3 * q + 1.
Proof. destruct (slot_cases (3 * q)) as (k & [H|[H|H]]); lia. Qed.
Lemma nx_1 q : nx (3 * q + 1) = 3 * q + 2.
Proof. destruct (slot_cases (3 * q + 1)) as (k & [H|[H|H]]); lia. Qed.
Lemma nx_2 q : nx (3 * q + 2) = 3 * q.
Proof. destruct (slot_cases (3 * q + 2)) as (k & [H|[H|H]]); lia. Qed.
Lemma pv_0 q : pv (3 * q) = 3 * q + 2.
Proof. destruct (slot_cases (3 * q)) as (k & [H|[H|H]]); lia. Qed.
Lemma pv_1 q : pv (3 * q + 1) = 3 * q.
Proof. destruct (slot_cases (3 * q + 1)) as (k & [H|[H|H]]); lia. Qed.
Lemma pv_2 q : pv (3 * q + 2) = 3 * q + 1.
Proof. destruct (slot_cases (3 * q + 2)) as (k & [H|[H|H]]); lia. Qed.
Ltac slot e := let q := fresh "q" in let H := fresh in
  destruct (slot_cases e) as (q & [(H & _ & _)|[(H & _ & _)|(H & _ & _)]]);
  rewrite H in *; rewrite ?nx_0, ?nx_1, ?nx_2, ?pv_0, ?pv_1, ?pv_2, ?nx_0, ?nx_1, ?nx_2, ?pv_0, ?pv_1, ?pv_2 in *.
Lemma nx_nx e : nx (nx e) = pv e. Proof. slot e; lia. Qed.
Lemma pv_pv e : pv (pv e) = nx e. Proof. slot e; lia. Qed.
Lemma nx_pv e : nx (pv e) = e. Proof. slot e; lia. Qed.
Lemma pv_nx e : pv (nx e) = e. Proof. slot e; lia. Qed.
Lemma nx_ne e : nx e <> e. Proof. slot e; lia. Qed.
Lemma pv_ne e : pv e <> e. Proof. slot e; lia. Qed.
Lemma nx_pv_ne e : nx e <> pv e. Proof. slot e; lia. Qed.
Lemma nx_inj e f : nx e = nx f -> e = f. Proof. intros H. rewrite <- (pv_nx e), <- (pv_nx f). congruence. Qed.
Lemma pv_inj e f : pv e = pv f -> e = f. Proof. intros H. rewrite <- (nx_pv e), <- (nx_pv f). congruence. Qed.
Lemma nx_range L e : L mod 3 = 0 -> 0 <= e < L -> 0 <= nx e < L.
Proof. intros HL He. apply Z.mod_divide in HL; [|lia]. destruct HL as [k ->]. slot e; lia. Qed.
Lemma pv_range L e : L mod 3 = 0 -> 0 <= e < L -> 0 <= pv e < L.
Proof. intros HL He. rewrite <- nx_nx. auto using nx_range. Qed.
Lemma nx_range_inv L e : L mod 3 = 0 -> 0 <= nx e < L -> 0 <= e < L.
Proof. intros HL He. rewrite <- (pv_nx e). apply pv_range; auto. Qed.
Lemma rem_nx a : 0 <= a -> a - Z.rem a 3 + Z.rem (a + 1) 3 = nx a.
Proof.
  intros H. unfold nx. rewrite !Z.rem_mod_nonneg by lia.
  pose proof (Z.div_mod a 3). lia.
Qed.
Lemma rem_pv a : 0 <= a -> a - Z.rem a 3 + Z.rem (a + 2) 3 = pv a.
Proof.
  intros H. unfold pv. rewrite !Z.rem_mod_nonneg by lia.
  pose proof (Z.div_mod a 3). lia.
Qed.
Definition same_tri (e f : Z) : Prop := f = e \/ f = nx e \/ f = pv e.
Lemma same_tri_div e f : same_tri e f <-> e / 3 = f / 3.
Proof.
  unfold same_tri. unfold nx, pv. split.
  - intros H. Z.to_euclidean_division_equations; lia.
  - intros H. Z.to_euclidean_division_equations; lia.
Qed.
Lemma same_tri_refl e : same_tri e e. Proof. left; auto. Qed.
Lemma same_tri_sym e f : same_tri e f -> same_tri f e.
Proof. rewrite !same_tri_div. auto. Qed.
Lemma same_tri_trans e f g : same_tri e f -> same_tri f g -> same_tri e g.
Proof. rewrite !same_tri_div. congruence. Qed.
Lemma same_tri_nx e : same_tri e (nx e). Proof. right; left; auto. Qed.
Lemma same_tri_pv e : same_tri e (pv e). Proof. right; right; auto. Qed.

(** Function update *)
Definition upd (f : Z -> Z) (i v : Z) : Z -> Z := fun j => if j =? i then v else f j.
Lemma upd_same f i v : upd f i v i = v.
Proof. unfold upd. rewrite Z.eqb_refl. reflexivity. Qed.
Lemma upd_other f i v j : j <> i -> upd f i v j = f j.
Proof. intros H. unfold upd. destruct (Z.eqb_spec j i); [contradiction|reflexivity]. Qed.

Record mesh (L : Z) (T H : Z -> Z) : Prop := {
  m_L : 0 <= L;
  m_L3 : L mod 3 = 0;
  m_pair : forall e, 0 <= e < L -> H e = -1 \/
     (0 <= H e < L /\ H (H e) = e /\ T (H e) = T (nx e) /\ T (nx (H e)) = T e);
  m_ne : forall e, 0 <= e < L -> T e <> T (nx e) }.

Lemma mesh_distinct L T H e : mesh L T H -> 0 <= e < L ->
  T e <> T (nx e) /\ T (nx e) <> T (pv e) /\ T (pv e) <> T e.
Proof.
  intros M He. pose proof (nx_range L e (m_L3 _ _ _ M) He). pose proof (pv_range L e (m_L3 _ _ _ M) He).
  repeat split.
  - apply (m_ne _ _ _ M); auto.
  - rewrite <- (nx_nx e). apply (m_ne _ _ _ M); auto.
  - rewrite <- (nx_pv e) at 2. apply (m_ne _ _ _ M); auto.
Qed.

Definition flink (H : Z -> Z) (a b : Z) : Z -> Z :=
  let H1 := upd H a b in if 0 <=? b then upd H1 b a else H1.
Definition flipT (T : Z -> Z) (a b : Z) : Z -> Z := upd (upd T a (T (pv b))) b (T (pv a)).
Definition flipH (H : Z -> Z) (a b : Z) : Z -> Z :=
  let H1 := flink H a (H (pv b)) in
  let H2 := flink H1 b (H1 (pv a)) in
  flink H2 (pv a) (pv b).

(* lia without the disequalities of the context *)
Ltac zl := repeat match goal with H : _ <> _ |- _ => clear H | H : ~ _ |- _ => clear H end; lia.

Section Flip.
Variables (L : Z) (T H : Z -> Z) (a : Z).
Hypothesis M : mesh L T H.
Hypothesis Ha : 0 <= a < L.
Hypothesis Hb : 0 <= H a.
Hypothesis Hp : T (pv a) <> T (pv (H a)).
Notation b := (H a).
Notation c := (H (pv b)).
Notation d := (H (pv a)).

Lemma flip_b : 0 <= b < L /\ H b = a /\ T b = T (nx a) /\ T (nx b) = T a.
Proof. destruct (m_pair _ _ _ M a Ha) as [E|E]; [zl|]. exact E. Qed.
Lemma flip_b_not_same : ~ same_tri a b.
Proof.
  destruct flip_b as (R & I & E1 & E2). destruct (mesh_distinct _ _ _ a M Ha) as (N1 & N2 & N3).
  intros [E|[E|E]]; rewrite E in *.
  - congruence.
  - rewrite nx_nx in E2. congruence.
  - rewrite nx_pv in E2. congruence.
Qed.
Lemma flip_six : b <> a /\ b <> nx a /\ b <> pv a /\ nx b <> a /\ nx b <> nx a /\ nx b <> pv a /\
  pv b <> a /\ pv b <> nx a /\ pv b <> pv a /\ nx a <> a /\ pv a <> a /\ nx a <> pv a /\
  nx b <> b /\ pv b <> b /\ nx b <> pv b.
Proof.
  pose proof flip_b_not_same as N. unfold same_tri in N.
  assert (b <> a /\ b <> nx a /\ b <> pv a) as (N1 & N2 & N3) by (repeat split; intros E; apply N; auto).
  repeat split; auto using nx_ne, pv_ne, nx_pv_ne;
    intros E; first
    [ apply (f_equal pv) in E; rewrite ?pv_nx, ?pv_pv in E; congruence
    | apply (f_equal nx) in E; rewrite ?nx_pv, ?nx_nx in E; congruence ].
Qed.
Lemma flip_c : c = -1 \/
  (0 <= c < L /\ H c = pv b /\ T c = T b /\ T (nx c) = T (pv b) /\ ~ same_tri a c /\ ~ same_tri b c).
Proof.
  destruct flip_b as (Rb & Ib & E1 & E2). pose proof flip_six as S.
  pose proof (pv_range L b (m_L3 _ _ _ M) Rb) as Rbl.
  destruct (m_pair _ _ _ M (pv b) Rbl) as [E|(R & I & F1 & F2)]; [left; auto|right].
  rewrite nx_pv in F1.
  destruct (mesh_distinct _ _ _ a M Ha) as (N1 & N2 & N3).
  destruct (mesh_distinct _ _ _ b M Rb) as (O1 & O2 & O3).
  assert (Q1 : c <> a). { intros E. rewrite E in I. intuition congruence. }
  assert (Q2 : c <> b). { intros E. rewrite E, Ib in I. intuition congruence. }
  assert (Q3 : c <> nx a). { intros E. rewrite E in F2. rewrite nx_nx in F2. congruence. }
  assert (Q4 : c <> pv a). { intros E. rewrite E in F1. congruence. }
  assert (Q5 : c <> nx b). { intros E. rewrite E in F1. congruence. }
  assert (Q6 : c <> pv b). { intros E. rewrite E in F1. congruence. }
  split; [exact R|]. repeat split; auto; intros [E|[E|E]]; congruence.
Qed.
Lemma flip_d : d = -1 \/
  (0 <= d < L /\ H d = pv a /\ T d = T a /\ T (nx d) = T (pv a) /\ ~ same_tri a d /\ ~ same_tri b d).
Proof.
  destruct flip_b as (Rb & Ib & E1 & E2). pose proof flip_six as S.
  pose proof (pv_range L a (m_L3 _ _ _ M) Ha) as Rar.
  destruct (m_pair _ _ _ M (pv a) Rar) as [E|(R & I & F1 & F2)]; [left; auto|right].
  rewrite nx_pv in F1.
  destruct (mesh_distinct _ _ _ a M Ha) as (N1 & N2 & N3).
  destruct (mesh_distinct _ _ _ b M Rb) as (O1 & O2 & O3).
  assert (Q1 : d <> a). { intros E. rewrite E in I. intuition congruence. }
  assert (Q2 : d <> b). { intros E. rewrite E, Ib in I. intuition congruence. }
  assert (Q3 : d <> nx a). { intros E. rewrite E in F1. congruence. }
  assert (Q4 : d <> pv a). { intros E. rewrite E in F1. congruence. }
  assert (Q5 : d <> nx b). { intros E. rewrite E in F2. rewrite nx_nx in F2. congruence. }
  assert (Q6 : d <> pv b). { intros E. rewrite E in F1. congruence. }
  split; [exact R|]. repeat split; auto; intros [E|[E|E]]; congruence.
Qed.
Lemma flip_cd : 0 <= c -> c <> d.
Proof.
  intros Hc E. destruct flip_c as [|(R & I & _)]; [zl|]. destruct flip_d as [|(R' & I' & _)]; [zl|].
  rewrite E, I' in I. pose proof flip_six. intuition congruence.
Qed.

Notation T' := (flipT T a b).
Notation H' := (flipH H a b).

Lemma flipH_eqs : H' a = c /\ H' b = d /\ H' (pv a) = pv b /\ H' (pv b) = pv a /\
  (0 <= c -> H' c = a) /\ (0 <= d -> H' d = b) /\
  (forall e, e <> a -> e <> b -> e <> pv a -> e <> pv b -> (0 <= c -> e <> c) -> (0 <= d -> e <> d) -> H' e = H e).
Proof.
  destruct flip_b as (Rb & Ib & E1 & E2).
  destruct flip_six as (S1 & S2 & S3 & S4 & S5 & S6 & S7 & S8 & S9 & S10 & S11 & S12 & S13 & S14 & S15).
  pose proof (pv_range L b (m_L3 _ _ _ M) Rb) as Rbl.
  assert (Hc : forall k, (same_tri a k \/ same_tri b k) -> 0 <= c -> k <> c).
  { intros k Hk Hc E. destruct flip_c as [|(_ & _ & _ & _ & X & Y)]; [zl|].
    subst k. tauto. }
  assert (Hd : forall k, (same_tri a k \/ same_tri b k) -> 0 <= d -> k <> d).
  { intros k Hk Hd E. destruct flip_d as [|(_ & _ & _ & _ & X & Y)]; [zl|].
    subst k. tauto. }
  pose proof flip_cd as CD.
  assert (ta : same_tri a a) by apply same_tri_refl. assert (tar : same_tri a (pv a)) by apply same_tri_pv.
  assert (tb : same_tri b b) by apply same_tri_refl. assert (tbl : same_tri b (pv b)) by apply same_tri_pv.
  unfold flipH.
  set (H1 := flink H a c).
  assert (A1 : H1 a = c).
  { unfold H1, flink. destruct (Z.leb_spec 0 c).
    - rewrite upd_other, upd_same; auto.
    - apply upd_same. }
  assert (A2 : forall e, e <> a -> (0 <= c -> e <> c) -> H1 e = H e).
  { intros e He Hec. unfold H1, flink. destruct (Z.leb_spec 0 c).
    - rewrite !upd_other; auto.
    - rewrite upd_other; auto. }
  assert (A3 : 0 <= c -> H1 c = a).
  { intros Hc0. unfold H1, flink. rewrite (proj2 (Z.leb_le 0 c) Hc0). apply upd_same. }
  assert (D1 : H1 (pv a) = d) by (apply A2; auto).
  rewrite D1. clearbody H1. set (H2 := flink H1 b d).
  assert (B1 : H2 b = d).
  { unfold H2, flink. destruct (Z.leb_spec 0 d).
    - rewrite upd_other, upd_same; auto.
    - apply upd_same. }
  assert (B2 : forall e, e <> b -> (0 <= d -> e <> d) -> H2 e = H1 e).
  { intros e He Hec. unfold H2, flink. destruct (Z.leb_spec 0 d).
    - rewrite !upd_other; auto.
    - rewrite upd_other; auto. }
  assert (B3 : 0 <= d -> H2 d = b).
  { intros Hc0. unfold H2, flink. rewrite (proj2 (Z.leb_le 0 d) Hc0). apply upd_same. }
  clearbody H2.
  assert (C3 : forall e, flink H2 (pv a) (pv b) e = if e =? pv b then pv a else if e =? pv a then pv b else H2 e).
  { intros e. unfold flink, upd. rewrite (proj2 (Z.leb_le 0 (pv b)) (proj1 Rbl)). reflexivity. }
  assert (C4 : forall e, e <> pv a -> e <> pv b -> flink H2 (pv a) (pv b) e = H2 e).
  { intros e He He2. rewrite C3. destruct (Z.eqb_spec e (pv b)); [contradiction|].
    destruct (Z.eqb_spec e (pv a)); [contradiction|reflexivity]. }
  repeat split.
  - rewrite C4 by auto. rewrite B2 by auto. exact A1.
  - rewrite C4 by auto. exact B1.
  - rewrite C3. destruct (Z.eqb_spec (pv a) (pv b)); [congruence|]. rewrite Z.eqb_refl. reflexivity.
  - rewrite C3. rewrite Z.eqb_refl. reflexivity.
  - intros Hc0. rewrite C4 by (apply not_eq_sym; auto). rewrite B2; auto.
    apply not_eq_sym; auto.
  - intros Hd0. rewrite C4 by (apply not_eq_sym; auto). auto.
  - intros e Q1 Q2 Q3 Q4 Q5 Q6. rewrite C4 by auto. rewrite B2 by auto. apply A2; auto.
Qed.

Lemma flipT_eqs : T' a = T (pv b) /\ T' b = T (pv a) /\ (forall e, e <> a -> e <> b -> T' e = T e).
Proof.
  destruct flip_six as (S1 & _). unfold flipT. repeat split.
  - rewrite upd_other, upd_same; auto.
  - apply upd_same.
  - intros e He He2. rewrite !upd_other; auto.
Qed.
(* the two triangles after the flip *)
Lemma flip_tris :
  T' a = T (pv b) /\ T' (nx a) = T (nx a) /\ T' (pv a) = T (pv a) /\
  T' b = T (pv a) /\ T' (nx b) = T a /\ T' (pv b) = T (pv b).
Proof.
  destruct flip_b as (Rb & Ib & E1 & E2).
  destruct flip_six as (S1 & S2 & S3 & S4 & S5 & S6 & S7 & S8 & S9 & S10 & S11 & S12 & S13 & S14 & S15).
  destruct flipT_eqs as (F1 & F2 & F3).
  rewrite F1, F2, !F3 by auto. repeat split; auto.
Qed.
(* triangles other than those of a and b keep their vertices *)
Lemma flip_other_tri e : ~ same_tri a e -> ~ same_tri b e ->
  T' e = T e /\ T' (nx e) = T (nx e) /\ T' (pv e) = T (pv e).
Proof.
  intros Na Nb. destruct flipT_eqs as (F1 & F2 & F3).
  assert (G : forall f, same_tri e f -> T' f = T f).
  { intros f Hf. apply F3; intros ->; [apply Na|apply Nb]; apply same_tri_sym; auto. }
  repeat split; apply G; [apply same_tri_refl|apply same_tri_nx|apply same_tri_pv].
Qed.

Lemma flip_mesh : mesh L T' H'.
Proof.
  destruct flip_b as (Rb & Ib & E1 & E2).
  destruct flip_six as (S1 & S2 & S3 & S4 & S5 & S6 & S7 & S8 & S9 & S10 & S11 & S12 & S13 & S14 & S15).
  destruct flipH_eqs as (H1 & H2 & H3 & H4 & H5 & H6 & H7).
  destruct flip_tris as (T1 & T2 & T3 & T4 & T5 & T6).
  pose proof (m_L3 _ _ _ M) as L3.
  pose proof (pv_range L b L3 Rb) as Rbl. pose proof (pv_range L a L3 Ha) as Rar.
  pose proof flip_cd as CD.
  destruct flipT_eqs as (_ & _ & F3).
  assert (Gc : 0 <= c -> 0 <= c < L /\ H c = pv b /\ T' c = T b /\ T' (nx c) = T (pv b)).
  { intros Hc. destruct flip_c as [|(R & I & X & Y & N1 & N2)]; [zl|].
    destruct (flip_other_tri c N1 N2) as (Z1 & Z2 & Z3). rewrite Z1, Z2. auto. }
  assert (Gd : 0 <= d -> 0 <= d < L /\ H d = pv a /\ T' d = T a /\ T' (nx d) = T (pv a)).
  { intros Hd. destruct flip_d as [|(R & I & X & Y & N1 & N2)]; [zl|].
    destruct (flip_other_tri d N1 N2) as (Z1 & Z2 & Z3). rewrite Z1, Z2. auto. }
  constructor.
  - exact (m_L _ _ _ M).
  - exact L3.
  - intros e He.
    destruct (Z.eq_dec e a) as [->|Na].
    { rewrite H1, T1, T2. destruct flip_c as [E|(R & _)]; [left; auto|right].
      destruct (Gc (proj1 R)) as (_ & X & Y & Z). rewrite Y, Z, H5 by zl. repeat split; auto; zl. }
    destruct (Z.eq_dec e b) as [->|Nb].
    { rewrite H2, T4, T5. destruct flip_d as [E|(R & _)]; [left; auto|right].
      destruct (Gd (proj1 R)) as (_ & X & Y & Z). rewrite Y, Z, H6 by zl. repeat split; auto; zl. }
    destruct (Z.eq_dec e (pv a)) as [->|Nar].
    { right. rewrite H3, nx_pv, nx_pv, T1, T4, T3, T6. repeat split; auto; zl. }
    destruct (Z.eq_dec e (pv b)) as [->|Nbl].
    { right. rewrite H4, nx_pv, nx_pv, T1, T4, T3, T6. repeat split; auto; zl. }
    destruct (Z.eq_dec e c) as [Ec|Nc].
    { assert (Pc : 0 <= c) by (rewrite <- Ec; apply He). rewrite Ec.
      right. destruct (Gc Pc) as (R & I & X & Y). rewrite (H5 Pc), X, Y, T1, T2, H1. repeat split; auto; zl. }
    destruct (Z.eq_dec e d) as [Ed|Nd].
    { assert (Pd : 0 <= d) by (rewrite <- Ed; apply He). rewrite Ed.
      right. destruct (Gd Pd) as (R & I & X & Y). rewrite (H6 Pd), X, Y, T4, T5, H2. repeat split; auto; zl. }
    rewrite (H7 e) by auto.
    destruct (m_pair _ _ _ M e He) as [E|(R & I & F1 & F2)]; [left; auto|right].
    assert (H e <> a) by (intros E; rewrite E in I; congruence).
    assert (H e <> b) by (intros E; rewrite E in I; congruence).
    assert (H e <> pv a) by (intros E; rewrite E in I; congruence).
    assert (H e <> pv b) by (intros E; rewrite E in I; congruence).
    rewrite (H7 (H e)); auto.
    2: intros Pc E; rewrite E in I; destruct (Gc Pc) as (_ & I2 & _); congruence.
    2: intros Pd E; rewrite E in I; destruct (Gd Pd) as (_ & I2 & _); congruence.
    rewrite !F3; auto; intros E; apply (f_equal pv) in E; rewrite pv_nx in E; congruence.
  - intros e He.
    destruct (mesh_distinct _ _ _ a M Ha) as (N1 & N2 & N3).
    destruct (mesh_distinct _ _ _ b M Rb) as (O1 & O2 & O3).
    destruct (Z.eq_dec e a) as [->|Na]. { rewrite T1, T2. congruence. }
    destruct (Z.eq_dec e b) as [->|Nb]. { rewrite T4, T5. congruence. }
    destruct (Z.eq_dec e (pv a)) as [->|Nar]. { rewrite nx_pv, T3, T1. auto. }
    destruct (Z.eq_dec e (pv b)) as [->|Nbl]. { rewrite nx_pv, T6, T4. auto. }
    rewrite !F3; auto; [apply (m_ne _ _ _ M); auto|..];
      intros E; apply (f_equal pv) in E; rewrite pv_nx in E; congruence.
Qed.
End Flip.
