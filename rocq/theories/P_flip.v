(** One flip keeps the geometric invariant of the insertion of a point p. *)
From Coq Require Import ZArith Lia List Bool Reals Lra.
From Verif Require Import Base Spec_r3 Spec_plane P_tri2 P_delgeom P_halfedge.
Import ListNotations.
Open Scope Z_scope.

(* orientation signs: linear in the products of the coordinates *)
Ltac arlra := unfold ar, ccw in *; lra.

Section Has.
Variable p : Z.
Implicit Types (T H : Z -> Z) (e f a L : Z).

(* the triangle of slot e has the vertex p *)
Definition has T e : Prop := T e = p \/ T (nx e) = p \/ T (pv e) = p.
Lemma has_same_tri T e f : same_tri e f -> has T e -> has T f.
Proof.
  unfold has. intros [->|[->| ->]]; rewrite ?nx_nx, ?pv_nx, ?nx_pv, ?pv_pv; tauto.
Qed.
Lemma has_nx T e : has T (nx e) <-> has T e.
Proof. unfold has. rewrite nx_nx, pv_nx. tauto. Qed.
Lemma has_pv T e : has T (pv e) <-> has T e.
Proof. unfold has. rewrite nx_pv, pv_pv. tauto. Qed.
Lemma has_dec T e : {has T e} + {~ has T e}.
Proof.
  unfold has. destruct (Z.eq_dec (T e) p); [left; auto|]. destruct (Z.eq_dec (T (nx e)) p); [left; auto|].
  destruct (Z.eq_dec (T (pv e)) p); [left; auto|right; tauto].
Qed.

End Has.

Section FlipGeo.
Variables (P : Z -> rv) (p : Z) (V0 : list Z).
Implicit Types (T H : Z -> Z) (e f a L : Z).
Notation has := (has p).

(* orientation and in-circle of the triangle of slot e *)
Definition orient T e : R := ar (P (T e)) (P (T (nx e))) (P (T (pv e))).
Definition circ T e (v : Z) : R := incirc (P (T e)) (P (T (nx e))) (P (T (pv e))) (P v).
Lemma orient_nx T e : orient T (nx e) = orient T e.
Proof. unfold orient. rewrite nx_nx, pv_nx. apply ar_rot. Qed.
Lemma orient_pv T e : orient T (pv e) = orient T e.
Proof. unfold orient. rewrite nx_pv, pv_pv. apply ar_rot2. Qed.
Lemma circ_nx T e v : circ T (nx e) v = circ T e v.
Proof. unfold circ. rewrite nx_nx, pv_nx. apply incirc_rot. Qed.
Lemma circ_pv T e v : circ T (pv e) v = circ T e v.
Proof. unfold circ. rewrite nx_pv, pv_pv. apply incirc_rot2. Qed.
Lemma orient_same T e f : same_tri e f -> orient T f = orient T e.
Proof. intros [->|[->| ->]]; auto using orient_nx, orient_pv. Qed.
Lemma circ_same T e f v : same_tri e f -> circ T f v = circ T e v.
Proof. intros [->|[->| ->]]; auto using circ_nx, circ_pv. Qed.

Record ginv L T H : Prop := {
  g_mesh : mesh L T H;
  g_or : forall e, 0 <= e < L -> (0 < orient T e)%R;
  g_vert : forall e, 0 <= e < L -> T e = p \/ In (T e) V0;
  (* triangles without p: empty circles *)
  g_empty : forall e, 0 <= e < L -> ~ has T e -> forall v, In v V0 -> (0 <= circ T e v)%R;
  (* triangles with p: empty on p's side of the opposite edge *)
  g_side : forall e, 0 <= e < L -> T (pv e) = p -> forall v, In v V0 ->
     (0 <= ar (P (T e)) (P (T (nx e))) (P v))%R -> (0 <= circ T e v)%R }.
(* the edges opposite to p are locally Delaunay, except those in Q *)
Definition legal_except L T H (Q : Z -> Prop) : Prop :=
  forall e, 0 <= e < L -> T (pv e) = p -> ~ Q e -> 0 <= H e -> (0 <= circ T e (T (pv (H e))))%R.

Section One.
Variables (L a : Z) (T H : Z -> Z).
Hypothesis G : ginv L T H.
Hypothesis Ha : 0 <= a < L.
Hypothesis Hpa : T (pv a) = p.
Hypothesis Hb : 0 <= H a.
Hypothesis Hill : (circ T a (T (pv (H a))) < 0)%R.
Notation b := (H a).

Lemma flip_p1 : T (pv b) <> p.
Proof.
  intros E. revert Hill. unfold circ. rewrite E, <- Hpa.
  destruct (incirc_vertex (P (T a)) (P (T (nx a))) (P (T (pv a)))) as (_ & _ & ->). lra.
Qed.
Lemma flip_p01 : T (pv a) <> T (pv b).
Proof. rewrite Hpa. apply not_eq_sym, flip_p1. Qed.
Notation M := (g_mesh _ _ _ G).
Lemma flip_nohas : ~ has T b.
Proof.
  destruct (flip_b _ _ _ a M Ha Hb) as (Rb & Ib & E1 & E2).
  destruct (mesh_distinct _ _ _ a M Ha) as (N1 & N2 & N3).
  unfold has. rewrite E1, E2. pose proof flip_p1. rewrite Hpa in *. intuition congruence.
Qed.
(* the two new triangles are well oriented *)
Lemma flip_cone :
  (0 < ar (P (T (pv b))) (P (T (nx a))) (P p))%R /\ (0 < ar (P p) (P (T a)) (P (T (pv b))))%R.
Proof.
  destruct (flip_b _ _ _ a M Ha Hb) as (Rb & Ib & E1 & E2).
  pose proof (g_or _ _ _ G a Ha) as Oa. pose proof (g_or _ _ _ G b Rb) as Ob.
  unfold orient in *. rewrite Hpa in Oa. rewrite E1, E2 in Ob.
  rewrite ar_swap in Ob.
  destruct (cone (P (T a)) (P (T (nx a))) (P p) (P (T (pv b)))) as [C1 C2]; auto.
  - unfold circ in Hill. rewrite Hpa in Hill. lra.
  - lra.
  - clear - C1 C2. arlra.
Qed.

Notation T' := (flipT T a b).
Notation H' := (flipH H a b).
Lemma flip_has e : has T e -> has T' e.
Proof.
  destruct (flip_tris _ _ _ a M Ha Hb flip_p01) as (T1 & T2 & T3 & T4 & T5 & T6).
  intros He.
  destruct (Z.eq_dec (e / 3) (a / 3)) as [Ea|Ea].
  { apply (has_same_tri p T' a e); [apply same_tri_div; auto|]. unfold has. rewrite T3. auto. }
  destruct (Z.eq_dec (e / 3) (b / 3)) as [Eb|Eb].
  { apply (has_same_tri p T' b e); [apply same_tri_div; auto|]. unfold has. rewrite T4. auto. }
  destruct (flip_other_tri _ _ _ a M Ha Hb flip_p01 e) as (U1 & U2 & U3).
  - rewrite same_tri_div. auto.
  - rewrite same_tri_div. auto.
  - unfold has in *. rewrite U1, U2, U3. auto.
Qed.
Lemma flip_has_b : has T' b.
Proof.
  destruct (flip_tris _ _ _ a M Ha Hb flip_p01) as (T1 & T2 & T3 & T4 & T5 & T6).
  left. rewrite T4. auto.
Qed.
Lemma flip_T_frame e : has T e -> e <> a -> T' e = T e.
Proof.
  intros He Hne. destruct (flipT_eqs _ _ _ a M Ha Hb flip_p01) as (_ & _ & F). apply F; auto.
  intros ->. apply flip_nohas; auto.
Qed.
(* the twin c of bl is not opposite to p *)
Lemma flip_c_nohas : 0 <= H (pv b) -> ~ has T (H (pv b)).
Proof.
  intros Hc. destruct (flip_b _ _ _ a M Ha Hb) as (Rb & Ib & E1 & E2).
  destruct (flip_c _ _ _ a M Ha Hb flip_p01) as [E|(R & I & C1 & C2 & _)]; [lia|].
  destruct (mesh_distinct _ _ _ a M Ha) as (N1 & N2 & N3). pose proof flip_p1.
  intros [E|[E|E]].
  - rewrite C1, E1 in E. congruence.
  - rewrite C2 in E. congruence.
  - pose proof (g_or _ _ _ G _ R) as O. unfold orient in O. rewrite C1, C2, E, E1 in O.
    destruct flip_cone as [Q _]. rewrite ar_swap in O. lra.
Qed.
(* neither is the twin of br *)
Lemma flip_br_nohas e : 0 <= e < L -> H e = nx b -> ~ T (pv e) = p.
Proof.
  intros He E Hpe. destruct (flip_b _ _ _ a M Ha Hb) as (Rb & Ib & E1 & E2).
  destruct (m_pair _ _ _ M e He) as [X|(R & I & C1 & C2)].
  - pose proof (nx_range L b (m_L3 _ _ _ M) Rb). lia.
  - rewrite E in *. rewrite nx_nx in C2. rewrite E2 in C1.
    pose proof (g_or _ _ _ G e He) as O. unfold orient in O. rewrite <- C1, <- C2, Hpe in O.
    destruct flip_cone as [_ Q]. rewrite ar_swap13 in O. lra.
Qed.
Lemma flip_H_frame e : 0 <= e < L -> has T e -> e <> a -> e <> pv a -> H e <> pv a -> H' e = H e.
Proof.
  intros He Hh N1 N2 N3.
  destruct (flipH_eqs _ _ _ a M Ha Hb flip_p01) as (_ & _ & _ & _ & _ & _ & F).
  apply F; auto.
  - intros ->. apply flip_nohas; auto.
  - intros ->. apply flip_nohas. rewrite <- has_pv. auto.
  - intros Hc ->. apply (flip_c_nohas Hc). auto.
  - intros Hd ->. destruct (flip_d _ _ _ a M Ha Hb flip_p01) as [E|(R & I & _)]; [lia|]. auto.
Qed.

Lemma flip_ginv : ginv L T' H'.
Proof.
  destruct (flip_b _ _ _ a M Ha Hb) as (Rb & Ib & E1 & E2).
  destruct (flip_tris _ _ _ a M Ha Hb flip_p01) as (T1 & T2 & T3 & T4 & T5 & T6).
  destruct flip_cone as [C1 C2]. pose proof flip_nohas as NH.
  pose proof (g_or _ _ _ G a Ha) as Oa. pose proof (g_or _ _ _ G b Rb) as Ob.
  unfold orient in Oa, Ob. rewrite Hpa in Oa. rewrite E1, E2 in Ob.
  assert (EB : forall v, In v V0 -> (0 <= incirc (P (T (nx a))) (P (T a)) (P (T (pv b))) (P v))%R).
  { intros v Hv. pose proof (g_empty _ _ _ G b Rb NH v Hv) as X. unfold circ in X. rewrite E1, E2 in X. exact X. }
  assert (PB : (incirc (P (T (nx a))) (P (T a)) (P (T (pv b))) (P p) < 0)%R).
  { revert Hill. unfold circ. rewrite Hpa. rewrite (incirc_swap2 (P (T a)) (P (T (nx a))) (P p) (P (T (pv b)))). auto. }
  (* the new triangles *)
  assert (Wa : orient T' a = ar (P (T (pv b))) (P (T (nx a))) (P p)).
  { unfold orient. rewrite T1, T2, T3, Hpa. reflexivity. }
  assert (Wb : orient T' b = ar (P p) (P (T a)) (P (T (pv b)))).
  { unfold orient. rewrite T4, T5, T6, Hpa. reflexivity. }
  assert (O3 : forall e, ~ same_tri a e -> ~ same_tri b e -> orient T' e = orient T e /\
     (forall v, circ T' e v = circ T e v) /\ (has T' e <-> has T e) /\ T' e = T e /\ T' (nx e) = T (nx e) /\ T' (pv e) = T (pv e)).
  { intros e N1 N2. destruct (flip_other_tri _ _ _ a M Ha Hb flip_p01 e N1 N2) as (U1 & U2 & U3).
    unfold orient, circ, has. rewrite U1, U2, U3. intuition. }
  constructor.
  - apply (flip_mesh _ _ _ a M Ha Hb flip_p01).
  - intros e He. destruct (Z.eq_dec (a / 3) (e / 3)) as [Ea|Ea].
    { rewrite (orient_same T' a e) by (apply same_tri_div; auto). lra. }
    destruct (Z.eq_dec (b / 3) (e / 3)) as [Eb|Eb].
    { rewrite (orient_same T' b e) by (apply same_tri_div; auto). lra. }
    destruct (O3 e) as (X & _); [rewrite same_tri_div; auto..|]. rewrite X. apply (g_or _ _ _ G); auto.
  - intros e He. destruct (flipT_eqs _ _ _ a M Ha Hb flip_p01) as (_ & _ & F).
    destruct (Z.eq_dec e a) as [->|Na].
    { rewrite T1. apply (g_vert _ _ _ G). apply pv_range; auto. apply (m_L3 _ _ _ M). }
    destruct (Z.eq_dec e b) as [->|Nb]. { rewrite T4, Hpa. auto. }
    rewrite F; auto. apply (g_vert _ _ _ G); auto.
  - intros e He Hne v Hv. destruct (Z.eq_dec (a / 3) (e / 3)) as [Ea|Ea].
    { exfalso. apply Hne. apply (has_same_tri p T' a e); [apply same_tri_div; auto|]. unfold has. rewrite T3. auto. }
    destruct (Z.eq_dec (b / 3) (e / 3)) as [Eb|Eb].
    { exfalso. apply Hne. apply (has_same_tri p T' b e); [apply same_tri_div; auto|]. unfold has. rewrite T4. auto. }
    destruct (O3 e) as (_ & X & Y & _); [rewrite same_tri_div; auto..|].
    rewrite X. apply (g_empty _ _ _ G); auto. rewrite <- Y. auto.
  - intros e He Hpe v Hv Hs.
    destruct (mesh_distinct _ _ _ a M Ha) as (N1 & N2 & N3). pose proof flip_p1 as NP.
    destruct (Z.eq_dec (a / 3) (e / 3)) as [Ea|Ea].
    { apply same_tri_div in Ea. destruct Ea as [->|[->| ->]].
      - (* a : p1 -> pl *)
        unfold circ. rewrite T1, T2 in *. rewrite T3, Hpa.
        apply (pencil_same_side _ _ (P (T a))); auto.
        + clear - Ob. arlra.
        + rewrite incirc_rot2. lra.
        + rewrite incirc_rot2. auto.
      - rewrite pv_nx, T1 in Hpe. congruence.
      - rewrite pv_pv, T2 in Hpe. rewrite Hpa in *. congruence. }
    destruct (Z.eq_dec (b / 3) (e / 3)) as [Eb|Eb].
    { apply same_tri_div in Eb. destruct Eb as [->|[->| ->]].
      - rewrite T6 in Hpe. congruence.
      - (* br : pr -> p1 *)
        unfold circ. rewrite nx_nx, pv_nx in *. rewrite T5, T6 in *. rewrite T4, Hpa.
        apply (pencil_same_side _ _ (P (T (nx a)))); auto.
        + clear - Ob. arlra.
        + clear - C2. arlra.
        + rewrite incirc_rot. lra.
        + rewrite incirc_rot. auto.
      - rewrite pv_pv, T5 in Hpe. rewrite Hpa in *. congruence. }
    destruct (O3 e) as (_ & X & _ & Y1 & Y2 & Y3); [rewrite same_tri_div; auto..|].
    rewrite X. rewrite Y1, Y2 in Hs. rewrite Y3 in Hpe. apply (g_side _ _ _ G); auto.
Qed.

Lemma flip_legal (Q : Z -> Prop) :
  legal_except L T H (fun e => e = a \/ Q e) ->
  legal_except L T' H' (fun e => e = a \/ e = nx b \/ Q e).
Proof.
  destruct (flip_b _ _ _ a M Ha Hb) as (Rb & Ib & E1 & E2).
  destruct (flip_tris _ _ _ a M Ha Hb flip_p01) as (T1 & T2 & T3 & T4 & T5 & T6).
  destruct (mesh_distinct _ _ _ a M Ha) as (N1 & N2 & N3). pose proof flip_p1 as NP.
  intros LE e He Hpe HQ HH.
  destruct (Z.eq_dec (a / 3) (e / 3)) as [Ea|Ea].
  { exfalso. apply same_tri_div in Ea. destruct Ea as [->|[->| ->]].
    - apply HQ. auto.
    - rewrite pv_nx, T1 in Hpe. congruence.
    - rewrite pv_pv, T2 in Hpe. rewrite Hpa in *. congruence. }
  destruct (Z.eq_dec (b / 3) (e / 3)) as [Eb|Eb].
  { exfalso. apply same_tri_div in Eb. destruct Eb as [->|[->| ->]].
    - rewrite T6 in Hpe. congruence.
    - apply HQ. auto.
    - rewrite pv_pv, T5 in Hpe. rewrite Hpa in *. congruence. }
  destruct (flip_other_tri _ _ _ a M Ha Hb flip_p01 e) as (U1 & U2 & U3); [rewrite same_tri_div; auto..|].
  rewrite U3 in Hpe.
  assert (Hde : e <> pv a) by (intros ->; apply Ea; apply same_tri_div, same_tri_pv).
  assert (Hea : e <> a) by (intros ->; apply Ea; auto).
  destruct (mesh_distinct _ _ _ e M He) as (K1 & K2 & K3).
  assert (Hd : H e <> pv a).
  { intros E. destruct (m_pair _ _ _ M e He) as [X|(R & I & F1 & F2)].
    - rewrite E in X. pose proof (pv_range L a (m_L3 _ _ _ M) Ha). lia.
    - rewrite E, Hpa in F1. congruence. }
  rewrite (flip_H_frame e) in HH |- *; auto; try (right; right; auto).
  assert (C : circ T' e (T' (pv (H e))) = circ T e (T' (pv (H e)))).
  { unfold circ. rewrite U1, U2, U3. reflexivity. }
  rewrite C.
  assert (TE : T' (pv (H e)) = T (pv (H e))).
  { destruct (flipT_eqs _ _ _ a M Ha Hb flip_p01) as (_ & _ & F).
    destruct (m_pair _ _ _ M e He) as [X|(R & I & F1 & F2)]; [lia|].
    apply F.
    - intros E. apply (f_equal nx) in E. rewrite nx_pv in E. rewrite E, nx_nx, Hpa in F2. congruence.
    - intros E. apply (f_equal nx) in E. rewrite nx_pv in E.
      apply (flip_br_nohas e); auto. }
  rewrite TE. apply LE; auto. intros [E|E]; auto.
Qed.
End One.
End FlipGeo.
