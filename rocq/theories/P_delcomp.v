(** Completeness of Delaunay triangulations: required edges and triangles, greedy routing. *)
From Coq Require Import ZArith Lia List Bool Reals Lra Permutation Classical.
From Verif Require Import Spec_r3 Spec_plane Spec_halfedge Spec_delaunay Spec_delaunay2 P_tri2 P_ring P_result.
Import ListNotations.
Open Scope R_scope.

(** ** points of the plane *)
Definition mixp (e : R) (a b : rv) : rv := RV (rx a + e * (rx b - rx a)) (ry a + e * (ry b - ry a)) 0.
Notation bary := mean_of.
Lemma ccw_mix u v a b e : ccw u v (mixp e a b) = ccw u v a + e * (ccw u v b - ccw u v a).
Proof. unfold ccw, mixp. cbn [rx ry]. ring. Qed.
Lemma bary_of a b c q : ccw a b c < 0 -> ccw a b q <= 0 -> ccw b c q <= 0 -> ccw c a q <= 0 -> exists al be ga, bary a b c q al be ga.
Proof.
  intros S H1 H2 H3. set (s := ccw a b c) in *. assert (N : s <> 0) by lra.
  exists (ccw b c q / s), (ccw c a q / s), (ccw a b q / s).
  assert (P : forall x, x <= 0 -> 0 <= x / s).
  { intros x Hx. replace (x / s) with (- x * / (- s)) by (field; exact N). apply Rmult_le_pos; [lra|]. apply Rlt_le, Rinv_0_lt_compat. lra. }
  repeat split; auto.
  - apply Rmult_eq_reg_r with s; [|exact N]. field_simplify; [|exact N]. unfold s, ccw. ring.
  - apply Rmult_eq_reg_r with s; [|exact N]. field_simplify; [|exact N]. unfold s, ccw. ring.
  - apply Rmult_eq_reg_r with s; [|exact N]. field_simplify; [|exact N]. unfold s, ccw. ring.
Qed.
Lemma bary_affine a b c q al be ga nx ny k : bary a b c q al be ga ->
  nx * rx q + ny * ry q + k = al * (nx * rx a + ny * ry a + k) + be * (nx * rx b + ny * ry b + k) + ga * (nx * rx c + ny * ry c + k).
Proof. intros (_ & _ & _ & E & -> & ->). replace al with (1 - be - ga) by lra. ring. Qed.
(** the difference of two squared distances is affine *)
Definition gap (o t q : rv) : R := dist2xy q t - dist2xy q o.
Lemma gap_affine o t : exists nx ny k, forall q, gap o t q = nx * rx q + ny * ry q + k.
Proof.
  exists (2 * (rx o - rx t)), (2 * (ry o - ry t)), (rx t * rx t + ry t * ry t - rx o * rx o - ry o * ry o). intros q. unfold gap, dist2xy. ring.
Qed.
Lemma bary_gap a b c q al be ga o t : bary a b c q al be ga -> gap o t q = al * gap o t a + be * gap o t b + ga * gap o t c.
Proof. intros H. destruct (gap_affine o t) as (nx & ny & k & E). rewrite !E. apply (bary_affine _ _ _ _ _ _ _ nx ny k H). Qed.
Lemma mix_gap a b e o t : gap o t (mixp e a b) = (1 - e) * gap o t a + e * gap o t b.
Proof. destruct (gap_affine o t) as (nx & ny & k & E). rewrite !E. unfold mixp. cbn [rx ry]. ring. Qed.
Lemma bary_dist a b c q al be ga o : bary a b c q al be ga ->
  dist2xy q o = al * dist2xy a o + be * dist2xy b o + ga * dist2xy c o - (al * be * dist2xy a b + be * ga * dist2xy b c + ga * al * dist2xy c a).
Proof. intros (_ & _ & _ & E & X & Y). unfold dist2xy. rewrite X, Y. replace al with (1 - be - ga) by lra. ring. Qed.
Lemma d2_pos a b : ~ samexy a b -> 0 < dist2xy a b.
Proof.
  intros H. unfold dist2xy. pose proof (Rle_0_sqr (rx a - rx b)) as X. pose proof (Rle_0_sqr (ry a - ry b)) as Y. unfold Rsqr in X, Y.
  destruct (Rle_lt_dec ((rx a - rx b) * (rx a - rx b) + (ry a - ry b) * (ry a - ry b)) 0) as [L|L]; auto. exfalso. apply H.
  assert (X0 : (rx a - rx b) * (rx a - rx b) = 0) by lra. assert (Y0 : (ry a - ry b) * (ry a - ry b) = 0) by lra.
  apply Rsqr_0_uniq in X0. apply Rsqr_0_uniq in Y0. split; lra.
Qed.
Lemma d2_nonneg a b : 0 <= dist2xy a b.
Proof. unfold dist2xy. pose proof (Rle_0_sqr (rx a - rx b)) as X. pose proof (Rle_0_sqr (ry a - ry b)) as Y. unfold Rsqr in X, Y. lra. Qed.
Lemma d2_sym a b : dist2xy a b = dist2xy b a. Proof. unfold dist2xy. ring. Qed.
Lemma ccw_distinct a b c : ccw a b c < 0 -> ~ samexy a b /\ ~ samexy b c /\ ~ samexy c a.
Proof. intros H. repeat split; intros [X Y]; unfold ccw in H; rewrite X, Y in H; lra. Qed.

(** ** small parameters *)
Lemma finite_eps {X} (l : list X) (P : X -> R -> Prop) : (forall x, In x l -> exists d, 0 < d /\ forall e, 0 < e < d -> P x e) ->
  exists d, 0 < d /\ forall x e, In x l -> 0 < e < d -> P x e.
Proof.
  induction l as [|x l IH]; intros H; [exists 1; split; [lra|intros ? ? []]|].
  destruct IH as (d & D & Hd); [intros y Hy; apply H; right; auto|]. destruct (H x (or_introl eq_refl)) as (d' & D' & Hd').
  exists (Rmin d d'). split; [apply Rmin_glb_lt; auto|]. pose proof (Rmin_l d d'). pose proof (Rmin_r d d').
  intros y e [<-|Hy] He; [apply Hd'; lra|apply Hd; auto; lra].
Qed.
Lemma affine_pos f g : 0 < f -> exists d, 0 < d /\ forall e, 0 < e < d -> 0 < f + e * (g - f).
Proof.
  intros Hf. pose proof (Rabs_pos (g - f)) as P. exists (f / (Rabs (g - f) + 1)). split; [apply Rdiv_lt_0_compat; lra|].
  intros e [E0 E1]. assert (e * (Rabs (g - f) + 1) < f).
  { apply Rmult_lt_reg_r with (/ (Rabs (g - f) + 1)); [apply Rinv_0_lt_compat; lra|]. rewrite Rmult_assoc, Rinv_r by lra. unfold Rdiv in E1. lra. }
  assert (- (e * Rabs (g - f)) <= e * (g - f)).
  { rewrite Ropp_mult_distr_r. apply Rmult_le_compat_l; [lra|]. pose proof (Rle_abs (- (g - f))) as A. rewrite Rabs_Ropp in A. lra. }
  lra.
Qed.

(** ** what is used about a triangulation *)
Record good (pts : list rv) (T I : list Z) : Prop := {
  g_pos : forall a b c, In (a, b, c) (triples T) -> ccw (point pts a) (point pts b) (point pts c) < 0;
  g_del : delaunay pts T;
  g_cover : forall q, strictly_inside (map (point pts) I) q -> exists ti, In ti (triples T) /\ in_triangle_or_edge pts q ti;
  g_encl : encloses (map (point pts) I) (map (point pts) T);
  g_dist : forall u v, In u T -> In v T -> samexy (point pts u) (point pts v) -> u = v;
  g_edges : forall e, In e (polygon_edges (map (point pts) I)) -> ~ samexy (fst e) (snd e);
  g_some : triples T <> [] }.

Lemma triples_In l a b c : In (a, b, c) (triples l) -> In a l /\ In b l /\ In c l.
Proof. intros H. apply (triples_entry 0%Z) in H. destruct H as (k & K & <- & <- & <-). repeat split; apply nth_In; lia. Qed.

Section Good.
Variables (pts : list rv) (T I : list Z).
Hypothesis G : good pts T I.
Notation P := (point pts).
Definition within (q : rv) : Prop := encloses (map P I) [q].
Lemma within_ccw q : within q <-> forall e, In e (polygon_edges (map P I)) -> 0 <= ccw (fst e) (snd e) q.
Proof. split; [intros H e He; apply (H e He); left; auto|intros H e He p [<-|[]]; auto]. Qed.
Lemma within_T v : In v T -> within (P v).
Proof. intros H. apply within_ccw. intros e He. apply (g_encl _ _ _ G e He). apply in_map; auto. Qed.
Lemma within_mix a b e : within a -> within b -> 0 <= e <= 1 -> within (mixp e a b).
Proof.
  rewrite !within_ccw. intros A B He ed Hed. specialize (A ed Hed). specialize (B ed Hed). rewrite ccw_mix.
  replace (ccw (fst ed) (snd ed) a + e * (ccw (fst ed) (snd ed) b - ccw (fst ed) (snd ed) a)) with ((1 - e) * ccw (fst ed) (snd ed) a + e * ccw (fst ed) (snd ed) b) by ring.
  assert (0 <= (1 - e) * ccw (fst ed) (snd ed) a) by (apply Rmult_le_pos; lra). assert (0 <= e * ccw (fst ed) (snd ed) b) by (apply Rmult_le_pos; lra). lra.
Qed.
(** a point strictly inside *)
Lemma inside_point : exists g, strictly_inside (map P I) g.
Proof.
  pose proof (g_some _ _ _ G) as N. destruct (triples T) as [|[[a b] c] l] eqn:E; [contradiction|].
  assert (Hin : In (a, b, c) (triples T)) by (rewrite E; left; auto). pose proof (g_pos _ _ _ G _ _ _ Hin) as S. destruct (triples_In _ _ _ _ Hin) as (Ia & Ib & Ic).
  exists (RV ((rx (P a) + rx (P b) + rx (P c)) / 3) ((ry (P a) + ry (P b) + ry (P c)) / 3) 0). intros e He.
  pose proof (proj1 (within_ccw _) (within_T _ Ia) e He) as A. pose proof (proj1 (within_ccw _) (within_T _ Ib) e He) as B. pose proof (proj1 (within_ccw _) (within_T _ Ic) e He) as C.
  pose proof (g_edges _ _ _ G e He) as D. destruct e as [u v]. cbn [fst snd] in *.
  assert (M : ccw u v (RV ((rx (P a) + rx (P b) + rx (P c)) / 3) ((ry (P a) + ry (P b) + ry (P c)) / 3) 0) = (ccw u v (P a) + ccw u v (P b) + ccw u v (P c)) / 3) by (unfold ccw; cbn [rx ry]; field).
  rewrite M. destruct (Rle_lt_dec (ccw u v (P a) + ccw u v (P b) + ccw u v (P c)) 0) as [L|L]; [exfalso|lra].
  assert (A0 : ccw u v (P a) = 0) by lra. assert (B0 : ccw u v (P b) = 0) by lra. assert (C0 : ccw u v (P c) = 0) by lra. clear M L A B C.
  set (x := P a) in *. set (y := P b) in *. set (z := P c) in *. clearbody x y z.
  (* the triangle would be on the line uv *)
  assert (Q1 : (rx v - rx u) * ccw x y z = (rx y - rx x) * (ccw u v z - ccw u v x) - (rx z - rx x) * (ccw u v y - ccw u v x)) by (unfold ccw; ring).
  assert (Q2 : (ry v - ry u) * ccw x y z = (ry y - ry x) * (ccw u v z - ccw u v x) - (ry z - ry x) * (ccw u v y - ccw u v x)) by (unfold ccw; ring).
  rewrite A0, B0, C0 in Q1, Q2. apply D. split.
  - assert ((rx v - rx u) * ccw x y z = 0) as Z by lra. apply Rmult_integral in Z. lra.
  - assert ((ry v - ry u) * ccw x y z = 0) as Z by lra. apply Rmult_integral in Z. lra.
Qed.
Lemma out_eps q z t : ~ in_triangle_or_edge pts q t -> exists d, 0 < d /\ forall e, 0 < e < d -> ~ in_triangle_or_edge pts (mixp e q z) t.
Proof.
  destruct t as [[a b] c]. unfold in_triangle_or_edge. intros H.
  assert (K : forall u v, 0 < ccw u v q -> exists d, 0 < d /\ forall e, 0 < e < d -> 0 < ccw u v (mixp e q z)).
  { intros u v Hp. destruct (affine_pos _ (ccw u v z) Hp) as (d & D & Hd). exists d. split; auto. intros e He. rewrite ccw_mix. apply Hd; auto. }
  destruct (Rle_lt_dec (ccw (P a) (P b) q) 0) as [L1|L1]; [|destruct (K _ _ L1) as (d & D & Hd); exists d; split; auto; intros e He W; specialize (Hd e He); lra].
  destruct (Rle_lt_dec (ccw (P b) (P c) q) 0) as [L2|L2]; [|destruct (K _ _ L2) as (d & D & Hd); exists d; split; auto; intros e He W; specialize (Hd e He); lra].
  destruct (Rle_lt_dec (ccw (P c) (P a) q) 0) as [L3|L3]; [|destruct (K _ _ L3) as (d & D & Hd); exists d; split; auto; intros e He W; specialize (Hd e He); lra].
  exfalso. apply H. auto.
Qed.
(** the triangles cover the hull with its boundary *)
Lemma cover_closed q : within q -> exists t, In t (triples T) /\ in_triangle_or_edge pts q t.
Proof.
  intros W. destruct (classic (exists t, In t (triples T) /\ in_triangle_or_edge pts q t)) as [E|E]; auto. exfalso.
  destruct inside_point as (g & Hg).
  destruct (finite_eps (triples T) (fun t e => ~ in_triangle_or_edge pts (mixp e q g) t)) as (d & D & Hd).
  { intros t Ht. apply out_eps. intros K. apply E. eauto. }
  set (e := Rmin (d / 2) (/ 2)). assert (He : 0 < e < d /\ e < 1).
  { unfold e. pose proof (Rmin_l (d / 2) (/ 2)). pose proof (Rmin_r (d / 2) (/ 2)). assert (0 < Rmin (d / 2) (/ 2)) by (apply Rmin_glb_lt; lra). lra. }
  destruct (g_cover _ _ _ G (mixp e q g)) as (t & Ht & K).
  { intros ed Hed. rewrite ccw_mix. pose proof (proj1 (within_ccw q) W ed Hed) as A. pose proof (Hg ed Hed) as B.
    replace (ccw (fst ed) (snd ed) q + e * (ccw (fst ed) (snd ed) g - ccw (fst ed) (snd ed) q)) with ((1 - e) * ccw (fst ed) (snd ed) q + e * ccw (fst ed) (snd ed) g) by ring.
    assert (0 <= (1 - e) * ccw (fst ed) (snd ed) q) by (apply Rmult_le_pos; lra). assert (0 < e * ccw (fst ed) (snd ed) g) by (apply Rmult_lt_0_compat; lra). lra. }
  apply (Hd t e Ht (proj1 He) K).
Qed.
(** circumcircles *)
Lemma circum a b c : In (a, b, c) (triples T) -> exists o r2, circle3 o r2 (P a) (P b) (P c).
Proof. intros H. pose proof (g_pos _ _ _ G _ _ _ H). eexists; eexists. apply rcircumcenter_circle. lra. Qed.
Lemma tri_bary a b c q : In (a, b, c) (triples T) -> in_triangle_or_edge pts q (a, b, c) -> exists al be ga, bary (P a) (P b) (P c) q al be ga.
Proof. intros H (H1 & H2 & H3). apply bary_of; auto. apply (g_pos _ _ _ G _ _ _ H). Qed.
(** a vertex in a triangle is one of its corners *)
Lemma vertex_corner u a b c : In u T -> In (a, b, c) (triples T) -> in_triangle_or_edge pts (P u) (a, b, c) -> u = a \/ u = b \/ u = c.
Proof.
  intros Hu H K. destruct (tri_bary _ _ _ _ H K) as (al & be & ga & Ba). destruct (circum _ _ _ H) as (o & r2 & C1 & C2 & C3).
  pose proof (g_del _ _ _ G a b c H o r2 (conj C1 (conj C2 C3)) u Hu) as D. rewrite (bary_dist _ _ _ _ _ _ _ o Ba), C1, C2, C3 in D.
  destruct (ccw_distinct _ _ _ (g_pos _ _ _ G _ _ _ H)) as (N1 & N2 & N3). apply d2_pos in N1, N2, N3.
  destruct Ba as (A0 & B0 & C0 & S & X & Y). destruct (triples_In _ _ _ _ H) as (Ia & Ib & Ic).
  assert (R : al * r2 + be * r2 + ga * r2 = r2) by (replace al with (1 - be - ga) by lra; ring). rewrite R in D.
  assert (Z1 : 0 <= al * be * dist2xy (P a) (P b)) by (repeat apply Rmult_le_pos; lra). assert (Z2 : 0 <= be * ga * dist2xy (P b) (P c)) by (repeat apply Rmult_le_pos; lra).
  assert (Z3 : 0 <= ga * al * dist2xy (P c) (P a)) by (repeat apply Rmult_le_pos; lra).
  assert (E1 : al * be = 0) by (apply Rmult_eq_reg_r with (dist2xy (P a) (P b)); lra). assert (E2 : be * ga = 0) by (apply Rmult_eq_reg_r with (dist2xy (P b) (P c)); lra).
  assert (E3 : ga * al = 0) by (apply Rmult_eq_reg_r with (dist2xy (P c) (P a)); lra).
  apply Rmult_integral in E1, E2, E3.
  assert (V : (al = 1 /\ be = 0 /\ ga = 0) \/ (al = 0 /\ be = 1 /\ ga = 0) \/ (al = 0 /\ be = 0 /\ ga = 1)) by lra.
  destruct V as [(-> & -> & ->)|[(-> & -> & ->)|(-> & -> & ->)]].
  - left. apply (g_dist _ _ _ G); auto. split; lra.
  - right; left. apply (g_dist _ _ _ G); auto. split; lra.
  - right; right. apply (g_dist _ _ _ G); auto. split; lra.
Qed.
(** the triangle at u in the direction of a point of the hull *)
Lemma star u q : In u T -> within q -> exists e t, 0 < e <= 1 /\ In t (triples T) /\ in_triangle_or_edge pts (P u) t /\ in_triangle_or_edge pts (mixp e (P u) q) t.
Proof.
  intros Hu Hz.
  destruct (finite_eps (triples T) (fun t e => in_triangle_or_edge pts (mixp e (P u) q) t -> in_triangle_or_edge pts (P u) t)) as (d & D & Hd).
  { intros t Ht. destruct (classic (in_triangle_or_edge pts (P u) t)) as [K|K]; [exists 1; split; [lra|auto]|].
    destruct (out_eps (P u) q t K) as (d & D & Hd). exists d. split; auto. intros e He W. destruct (Hd e He W). }
  set (e := Rmin (d / 2) (/ 2)). assert (He : 0 < e < d /\ e < 1).
  { unfold e. pose proof (Rmin_l (d / 2) (/ 2)). pose proof (Rmin_r (d / 2) (/ 2)). assert (0 < Rmin (d / 2) (/ 2)) by (apply Rmin_glb_lt; lra). lra. }
  destruct (cover_closed (mixp e (P u) q)) as (t & Ht & K); [apply within_mix; auto; [apply within_T; auto|lra]|].
  exists e, t. split; [lra|]. split; auto. split; auto. apply (Hd t e Ht (proj1 He) K).
Qed.
Lemma bary_rot a b c q al be ga : bary a b c q al be ga -> bary b c a q be ga al.
Proof. intros (H1 & H2 & H3 & H4 & H5 & H6). repeat split; auto; lra. Qed.
Definition rots (a b c : Z) : Prop := has_triangle T a b c.
Lemma has_rot a b c : has_triangle T a b c -> has_triangle T b c a.
Proof. unfold has_triangle. tauto. Qed.
Lemma has_del a b c o r2 v : has_triangle T a b c -> circle3 o r2 (P a) (P b) (P c) -> In v T -> r2 <= dist2xy (P v) o.
Proof.
  intros [H|[H|H]] (C1 & C2 & C3) Hv; apply (g_del _ _ _ G _ _ _ H o r2); auto; repeat split; auto.
Qed.
Lemma has_circum a b c : has_triangle T a b c -> exists o r2, circle3 o r2 (P a) (P b) (P c).
Proof.
  intros [H|[H|H]]; destruct (circum _ _ _ H) as (o & r2 & C1 & C2 & C3); exists o, r2; repeat split; auto.
Qed.
Lemma has_In a b c : has_triangle T a b c -> In a T /\ In b T /\ In c T.
Proof. intros [H|[H|H]]; apply triples_In in H; tauto. Qed.
Lemma has_pos a b c : has_triangle T a b c -> ccw (P a) (P b) (P c) < 0.
Proof. intros [H|[H|H]]; apply (g_pos _ _ _ G) in H; unfold ccw in *; lra. Qed.
Lemma has_joined a b c : has_triangle T a b c -> joined T a b.
Proof.
  intros H. destruct (ccw_distinct _ _ _ (has_pos _ _ _ H)) as (N & _). split; [intros ->; apply N; split; reflexivity|].
  destruct H as [H|[H|H]]; do 3 eexists; (split; [exact H|]); simpl; tauto.
Qed.
Lemma joined_sym u v : joined T u v -> joined T v u.
Proof. intros (N & a & b & c & H & Hu & Hv). split; [auto|]. exists a, b, c. auto. Qed.
(** the same, with the triangle turned so that it starts at u *)
Lemma star_at u q : In u T -> within q -> exists e v w al be ga, 0 < e <= 1 /\ has_triangle T u v w /\ bary (P u) (P v) (P w) (mixp e (P u) q) al be ga.
Proof.
  intros Hu Hz. destruct (star u q Hu Hz) as (e & [[a b] c] & He & Ht & Ku & Kx). destruct (tri_bary _ _ _ _ Ht Kx) as (al & be & ga & Ba).
  destruct (vertex_corner u a b c Hu Ht Ku) as [->|[->| ->]].
  - exists e, b, c, al, be, ga. split; auto. split; [left; auto|auto].
  - exists e, c, a, be, ga, al. split; auto. split; [right; right; auto|apply bary_rot; auto].
  - exists e, a, b, ga, al, be. split; auto. split; [right; left; auto|apply bary_rot, bary_rot; auto].
Qed.
(** ** greedy routing *)
Lemma greedy q u z : In u T -> In z T -> dist2xy (P z) q < dist2xy (P u) q -> exists v, In v T /\ joined T u v /\ dist2xy (P v) q < dist2xy (P u) q.
Proof.
  intros Hu Hz L. destruct (star_at u (P z) Hu (within_T _ Hz)) as (e & v & w & al & be & ga & He & Ht & Ba).
  destruct (has_circum _ _ _ Ht) as (o & r2 & C). pose proof (has_del _ _ _ _ _ z Ht C Hz) as D. destruct C as (C1 & C2 & C3).
  destruct (has_In _ _ _ Ht) as (_ & Iv & Iw).
  destruct (Rlt_le_dec (dist2xy (P v) q) (dist2xy (P u) q)) as [Lv|Lv].
  { exists v. split; auto. split; auto. apply (has_joined _ _ w Ht). }
  destruct (Rlt_le_dec (dist2xy (P w) q) (dist2xy (P u) q)) as [Lw|Lw].
  { exists w. split; auto. split; auto. apply joined_sym, (has_joined _ _ v). apply has_rot, has_rot; auto. }
  exfalso. pose proof (bary_gap _ _ _ _ _ _ _ o q Ba) as E. rewrite mix_gap in E. unfold gap in E. rewrite C1, C2, C3 in E.
  destruct Ba as (A0 & B0 & G0 & S & _).
  assert (Q1 : be * (dist2xy (P u) q) <= be * dist2xy (P v) q) by (apply Rmult_le_compat_l; lra). assert (Q2 : ga * (dist2xy (P u) q) <= ga * dist2xy (P w) q) by (apply Rmult_le_compat_l; lra).
  assert (Q3 : e * (dist2xy (P z) q - dist2xy (P z) o) < e * (dist2xy (P u) q - r2)) by (apply Rmult_lt_compat_l; lra).
  replace al with (1 - be - ga) in E by lra. lra.
Qed.
(** ** required edges *)
Lemma edge_required u v o r2 : In u T -> In v T -> u <> v -> empty_circle pts T o r2 [u; v] -> joined T u v.
Proof.
  intros Hu Hv N (On & Out). assert (Ou : dist2xy (P u) o = r2) by (apply On; simpl; auto). assert (Ov : dist2xy (P v) o = r2) by (apply On; simpl; auto).
  set (x := mixp (/ 2) (P u) (P v)). destruct (cover_closed x) as ([[a b] c] & Ht & K); [apply within_mix; try apply within_T; auto; lra|].
  destruct (tri_bary _ _ _ _ Ht K) as (al & be & ga & Ba). destruct (circum _ _ _ Ht) as (o2 & s2 & C).
  pose proof (g_del _ _ _ G _ _ _ Ht _ _ C u Hu) as Du. pose proof (g_del _ _ _ G _ _ _ Ht _ _ C v Hv) as Dv. destruct C as (C1 & C2 & C3).
  destruct (triples_In _ _ _ _ Ht) as (Ia & Ib & Ic).
  pose proof (bary_gap _ _ _ _ _ _ _ o2 o Ba) as E. unfold x in E. rewrite mix_gap in E. unfold gap in E. rewrite C1, C2, C3, Ou, Ov in E. fold x in E.
  assert (Ge : forall w, In w T -> r2 <= dist2xy (P w) o).
  { intros w Hw. destruct (in_dec Z.eq_dec w [u; v]) as [Y|Y]; [rewrite (On w Y); lra|apply Rlt_le, Out; auto]. }
  pose proof (Ge a Ia) as Ga. pose proof (Ge b Ib) as Gb. pose proof (Ge c Ic) as Gc. pose proof Ba as (A0 & B0 & G0 & S & _).
  assert (Q1 : 0 <= al * (dist2xy (P a) o - r2)) by (apply Rmult_le_pos; lra). assert (Q2 : 0 <= be * (dist2xy (P b) o - r2)) by (apply Rmult_le_pos; lra). assert (Q3 : 0 <= ga * (dist2xy (P c) o - r2)) by (apply Rmult_le_pos; lra).
  assert (SE : al * (dist2xy (P a) o - s2) + be * (dist2xy (P b) o - s2) + ga * (dist2xy (P c) o - s2) = al * (dist2xy (P a) o - r2) + be * (dist2xy (P b) o - r2) + ga * (dist2xy (P c) o - r2) + (r2 - s2)) by (replace al with (1 - be - ga) by lra; ring).
  rewrite SE in E.
  assert (Pos : forall w k, In w T -> 0 < k -> k * (dist2xy (P w) o - r2) = 0 -> In w [u; v]).
  { intros w k Hw Hk Z. destruct (in_dec Z.eq_dec w [u; v]) as [Y|Y]; auto. exfalso. pose proof (Out w Hw Y). assert (0 < k * (dist2xy (P w) o - r2)) by (apply Rmult_lt_0_compat; lra). lra. }
  assert (Z1 : al * (dist2xy (P a) o - r2) = 0) by lra. assert (Z2 : be * (dist2xy (P b) o - r2) = 0) by lra. assert (Z3 : ga * (dist2xy (P c) o - r2) = 0) by lra.
  assert (Nuv : ~ samexy (P u) (P v)) by (intros Sm; apply N, (g_dist _ _ _ G); auto).
  destruct (ccw_distinct _ _ _ (g_pos _ _ _ G _ _ _ Ht)) as (N1 & N2 & N3).
  (* the corners with positive weight are u or v, and the midpoint is neither *)
  assert (Two : forall w, In w [u; v] -> ~ samexy x (P w)).
  { intros w [<-|[<-|[]]] [X Y]; apply Nuv; unfold x, mixp in X, Y; cbn [rx ry] in X, Y; split; lra. }
  assert (Fin : forall i j, In i [a; b; c] -> In j [a; b; c] -> ~ samexy (P i) (P j) -> In i [u; v] -> In j [u; v] -> joined T u v).
  { intros i j Hi Hj Nij Mi Mj. split; auto. exists a, b, c. split; auto. simpl in Mi, Mj.
    destruct Mi as [<-|[<-|[]]], Mj as [<-|[<-|[]]]; auto; exfalso; apply Nij; split; reflexivity. }
  destruct Ba as (_ & _ & _ & _ & X & Y).
  destruct (Rlt_le_dec 0 al) as [Pa|Pa]; [pose proof (Pos a al Ia Pa Z1) as Ma|]; (destruct (Rlt_le_dec 0 be) as [Pb|Pb]; [pose proof (Pos b be Ib Pb Z2) as Mb|]);
    (destruct (Rlt_le_dec 0 ga) as [Pc|Pc]; [pose proof (Pos c ga Ic Pc Z3) as Mc|]).
  - apply (Fin a b); simpl; auto.
  - apply (Fin a b); simpl; auto.
  - apply (Fin c a); simpl; auto.
  - exfalso. apply (Two a Ma). assert (be = 0) by lra. assert (ga = 0) by lra. subst be ga. assert (al = 1) by lra. subst al. split; lra.
  - apply (Fin b c); simpl; auto.
  - exfalso. apply (Two b Mb). assert (al = 0) by lra. assert (ga = 0) by lra. subst al ga. assert (be = 1) by lra. subst be. split; lra.
  - exfalso. apply (Two c Mc). assert (al = 0) by lra. assert (be = 0) by lra. subst al be. assert (ga = 1) by lra. subst ga. split; lra.
  - exfalso. lra.
Qed.
(** ** required triangles *)
Lemma triangle_required u v w o r2 : In u T -> In v T -> In w T -> ccw (P u) (P v) (P w) < 0 -> empty_circle pts T o r2 [u; v; w] -> has_triangle T u v w.
Proof.
  intros Hu Hv Hw Or (On & Out). assert (Ou : dist2xy (P u) o = r2) by (apply On; simpl; auto). assert (Ov : dist2xy (P v) o = r2) by (apply On; simpl; auto). assert (Ow : dist2xy (P w) o = r2) by (apply On; simpl; auto).
  set (x := RV ((rx (P u) + rx (P v) + rx (P w)) / 3) ((ry (P u) + ry (P v) + ry (P w)) / 3) 0).
  assert (Bx : bary (P u) (P v) (P w) x (/ 3) (/ 3) (/ 3)) by (unfold x; repeat split; cbn [rx ry]; lra).
  destruct (cover_closed x) as ([[a b] c] & Ht & K).
  { apply within_ccw. intros e He. pose proof (proj1 (within_ccw _) (within_T _ Hu) e He). pose proof (proj1 (within_ccw _) (within_T _ Hv) e He). pose proof (proj1 (within_ccw _) (within_T _ Hw) e He).
    replace (ccw (fst e) (snd e) x) with ((ccw (fst e) (snd e) (P u) + ccw (fst e) (snd e) (P v) + ccw (fst e) (snd e) (P w)) / 3) by (unfold x, ccw; cbn [rx ry]; field). lra. }
  destruct (tri_bary _ _ _ _ Ht K) as (al & be & ga & Ba). destruct (circum _ _ _ Ht) as (o2 & s2 & C).
  pose proof (g_del _ _ _ G _ _ _ Ht _ _ C u Hu) as Du. pose proof (g_del _ _ _ G _ _ _ Ht _ _ C v Hv) as Dv. pose proof (g_del _ _ _ G _ _ _ Ht _ _ C w Hw) as Dw. pose proof C as (C1 & C2 & C3).
  destruct (triples_In _ _ _ _ Ht) as (Ia & Ib & Ic). pose proof (g_pos _ _ _ G _ _ _ Ht) as Or'.
  pose proof (bary_gap _ _ _ _ _ _ _ o2 o Ba) as E. rewrite (bary_gap _ _ _ _ _ _ _ o2 o Bx) in E.
  assert (Ge : forall z, In z T -> r2 <= dist2xy (P z) o).
  { intros z Hz. destruct (in_dec Z.eq_dec z [u; v; w]) as [Y|Y]; [rewrite (On z Y); lra|apply Rlt_le, Out; auto]. }
  pose proof (Ge a Ia) as Ga. pose proof (Ge b Ib) as Gb. pose proof (Ge c Ic) as Gc. pose proof Ba as (A0 & B0 & G0 & S & _).
  assert (Q1 : 0 <= al * (dist2xy (P a) o - r2)) by (apply Rmult_le_pos; lra). assert (Q2 : 0 <= be * (dist2xy (P b) o - r2)) by (apply Rmult_le_pos; lra). assert (Q3 : 0 <= ga * (dist2xy (P c) o - r2)) by (apply Rmult_le_pos; lra).
  assert (EQ : dist2xy (P u) o2 = s2 /\ dist2xy (P v) o2 = s2 /\ dist2xy (P w) o2 = s2).
  { unfold gap in E. rewrite C1, C2, C3, Ou, Ov, Ow in E. replace al with (1 - be - ga) in E, Q1 by lra. lra. }
  (* so the two circles agree on u, v, w, hence are one circle *)
  destruct EQ as (Eu & Ev & Ew).
  assert (OO : rx o = rx o2 /\ ry o = ry o2 /\ r2 = s2).
  { destruct (circle3_unique (P u) (P v) (P w) o r2 ltac:(lra)) as (X1 & Y1 & R1); [repeat split; auto|].
    destruct (circle3_unique (P u) (P v) (P w) o2 s2 ltac:(lra)) as (X2 & Y2 & R2); [repeat split; auto|]. repeat split; congruence. }
  destruct OO as (OX & OY & OR).
  assert (Sd : forall p, dist2xy p o = dist2xy p o2) by (intros p; unfold dist2xy; rewrite OX, OY; reflexivity).
  assert (Mem : forall z, In z T -> dist2xy (P z) o2 = s2 -> In z [u; v; w]).
  { intros z Hz Ez. destruct (in_dec Z.eq_dec z [u; v; w]) as [Y|Y]; auto. exfalso. pose proof (Out z Hz Y). rewrite Sd in H. lra. }
  pose proof (Mem a Ia C1) as Ma. pose proof (Mem b Ib C2) as Mb. pose proof (Mem c Ic C3) as Mc. clear - Ma Mb Mc Or Or' Ht.
  destruct Ma as [<-|[<-|[<-|[]]]], Mb as [<-|[<-|[<-|[]]]], Mc as [<-|[<-|[<-|[]]]]; try (exfalso; unfold ccw in Or, Or'; lra); unfold has_triangle; auto.
Qed.
(** ** Gabriel edges and nearest neighbours *)
Lemma gabriel_edge u v : In u T -> In v T -> u <> v -> gabriel pts T u v -> joined T u v.
Proof.
  intros Hu Hv N Ga. set (o := mixp (/ 2) (P u) (P v)).
  assert (E : forall p, 4 * (dist2xy p o - dist2xy (P u) (P v) / 4) = 2 * (dist2xy p (P u) + dist2xy p (P v) - dist2xy (P u) (P v))) by (intros p; unfold o, dist2xy, mixp; cbn [rx ry]; field).
  apply (edge_required u v o (dist2xy (P u) (P v) / 4)); auto. split.
  - intros w [<-|[<-|[]]]; [specialize (E (P u))|specialize (E (P v))]; unfold dist2xy in *; lra.
  - intros w Hw Nw. pose proof (Ga w Hw ltac:(intros ->; apply Nw; simpl; auto) ltac:(intros ->; apply Nw; simpl; auto)) as L. unfold d2 in L.
    specialize (E (P w)). rewrite (d2_sym (P u) (P w)) in L. lra.
Qed.
Lemma nearest_gabriel u v : In u T -> nearest_vertex pts T u v -> gabriel pts T u v.
Proof.
  intros Hu (Hv & N & Nr) w Hw N1 N2. pose proof (Nr w Hw N1) as L. unfold d2 in *.
  assert (0 < dist2xy (P w) (P v)) by (apply d2_pos; intros Sm; apply N2, (g_dist _ _ _ G); auto). lra.
Qed.
Lemma nearest_edge u v : In u T -> nearest_vertex pts T u v -> joined T u v.
Proof. intros Hu H. apply gabriel_edge; auto; [apply H|intros ->; destruct H as (_ & N & _); auto|apply nearest_gabriel; auto]. Qed.
(** ** paths *)
Lemma hops_app m u v w : hops pts T m u v -> hops pts T m v w -> hops pts T m u w.
Proof. induction 1; auto. intros. econstructor; eauto. Qed.
Lemma hops_mono m m' u v : m <= m' -> hops pts T m u v -> hops pts T m' u v.
Proof. intros L. induction 1; [constructor|]. econstructor; eauto. lra. Qed.
Definition shorter (d : R) : list (Z * Z) := filter (fun p => if Rlt_dec (d2 pts (fst p) (snd p)) d then true else false) (list_prod T T).
Lemma filter_less {X} (f g : X -> bool) l x : In x l -> (forall y, f y = true -> g y = true) -> f x = false -> g x = true -> (length (filter f l) < length (filter g l))%nat.
Proof.
  intros Hx Im Fx Gx. induction l as [|y l IH]; [contradiction|].
  assert (L : (length (filter f l) <= length (filter g l))%nat).
  { clear - Im. induction l as [|y l IH]; [auto|]. simpl. destruct (f y) eqn:F; [rewrite (Im y F); simpl; lia|]. destruct (g y); simpl; lia. }
  simpl. destruct Hx as [->|Hx].
  - rewrite Fx, Gx. simpl. lia.
  - specialize (IH Hx). destruct (f y) eqn:F; [rewrite (Im y F); simpl; lia|]. destruct (g y); simpl; lia.
Qed.
Lemma shorter_less u v d : In u T -> In v T -> d2 pts u v < d -> (length (shorter (d2 pts u v)) < length (shorter d))%nat.
Proof.
  intros Hu Hv L. apply (filter_less _ _ _ (u, v)); [apply in_prod; auto| | |]; cbn [fst snd].
  - intros [a b]. cbn [fst snd]. destruct (Rlt_dec _ (d2 pts u v)); [|discriminate]. destruct (Rlt_dec _ d); auto. lra.
  - destruct (Rlt_dec _ _); auto. lra.
  - destruct (Rlt_dec _ _); auto. 
Qed.
Lemma bottleneck u v : In u T -> In v T -> hops pts T (d2 pts u v) u v.
Proof.
  remember (length (shorter (d2 pts u v))) as n eqn:En. revert u v En. induction n as [n IH] using lt_wf_ind. intros u v -> Hu Hv.
  destruct (Z.eq_dec u v) as [->|N]; [constructor|].
  destruct (classic (gabriel pts T u v)) as [Ga|Ga].
  - apply hops_cons with v; [apply gabriel_edge; auto|lra|constructor].
  - apply not_all_ex_not in Ga. destruct Ga as (w & Ga). apply imply_to_and in Ga. destruct Ga as (Hw & Ga). apply imply_to_and in Ga. destruct Ga as (N1 & Ga). apply imply_to_and in Ga. destruct Ga as (N2 & Ga).
    assert (P1 : 0 < d2 pts u w) by (apply d2_pos; intros Sm; apply N1; symmetry; apply (g_dist _ _ _ G); auto).
    assert (P2 : 0 < d2 pts w v) by (apply d2_pos; intros Sm; apply N2; apply (g_dist _ _ _ G); auto).
    assert (L1 : d2 pts u w < d2 pts u v) by lra. assert (L2 : d2 pts w v < d2 pts u v) by lra.
    apply hops_app with w.
    + apply hops_mono with (d2 pts u w); [lra|]. eapply IH; [|reflexivity| |]; auto. apply shorter_less; auto.
    + apply hops_mono with (d2 pts w v); [lra|]. eapply IH; [|reflexivity| |]; auto. apply shorter_less; auto.
Qed.
(** ** optimality of linear interpolation *)
Lemma optimal a b c q al be ga u v w al' be' ga' : In (a, b, c) (triples T) -> bary (P a) (P b) (P c) q al be ga ->
  In u T -> In v T -> In w T -> bary (P u) (P v) (P w) q al' be' ga' -> spread (P a) (P b) (P c) q al be ga <= spread (P u) (P v) (P w) q al' be' ga'.
Proof.
  intros Ht B Hu Hv Hw B'. destruct (circum _ _ _ Ht) as (o & r2 & C). pose proof (g_del _ _ _ G _ _ _ Ht _ _ C) as D. destruct C as (C1 & C2 & C3).
  pose proof (D u Hu) as Du. pose proof (D v Hv) as Dv. pose proof (D w Hw) as Dw.
  pose proof (bary_gap _ _ _ _ _ _ _ o q B) as E. rewrite (bary_gap _ _ _ _ _ _ _ o q B') in E. unfold gap in E. rewrite C1, C2, C3 in E.
  destruct B as (A0 & B0 & G0 & S & _). destruct B' as (A0' & B0' & G0' & S' & _).
  assert (Q1 : al' * r2 <= al' * dist2xy (P u) o) by (apply Rmult_le_compat_l; lra). assert (Q2 : be' * r2 <= be' * dist2xy (P v) o) by (apply Rmult_le_compat_l; lra). assert (Q3 : ga' * r2 <= ga' * dist2xy (P w) o) by (apply Rmult_le_compat_l; lra).
  assert (R1 : al * r2 + be * r2 + ga * r2 = r2) by (replace al with (1 - be - ga) by lra; ring). assert (R2 : al' * r2 + be' * r2 + ga' * r2 = r2) by (replace al' with (1 - be' - ga') by lra; ring).
  unfold spread. lra.
Qed.
(** greedy routing ends at a nearest vertex *)
Definition closer (q : rv) (d : R) : list Z := filter (fun p => if Rlt_dec (dist2xy (P p) q) d then true else false) T.
Lemma greedy_path q u : In u T -> exists z, In z T /\ descends pts T q u z /\ forall w, In w T -> dist2xy (P z) q <= dist2xy (P w) q.
Proof.
  remember (length (closer q (dist2xy (P u) q))) as n eqn:En. revert u En. induction n as [n IH] using lt_wf_ind. intros u -> Hu.
  destruct (classic (forall w, In w T -> dist2xy (P u) q <= dist2xy (P w) q)) as [M|M]; [exists u; split; auto; split; [constructor|auto]|].
  apply not_all_ex_not in M. destruct M as (z & M). apply imply_to_and in M. destruct M as (Hz & L).
  destruct (greedy q u z Hu Hz ltac:(lra)) as (v & Hv & J & Lv).
  assert (Lt : (length (closer q (dist2xy (P v) q)) < length (closer q (dist2xy (P u) q)))%nat).
  { apply (filter_less _ _ _ v); [exact Hv| | |]; cbv beta.
    - intros y. destruct (Rlt_dec _ (dist2xy (P v) q)); [|discriminate]. destruct (Rlt_dec _ (dist2xy (P u) q)); auto. lra.
    - destruct (Rlt_dec _ _); auto. lra.
    - destruct (Rlt_dec _ _); auto. }
  destruct (IH _ Lt v eq_refl Hv) as (t & Ht & De & Mi).
  exists t. split; auto. split; auto. econstructor; eauto.
Qed.
(** ** in general position the triangles are known *)
Lemma characterised a b c : (forall i, (0 <= i < Z.of_nat (length pts))%Z <-> In i T) -> NoDup pts -> no_four_cocircular pts ->
  (0 <= a < Z.of_nat (length pts))%Z -> (0 <= b < Z.of_nat (length pts))%Z -> (0 <= c < Z.of_nat (length pts))%Z ->
  (has_triangle T a b c <-> ccw (P a) (P b) (P c) < 0 /\ exists o r2, circle3 o r2 (P a) (P b) (P c) /\ circle_free pts o r2).
Proof.
  intros All ND N4 Ra Rb Rc.
  assert (PI : forall i, (0 <= i < Z.of_nat (length pts))%Z -> In (P i) pts) by (intros i Hi; apply nth_In; lia).
  assert (Idx : forall p, In p pts -> exists i, (0 <= i < Z.of_nat (length pts))%Z /\ P i = p).
  { intros p Hp. destruct (In_nth _ _ (RV 0 0 0) Hp) as (n & Ln & En). exists (Z.of_nat n). split; [lia|]. unfold point. rewrite Nat2Z.id. exact En. }
  assert (Inj : forall i j, (0 <= i < Z.of_nat (length pts))%Z -> (0 <= j < Z.of_nat (length pts))%Z -> i <> j -> P i <> P j).
  { intros i j Hi Hj Nij E. apply (proj1 (NoDup_nth pts (RV 0 0 0)) ND) in E; lia. }
  split.
  - intros Ht. split; [apply has_pos; auto|]. destruct (has_circum _ _ _ Ht) as (o & r2 & C). exists o, r2. split; auto.
    intros p Hp. destruct (Idx p Hp) as (i & Hi & <-). apply (has_del _ _ _ _ _ i Ht C). apply All; auto.
  - intros (Or & o & r2 & (C1 & C2 & C3) & Fr).
    apply triangle_required with (o := o) (r2 := r2); auto; try (apply All; auto). split.
    + intros v [<-|[<-|[<-|[]]]]; auto.
    + intros w Hw Nw. apply All in Hw. pose proof (Fr (P w) (PI w Hw)) as Ge. destruct (Rle_lt_or_eq_dec _ _ Ge) as [L|E]; auto. exfalso.
      destruct (ccw_distinct _ _ _ Or) as (N1 & N2 & N3).
      apply (N4 (P a) (P b) (P c) (P w) o r2); auto. constructor; [|constructor; [|constructor; [|constructor; [|constructor]]]]; simpl.
      * intros [K|[K|[K|[]]]]; [apply N1; rewrite K; split; reflexivity|apply N3; rewrite K; split; reflexivity|]. apply (Inj w a); auto. intros ->; apply Nw; simpl; auto.
      * intros [K|[K|[]]]; [apply N2; rewrite K; split; reflexivity|]. apply (Inj w b); auto. intros ->; apply Nw; simpl; auto.
      * intros [K|[]]. apply (Inj w c); auto. intros ->; apply Nw; simpl; auto.
      * auto.
Qed.
Lemma characterised_at A B C : (forall i, (0 <= i < Z.of_nat (length pts))%Z <-> In i T) -> NoDup pts -> no_four_cocircular pts ->
  (triangle_at pts T A B C <-> In A pts /\ In B pts /\ In C pts /\ ccw A B C < 0 /\ exists o r2, circle3 o r2 A B C /\ circle_free pts o r2).
Proof.
  intros All ND N4.
  assert (Idx : forall p, In p pts -> exists i, (0 <= i < Z.of_nat (length pts))%Z /\ P i = p).
  { intros p Hp. destruct (In_nth _ _ (RV 0 0 0) Hp) as (n & Ln & En). exists (Z.of_nat n). split; [lia|]. unfold point. rewrite Nat2Z.id. exact En. }
  assert (PI : forall i, In i T -> In (P i) pts) by (intros i Hi; apply All in Hi; apply nth_In; lia).
  split.
  - intros (a & b & c & Ht & <- & <- & <-). destruct (has_In _ _ _ Ht) as (Ia & Ib & Ic). split; [auto|]. split; [auto|]. split; [auto|].
    apply (characterised a b c); auto; apply All; auto.
  - intros (HA & HB & HC & R). destruct (Idx A HA) as (a & Ra & <-). destruct (Idx B HB) as (b & Rb & <-). destruct (Idx C HC) as (c & Rc & <-).
    exists a, b, c. repeat split; auto. apply characterised; auto.
Qed.
End Good.

(** ** a result of Triangulate is such a triangulation *)
Lemma corner_next_range (T H : list Z) e : paired T H -> (0 <= e < Z.of_nat (length T))%Z -> (0 <= corner_next e < Z.of_nat (length T))%Z.
Proof.
  intros Pr He. destruct (pr_whole _ _ Pr) as (k & K). unfold corner_next. pose proof (Z.div_mod e 3 ltac:(lia)). pose proof (Z.mod_pos_bound e 3 ltac:(lia)).
  destruct (Z.eqb_spec (e mod 3) 2); lia.
Qed.
Lemma good_intro pts T H I : paired T H -> (forall c, In c (triples T) -> 0 < area3 pts c) -> delaunay pts T -> boundary T H I ->
  encloses (map (point pts) I) (map (point pts) T) -> (forall u v, In u T -> In v T -> samexy (point pts u) (point pts v) -> u = v) ->
  (I <> [] -> forall q, strictly_inside (map (point pts) I) q -> exists ti, In ti (triples T) /\ in_triangle_or_edge pts q ti) ->
  Spec_plane.Rsum (map (area3 pts) (triples T)) = shoelace (map (point pts) I) -> T <> [] -> good pts T I.
Proof.
  intros Pr Pos De Bd En Di Co Ar NT.
  assert (NE : triples T <> []).
  { intros Q. destruct (pr_whole _ _ Pr) as (k & K). pose proof (triples_length _ _ K) as W. rewrite Q in W. simpl in W. subst k. destruct T; [contradiction|discriminate]. }
  assert (NI : I <> []).
  { intros ->. assert (S : forall l, (forall c, In c l -> 0 < area3 pts c) -> l <> [] -> 0 < Spec_plane.Rsum (map (area3 pts) l)).
    { induction l as [|c l IH]; intros Q N; [contradiction|]. cbn [map Spec_plane.Rsum]. assert (0 < area3 pts c) by (apply Q; simpl; auto).
      destruct l as [|c' l]; [simpl in *; lra|]. assert (0 < Spec_plane.Rsum (map (area3 pts) (c' :: l))) by (apply IH; [intros; apply Q; simpl; auto|discriminate]). lra. }
    pose proof (S _ Pos NE) as Q. rewrite Ar in Q. unfold shoelace in Q. simpl in Q. lra. }
  constructor; auto.
  - intros a b c Ht. specialize (Pos _ Ht). unfold area3 in Pos. lra.
  - intros e He. rewrite pe_map in He. apply in_map_iff in He. destruct He as ([u v] & <- & He). cbn [fst snd]. apply (proj2 Bd) in He.
    destruct He as (k & Hk & _ & <- & <-). pose proof (corner_next_range T H k Pr Hk). pose proof (pr_corners _ _ Pr k Hk) as N. intros Sm. apply N. symmetry. apply Di; auto; apply nth_In; lia.
Qed.
