(** Property theorems C136-C137: the triangulation against all other triangulations of its vertices. *)
From Coq Require Import ZArith Lia List Bool Reals Lra.
From Flocq Require Import Core BinarySingleNaN.
From Verif Require Import Base Arith M_r3 M_tri2 M_triangulator Spec_r3 Spec_plane Spec_halfedge Spec_delaunay Spec_delaunay2 Spec_delaunay3 XRvec P_tri2 P_triang P_result P_flipterm P_delcomp P_delangle
  P_insphere_b64 Props_triangulator Props_tiling Props_grid Props_delcomp.
Import ListNotations.
Open Scope R_scope.

Lemma good_or_empty_exact srt pts t : input_ok srt pts -> returns srt pts t false -> triples (tTriangles t) = [] \/ exists I, good pts (tTriangles t) I.
Proof.
  intros H Ret. destruct (list_eq_dec Z.eq_dec (tTriangles t) []) as [->|N]; [left; reflexivity|right; apply (good_exact srt pts t H Ret N)].
Qed.
Lemma good_or_empty_grid srt vs t : grid_ok srt vs -> returns64 srt vs t false -> triples (tTriangles t) = [] \/ exists I, good (values vs) (tTriangles t) I.
Proof.
  intros H Ret. destruct (list_eq_dec Z.eq_dec (tTriangles t) []) as [->|N]; [left; reflexivity|right; apply (good_grid srt vs t H Ret N)].
Qed.

(** C136: the result is a triangulation of its vertices, and no triangulation of these vertices has a larger smallest angle *)
Theorem C136_is_triangulation srt pts t : input_ok srt pts -> returns srt pts t false -> tTriangles t <> [] ->
  triangulates pts (tTriangles t) (triples (tTriangles t)).
Proof. intros H Ret N. destruct (good_exact srt pts t H Ret N) as (I & G). exact (self_triangulates _ _ _ G). Qed.
Print Assumptions C136_is_triangulation.
Theorem C136_max_min_angle srt pts t S : input_ok srt pts -> returns srt pts t false -> triangulates pts (tTriangles t) S ->
  min_angle pts S <= min_angle pts (triples (tTriangles t)).
Proof.
  intros H Ret HS. destruct (good_or_empty_exact srt pts t H Ret) as [->|(I & G)]; [apply min_angle_PI|exact (best_min_angle _ _ _ G S HS)].
Qed.
Print Assumptions C136_max_min_angle.
(** more: every single angle of the result is at least some angle of the other triangulation *)
Theorem C136_each_angle srt pts t S : input_ok srt pts -> returns srt pts t false -> triangulates pts (tTriangles t) S ->
  forall a b c, has_triangle (tTriangles t) a b c -> exists x y z, has_corner S x y z /\
    angle (point pts x) (point pts y) (point pts z) <= angle (point pts a) (point pts b) (point pts c).
Proof.
  intros H Ret HS a b c Ht. destruct (good_or_empty_exact srt pts t H Ret) as [E|(I & G)].
  - exfalso. unfold has_triangle in Ht. rewrite E in Ht. destruct Ht as [[]|[[]|[]]].
  - assert (C : exists t0, In t0 (triples (tTriangles t)) /\ corner t0 a b c).
    { destruct Ht as [K|[K|K]]; eexists; (split; [exact K|]); cbn; auto. }
    destruct C as (t0 & Ht0 & C). destruct (best_angle _ _ _ G S t0 a b c HS Ht0 C) as ([[p q] r] & x & y & z & Hs & Cs & L).
    exists x, y, z. split; [|exact L]. destruct Cs as [E|[E|E]]; injection E as -> -> ->; unfold has_corner; auto.
Qed.
Print Assumptions C136_each_angle.
Theorem C136_grid64 srt vs t S : grid_ok srt vs -> returns64 srt vs t false -> let pts := values vs in
  (tTriangles t <> [] -> triangulates pts (tTriangles t) (triples (tTriangles t))) /\
  (triangulates pts (tTriangles t) S -> min_angle pts S <= min_angle pts (triples (tTriangles t))).
Proof.
  intros H Ret pts. split.
  - intros N. destruct (good_grid srt vs t H Ret N) as (I & G). exact (self_triangulates _ _ _ G).
  - intros HS. destruct (good_or_empty_grid srt vs t H Ret) as [->|(I & G)]; [apply min_angle_PI|exact (best_min_angle _ _ _ G S HS)].
Qed.
Print Assumptions C136_grid64.

(** C137: if the triangles of some triangulation of the vertices all fit in circles of a given radius, so do those of the result *)
Theorem C137_smallest_circles srt pts t S r2 : input_ok srt pts -> returns srt pts t false -> triangulates pts (tTriangles t) S ->
  (forall s, In s S -> fits pts r2 s) -> forall s, In s (triples (tTriangles t)) -> fits pts r2 s.
Proof.
  intros H Ret HS F s Hs. destruct (good_or_empty_exact srt pts t H Ret) as [E|(I & G)]; [rewrite E in Hs; destruct Hs|].
  exact (best_circle _ _ _ G S r2 HS F s Hs).
Qed.
Print Assumptions C137_smallest_circles.
Theorem C137_grid64 srt vs t S r2 : grid_ok srt vs -> returns64 srt vs t false -> let pts := values vs in triangulates pts (tTriangles t) S ->
  (forall s, In s S -> fits pts r2 s) -> forall s, In s (triples (tTriangles t)) -> fits pts r2 s.
Proof.
  intros H Ret pts HS F s Hs. destruct (good_or_empty_grid srt vs t H Ret) as [E|(I & G)]; [rewrite E in Hs; destruct Hs|].
  exact (best_circle _ _ _ G S r2 HS F s Hs).
Qed.
Print Assumptions C137_grid64.

(** the four points of C123-C126 have a second triangulation, with the other diagonal *)
Definition flipped : list (Z * Z * Z) := [(0, 3, 1); (0, 2, 3)]%Z.
Lemma flipped_ok V : (forall v, In v V <-> (0 <= v < 4)%Z) -> triangulates ex4 V flipped.
Proof.
  intros HV. assert (P0 : point ex4 0 = RV 0 0 0) by reflexivity. assert (P1 : point ex4 1 = RV 4 0 0) by reflexivity. assert (P2 : point ex4 2 = RV 1 3 0) by reflexivity. assert (P3 : point ex4 3 = RV 6 5 0) by reflexivity.
  split; [|split].
  - intros a b c [E|[E|[]]]; injection E as <- <- <-; rewrite !HV; (split; [lia|split; [lia|split; [lia|]]]); rewrite ?P0, ?P1, ?P2, ?P3; unfold ccw; cbn [rx ry]; lra.
  - intros a b c v Ht Hv K. apply HV in Hv. assert (v = 0 \/ v = 1 \/ v = 2 \/ v = 3)%Z as D by lia.
    destruct Ht as [E|[E|[]]]; injection E as <- <- <-; destruct D as [->|[->|[->| ->]]]; auto; exfalso; unfold in_triangle_or_edge in K; rewrite ?P0, ?P1, ?P2, ?P3 in K; unfold ccw in K; cbn [rx ry] in K; lra.
  - intros u v w q al be ga Hu Hv Hw (A & B & G & E & X & Y). apply HV in Hu, Hv, Hw.
    assert (D : forall k, (0 <= k < 4)%Z -> let p := point ex4 k in 0 <= ry p /\ 0 <= 5 * (rx p - 4) * -1 + 2 * ry p /\ 0 <= -2 * (rx p - 1) * -1 + -5 * (ry p - 3) /\ 0 <= 3 * rx p - ry p).
    { intros k Hk. assert (k = 0 \/ k = 1 \/ k = 2 \/ k = 3)%Z as D by lia. destruct D as [->|[->|[->| ->]]]; cbv zeta; rewrite ?P0, ?P1, ?P2, ?P3; cbn [rx ry]; repeat split; lra. }
    destruct (D u Hu) as (U1 & U2 & U3 & U4). destruct (D v Hv) as (V1 & V2 & V3 & V4). destruct (D w Hw) as (W1 & W2 & W3 & W4).
    set (pu := point ex4 u) in *. set (pv := point ex4 v) in *. set (pw := point ex4 w) in *.
    assert (M : forall nx ny k, 0 <= nx * rx pu + ny * ry pu + k -> 0 <= nx * rx pv + ny * ry pv + k -> 0 <= nx * rx pw + ny * ry pw + k -> 0 <= nx * rx q + ny * ry q + k).
    { intros nx ny k K1 K2 K3. rewrite X, Y. replace (nx * (al * rx pu + be * rx pv + ga * rx pw) + ny * (al * ry pu + be * ry pv + ga * ry pw) + k)
        with (al * (nx * rx pu + ny * ry pu + k) + be * (nx * rx pv + ny * ry pv + k) + ga * (nx * rx pw + ny * ry pw + k)) by (replace al with (1 - be - ga) by lra; ring).
      pose proof (Rmult_le_pos _ _ A K1). pose proof (Rmult_le_pos _ _ B K2). pose proof (Rmult_le_pos _ _ G K3). lra. }
    pose proof (M 0 1 0 ltac:(lra) ltac:(lra) ltac:(lra)) as M1. pose proof (M (-5) 2 20 ltac:(lra) ltac:(lra) ltac:(lra)) as M2.
    pose proof (M 2 (-5) 13 ltac:(lra) ltac:(lra) ltac:(lra)) as M3. pose proof (M 3 (-1) 0 ltac:(lra) ltac:(lra) ltac:(lra)) as M4.
    destruct (Rle_lt_dec (6 * ry q - 5 * rx q) 0) as [L|L].
    + exists (0, 3, 1)%Z. split; [left; auto|]. unfold in_triangle_or_edge. rewrite ?P0, ?P1, ?P2, ?P3. unfold ccw; cbn [rx ry]. repeat split; lra.
    + exists (0, 2, 3)%Z. split; [right; left; auto|]. unfold in_triangle_or_edge. rewrite ?P0, ?P1, ?P2, ?P3. unfold ccw; cbn [rx ry]. repeat split; lra.
Qed.
Example C136_137_nonvacuous : input_ok isort ex4 /\ exists t, returns isort ex4 t false /\ tTriangles t <> [] /\
  triangulates ex4 (tTriangles t) flipped /\ min_angle ex4 flipped <= min_angle ex4 (triples (tTriangles t)) /\ has_triangle (tTriangles t) 0 2 1 /\ ~ has_corner flipped 0 2 1.
Proof.
  destruct C123_126_nonvacuous as (Ok0 & _ & _ & _ & t & Ret & Al & _ & _ & _ & Ht & _). split; [exact Ok0|]. exists t. split; [exact Ret|].
  assert (N : tTriangles t <> []) by (apply (some_T _ 0%Z), Al; lia). split; [exact N|].
  assert (F : triangulates ex4 (tTriangles t) flipped).
  { apply flipped_ok. intros v. split; [|apply Al]. intros Hv. pose proof (C19_well_formed isort ex4 t false Ok0 Ret) as (_ & _ & R & _). apply R in Hv. exact Hv. }
  split; [exact F|]. split; [exact (C136_max_min_angle isort ex4 t flipped Ok0 Ret F)|]. split; [exact Ht|].
  intros [K|[K|K]]; cbn in K; destruct K as [K|[K|[]]]; discriminate.
Qed.
