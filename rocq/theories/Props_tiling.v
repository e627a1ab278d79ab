(** Property theorem C82: the triangles tile the hull. *)
From Coq Require Import ZArith Lia List Bool Reals Lra Permutation.
From Verif Require Import Base Arith M_r3 M_tri2 M_triangulator Spec_r3 Spec_plane Spec_halfedge Spec_delaunay XRvec P_tri2 P_delgeom
  P_ring P_insert P_init P_triang P_result P_tile P_tiling P_flipterm Props_triangulator.
Import ListNotations.
Open Scope Z_scope.

(** ** C82 *)
Theorem C82_disjoint srt pts t err : input_ok srt pts -> returns srt pts t err ->
  forall q i j ti tj, nth_error (triples (tTriangles t)) i = Some ti -> nth_error (triples (tTriangles t)) j = Some tj ->
  in_triangle pts q ti -> in_triangle pts q tj -> i = j.
Proof.
  intros H Ret q i j [[a b] c] [[a' b'] c'] Hi Hj. pose proof (C19_well_formed srt pts t err H Ret) as (_ & _ & Rg & _).
  result H t err. destruct D as [(O & Er & T0 & H0 & C0)|(NL & -> & s & V & R & i0 & i1 & i2 & I & RS & ET & EH & EC & Bd & LI & IV & IE & Cov)].
  - rewrite T0 in Hi. destruct i; discriminate.
  - rewrite ET in *. unfold in_triangle. intros Qi Qj.
    assert (G : forall x y z, In (x, y, z) (triples (T_ s)) -> In x (T_ s) /\ In y (T_ s) /\ In z (T_ s)).
    { intros x y z Hin. apply (triples_entry (-1)) in Hin. destruct Hin as (k & K & <- & <- & <-). repeat split; apply nth_In; lia. }
    destruct (G _ _ _ (nth_error_In _ _ Hi)) as (A & B & C). destruct (G _ _ _ (nth_error_In _ _ Hj)) as (A' & B' & C').
    rewrite !point_PP in Qi, Qj by (apply Rg; auto).
    apply (res_disjoint pts i0 i1 i2 _ s V R RS q i j a b c a' b' c'); auto; unfold tin, ar; lra.
Qed.
Print Assumptions C82_disjoint.
Theorem C82_cover srt pts t err I : input_ok srt pts -> returns srt pts t err ->
  boundary (tTriangles t) (tHalfedges t) I -> I <> [] ->
  forall q, strictly_inside (map (point pts) I) q -> exists ti, In ti (triples (tTriangles t)) /\ in_triangle_or_edge pts q ti.
Proof.
  intros H Ret BI NI q SI. pose proof (C19_well_formed srt pts t err H Ret) as (_ & _ & Rg & _).
  result H t err. destruct D as [(O & Er & T0 & H0 & C0)|(NL & -> & s & V & R & i0 & i1 & i2 & J & RS & ET & EH & EC & Bd & LI & IV & IE & Cov)].
  - exfalso. destruct I as [|x I]; [contradiction|]. destruct (pe_succ (x :: I) x ltac:(left; auto)) as (y & Q). apply (proj2 BI) in Q.
    destruct Q as (e & He & _). rewrite T0 in He. simpl in He. lia.
  - rewrite ET, EH in *. destruct (res_cover pts i0 i1 i2 _ s V R RS q) as (a & b & c & Hin & Tc).
    + intros u v Huv. assert (Q : In (v, u) (polygon_edges I)) by (apply (proj2 BI), (proj2 Bd), IE; auto).
      destruct (ring_V pts i0 i1 i2 _ s V R RS u v Huv) as [Vu Vv].
      pose proof (SI (point pts v, point pts u)) as W. cbn [fst snd] in W. rewrite !point_PP in W by (apply (r_range _ _ _ _ _ _ _ _ RS); auto).
      rewrite pe_map in W. assert (0 < ccw (PP pts v) (PP pts u) q)%R.
      { apply W. apply in_map_iff. exists (v, u). split; auto. cbn [fst snd]. rewrite !point_PP by (apply (r_range _ _ _ _ _ _ _ _ RS); auto). auto. }
      rewrite ar_swap. unfold ar. lra.
    + exists (a, b, c). split; auto. unfold in_triangle_or_edge.
      apply (triples_entry (-1)) in Hin. destruct Hin as (k & K & Ea & Eb & Ec).
      rewrite !point_PP by (apply Rg; subst; apply nth_In; lia). unfold tinc, ar in Tc. lra.
Qed.
Print Assumptions C82_cover.
Theorem C82_within srt pts t err I : input_ok srt pts -> returns srt pts t err ->
  boundary (tTriangles t) (tHalfedges t) I ->
  forall q ti, In ti (triples (tTriangles t)) -> in_triangle_or_edge pts q ti -> encloses (map (point pts) I) [q].
Proof.
  intros H Ret BI q [[a b] c] Hin (Q1 & Q2 & Q3) e He p [<-|[]].
  destruct (C21_hull srt pts t err H Ret) as (J & _ & BJ & EJ & _).
  pose proof (C19_well_formed srt pts t err H Ret) as (_ & _ & _ & Pos & _). specialize (Pos _ Hin). unfold area3 in Pos.
  apply (triples_entry (-1)) in Hin. destruct Hin as (k & K & Ea & Eb & Ec).
  assert (Ej : In e (polygon_edges (map (point pts) J))).
  { rewrite pe_map in *. apply in_map_iff in He. destruct He as ([u v] & <- & He). apply in_map_iff. exists (u, v). split; auto.
    apply (proj2 BJ), (proj2 BI); auto. }
  assert (G : forall x, In x (tTriangles t) -> (0 <= ccw (fst e) (snd e) (point pts x))%R).
  { intros x Hx. apply (EJ e Ej). apply in_map; auto. }
  assert (Ga : (0 <= ccw (fst e) (snd e) (point pts a))%R) by (apply G; subst; apply nth_In; lia).
  assert (Gb : (0 <= ccw (fst e) (snd e) (point pts b))%R) by (apply G; subst; apply nth_In; lia).
  assert (Gc : (0 <= ccw (fst e) (snd e) (point pts c))%R) by (apply G; subst; apply nth_In; lia).
  set (A := point pts a) in *. set (B := point pts b) in *. set (C := point pts c) in *. clearbody A B C. destruct e as [u v]. cbn [fst snd] in *.
  assert (Id : (- ccw A B C * ccw u v q = - ccw B C q * ccw u v A + - ccw C A q * ccw u v B + - ccw A B q * ccw u v C)%R) by (unfold ccw; ring).
  assert (0 <= - ccw B C q * ccw u v A)%R by (apply Rmult_le_pos; lra). assert (0 <= - ccw C A q * ccw u v B)%R by (apply Rmult_le_pos; lra).
  assert (0 <= - ccw A B q * ccw u v C)%R by (apply Rmult_le_pos; lra).
  destruct (Rle_lt_dec 0 (ccw u v q)) as [W|W]; auto. exfalso.
  assert (0 < - ccw A B C * - ccw u v q)%R by (apply Rmult_lt_0_compat; lra). lra.
Qed.
Print Assumptions C82_within.
Example C82_nonvacuous : exists t I, returns isort ex_pts t false /\ boundary (tTriangles t) (tHalfedges t) I /\ I <> [].
Proof.
  destruct C16_24_nonvacuous as (t & Ret & _ & NH). destruct input_nonvacuous as (H & _).
  destruct (C21_hull isort ex_pts t false H Ret) as (I & E & Bd & _). exists t, I. split; auto. split; auto. intros ->. apply NH, E.
Qed.
(** in_triangle and strictly_inside are satisfiable *)
Example C82_nonvacuous2 : in_triangle [RV 0 0 0; RV 0 4 0; RV 4 0 0] (RV 1 1 0) (0, 1, 2) /\ strictly_inside [RV 0 0 0; RV 4 0 0; RV 0 4 0] (RV 1 1 0).
Proof.
  unfold in_triangle, strictly_inside, point, ccw. change (Z.to_nat 0) with 0%nat. change (Z.to_nat 1) with 1%nat. change (Z.to_nat 2) with 2%nat. cbn. split; [lra|]. intros e He. decompose [or] He; subst; try contradiction; cbn; lra.
Qed.
