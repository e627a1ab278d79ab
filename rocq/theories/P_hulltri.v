(** The boundary of any completed triangulation is the walk ConvexHull makes on the same points (C83 for any arithmetic). *)
From Coq Require Import ZArith Lia List Bool Reals Lra Permutation Sorted.
From Verif Require Import Base Arith M_r3 M_tri2 M_triangulator Spec_r3 Spec_plane Spec_halfedge Spec_delaunay XRvec P_tri2 P_delgeom P_polygon P_hull
  P_leg P_legmodel P_addtri P_ringops P_insstep P_ring P_insert P_init P_triang P_result P_tile P_tiling P_hullsame P_validate Props_validate.
Import ListNotations.
Open Scope Z_scope.

Lemma hulls_rest pts i0 i1 i2 hs s V R I srt2 :
  rest pts i0 i1 i2 hs s V R -> boundary (T_ s) (H_ s) I -> length I = length R -> (forall v, In v I -> In v V) ->
  (forall u v, In (u, v) (polygon_edges I) <-> In (v, u) (polygon_edges R)) ->
  (forall i, 0 <= i < Z.of_nat (length pts) -> exists v, In v V /\ (rdist2 (PP pts i) (PP pts v) < epsR)%R) ->
  pts <> [] -> separated pts -> sorts lessXY (map fv pts) (srt2 (map fv pts)) ->
  exists h1 h2, map (point pts) I = h1 ++ h2 /\ ConvexHull srt2 (map fv pts) = Ok (map fv (h2 ++ h1)).
Proof.
  intros RS Bd LI IV IE Cov NE Sep Srt.
  pose proof (res_range pts i0 i1 i2 _ s V R RS) as Rg. pose proof (res_oriented pts i0 i1 i2 _ s V R RS) as Or.
  pose proof (res_paired pts i0 i1 i2 _ s V R RS) as Pd.
  assert (NT : T_ s <> []).
  { destruct (Cov 0) as (v & Hv & _); [destruct pts; [contradiction|simpl; lia]|].
    apply (In_T pts i0 i1 i2 _ s V R RS) in Hv. intros Q; rewrite Q in Hv; exact Hv. }
  assert (Ds : forall u v, In u (T_ s) -> In v (T_ s) -> samexy (point pts u) (point pts v) -> u = v).
  { intros u v Hu Hv. rewrite !point_PP by (apply Rg; auto).
    apply (In_T _ i0 i1 i2 _ s V R RS) in Hu, Hv. apply (r_dist _ _ _ _ _ _ _ _ RS); auto. }
  assert (IT : forall v, In v I -> In v (T_ s)).
  { intros v Hv. apply (In_T pts i0 i1 i2 _ s V R RS); auto. }
  assert (Pin : forall v, In v (T_ s) -> In (point pts v) pts).
  { intros v Hv. apply nth_In. specialize (Rg v Hv). lia. }
  assert (All : forall q, In q pts -> exists v, In v (T_ s) /\ q = point pts v).
  { intros q Hq. destruct (In_nth pts q (RV 0 0 0) Hq) as (i & Hi & E).
    destruct (Cov (Z.of_nat i) ltac:(lia)) as (v & Hv & Dv).
    assert (Hv' : In v (T_ s)) by (apply (In_T pts i0 i1 i2 _ s V R RS); auto).
    exists v. split; auto. destruct (rv_eq_dec q (point pts v)) as [|Q]; auto. exfalso.
    rewrite <- !point_PP in Dv by (try lia; apply Rg; auto). unfold point in Dv at 1. rewrite Nat2Z.id, E in Dv.
    destruct (Sep q (point pts v) Hq (Pin v Hv') Q). lra. }
  destruct (ConvexHull_walk srt2 pts (map (point pts) I)) as (h1 & h2 & E1 & E2); auto.
  - (* not all on a line *)
    destruct (pr_whole _ _ Pd) as ([|k] & Hk); [destruct (T_ s); [contradiction|discriminate]|].
    destruct (T_ s) as [|a [|b [|c l]]] eqn:ETt; simpl in Hk; try lia.
    exists (point pts a), (point pts b), (point pts c). pose proof (Or (a, b, c) ltac:(left; auto)) as A. unfold area3 in A.
    repeat split; try (apply Pin; simpl; auto). lra.
  - (* NoDup *)
    destruct Bd as [NDI _].
    assert (G : forall l, (forall v, In v l -> In v (T_ s)) -> NoDup l -> NoDup (map (point pts) l)).
    { clear - Ds. induction l as [|v l IH]; intros Hl ND; [constructor|]. apply NoDup_cons_iff in ND. destruct ND as [N ND]. cbn [map]. constructor.
      - intros Q. apply in_map_iff in Q. destruct Q as (w & E & Hw). apply N. rewrite (Ds v w); auto; [apply Hl; simpl; auto|apply Hl; simpl; auto|].
        rewrite E. split; auto.
      - apply IH; auto. intros; apply Hl; simpl; auto. }
    apply G; auto.
  - (* not empty *)
    destruct I as [|v I]; [|discriminate]. exfalso. destruct R as [|r R].
    + destruct (w_hull _ _ (r_wfs _ _ _ _ _ _ _ _ RS)) as (x & _ & []).
    + discriminate LI.
  - (* supporting edges *)
    intros e He. rewrite pe_map in He. apply in_map_iff in He. destruct He as ([u v] & <- & He). cbn [fst snd].
    destruct (pe_In _ _ _ He) as [Iu Iv]. assert (Hvu : In (v, u) (polygon_edges R)) by (apply IE; auto).
    assert (Ru : 0 <= u < Z.of_nat (length pts)) by (apply Rg, IT; auto). assert (Rv : 0 <= v < Z.of_nat (length pts)) by (apply Rg, IT; auto).
    destruct (ring_triangle pts i0 i1 i2 _ s V R RS v u Hvu) as (w & Ow & Cw).
    repeat split.
    + apply Pin, IT; auto.
    + apply Pin, IT; auto.
    + intros [S1 S2]. rewrite !point_PP in S1, S2 by lia. revert Ow. geo. rewrite S1, S2. lra.
    + intros q Hq. destruct (All q Hq) as (x & Hx & ->). apply (In_T pts i0 i1 i2 _ s V R RS) in Hx.
      pose proof (ring_left pts i0 i1 i2 _ s V R RS v u x Hvu Hx) as Q. rewrite !point_PP by (try lia; apply (r_range _ _ _ _ _ _ _ _ RS); auto).
      revert Q. geo. lra.
    + intros q Hq Cz Bt. destruct (All q Hq) as (x & Hx & ->). apply (In_T pts i0 i1 i2 _ s V R RS) in Hx.
      rewrite !point_PP in Cz by (try lia; apply (r_range _ _ _ _ _ _ _ _ RS); auto). unfold between in Bt. rewrite !point_PP in Bt by (try lia; apply (r_range _ _ _ _ _ _ _ _ RS); auto).
      pose proof (Cw x Hx) as Q. rewrite incirc_pencil in Q.
      assert (A0 : ar (PP pts v) (PP pts u) (PP pts x) = 0%R) by (revert Cz; geo; lra). rewrite A0 in Q.
      assert (Dn : (dt (PP pts x) (PP pts v) (PP pts u) < 0)%R) by (apply lex_dt; auto; tauto).
      assert (0 < ar (PP pts v) (PP pts u) (PP pts w) * - dt (PP pts x) (PP pts v) (PP pts u))%R by (apply Rmult_lt_0_compat; lra). lra.
  - exists h1, h2. split; auto.
Qed.
