(** Property theorems C123-C126: which edges and triangles Triangulate must and may return, in exact arithmetic and in
    binary64 on grids. *)
From Coq Require Import ZArith Lia List Bool Reals Lra Permutation.
From Flocq Require Import Core BinarySingleNaN.
From Verif Require Import Base Arith M_r3 M_tri2 M_triangulator Spec_r3 Spec_plane Spec_halfedge Spec_delaunay Spec_delaunay2 XRvec P_tri2 P_ring P_insert P_init P_triang P_result P_flipterm P_delcomp
  P_insphere_b64 Props_triangulator Props_tiling Props_grid.
Import ListNotations.
Open Scope R_scope.

Lemma good_exact srt pts t : input_ok srt pts -> returns srt pts t false -> tTriangles t <> [] -> exists I, good pts (tTriangles t) I.
Proof.
  intros H Ret NT. destruct (C19_well_formed srt pts t false H Ret) as (_ & _ & Rg & Pos & Di). pose proof (C18_paired srt pts t false H Ret) as Pr.
  destruct (C21_hull srt pts t false H Ret) as (I & EI & Bd & En & II). destruct (C24_areas srt pts t false H Ret) as (J & EJ & Ar).
  assert (EP : map (point pts) I = map (point pts) J).
  { rewrite EI in EJ. rewrite <- (map_map (point pts) (@fv)), <- (map_map (point pts) (@fv)) in EJ. revert EJ. generalize (map (point pts) I) (map (point pts) J).
    induction l as [|a l IH]; intros [|b m] E; try discriminate; auto. cbn [map] in E. assert (E1 := f_equal (fun l => nth 0 l (fv a)) E). assert (E2 := f_equal (@tl _) E). cbn [nth tl] in E1, E2. f_equal; auto.
    apply fv_inj; exact E1. }
  exists I. apply good_intro with (H := tHalfedges t); auto.
  - apply (C20_delaunay srt pts t false H Ret).
  - intros NI q Hq. apply (C82_cover srt pts t false I H Ret Bd NI q Hq).
  - rewrite EP. exact Ar.
Qed.
Lemma good_grid srt vs t : grid_ok srt vs -> returns64 srt vs t false -> tTriangles t <> [] -> exists I, good (values vs) (tTriangles t) I.
Proof.
  intros H Ret NT. destruct (C87_well_formed srt vs t false H Ret) as (Pr & Rg & Pos & Di).
  destruct (C89_hull srt vs t false H Ret) as (I & EI & Bd & En & II & Ar). destruct (C89_tiles srt vs t false H Ret) as (_ & Co).
  exists I. apply good_intro with (H := tHalfedges t); auto; [apply (C88_delaunay srt vs t false H Ret)|]. intros NI q Hq. apply (Co I Bd NI q Hq).
Qed.
Lemma some_T (T : list Z) u : In u T -> T <> []. Proof. intros H ->. destruct H. Qed.

(** C123: greedy routing. From a vertex that is not nearest to q, some edge leads to a vertex strictly nearer to q *)
Theorem C123_greedy srt pts t : input_ok srt pts -> returns srt pts t false -> let T := tTriangles t in
  forall q u z, In u T -> In z T -> dist2xy (point pts z) q < dist2xy (point pts u) q ->
  exists v, joined T u v /\ dist2xy (point pts v) q < dist2xy (point pts u) q.
Proof.
  intros H Ret T q u z Hu Hz L. destruct (good_exact srt pts t H Ret (some_T _ _ Hu)) as (I & G). destruct (greedy _ _ _ G q u z Hu Hz L) as (v & _ & J & Lv). eauto.
Qed.
Print Assumptions C123_greedy.
(** so following such edges ends at a nearest vertex *)
Theorem C123_route srt pts t : input_ok srt pts -> returns srt pts t false -> let T := tTriangles t in
  forall q u, In u T -> exists z, In z T /\ descends pts T q u z /\ forall w, In w T -> dist2xy (point pts z) q <= dist2xy (point pts w) q.
Proof. intros H Ret T q u Hu. destruct (good_exact srt pts t H Ret (some_T _ _ Hu)) as (I & G). exact (greedy_path _ _ _ G q u Hu). Qed.
Print Assumptions C123_route.
Theorem C123_grid64 srt vs t : grid_ok srt vs -> returns64 srt vs t false -> let T := tTriangles t in let pts := values vs in
  (forall q u z, In u T -> In z T -> dist2xy (point pts z) q < dist2xy (point pts u) q -> exists v, joined T u v /\ dist2xy (point pts v) q < dist2xy (point pts u) q) /\
  (forall q u, In u T -> exists z, In z T /\ descends pts T q u z /\ forall w, In w T -> dist2xy (point pts z) q <= dist2xy (point pts w) q).
Proof.
  intros H Ret T pts. split.
  - intros q u z Hu Hz L. destruct (good_grid srt vs t H Ret (some_T _ _ Hu)) as (I & G). destruct (greedy _ _ _ G q u z Hu Hz L) as (v & _ & J & Lv). eauto.
  - intros q u Hu. destruct (good_grid srt vs t H Ret (some_T _ _ Hu)) as (I & G). exact (greedy_path _ _ _ G q u Hu).
Qed.
Print Assumptions C123_grid64.

(** C124: required edges *)
(** two vertices on a circle with all other vertices strictly outside are joined *)
Theorem C124_edge srt pts t : input_ok srt pts -> returns srt pts t false -> let T := tTriangles t in
  forall u v o r2, In u T -> In v T -> u <> v -> empty_circle pts T o r2 [u; v] -> joined T u v.
Proof. intros H Ret T u v o r2 Hu. destruct (good_exact srt pts t H Ret (some_T _ _ Hu)) as (I & G). exact (edge_required _ _ _ G u v o r2 Hu). Qed.
Print Assumptions C124_edge.
(** so the Gabriel graph is there *)
Theorem C124_gabriel srt pts t : input_ok srt pts -> returns srt pts t false -> let T := tTriangles t in
  forall u v, In u T -> In v T -> u <> v -> gabriel pts T u v -> joined T u v.
Proof. intros H Ret T u v Hu. destruct (good_exact srt pts t H Ret (some_T _ _ Hu)) as (I & G). exact (gabriel_edge _ _ _ G u v Hu). Qed.
Print Assumptions C124_gabriel.
(** every vertex is joined to all its nearest vertices *)
Theorem C124_nearest srt pts t : input_ok srt pts -> returns srt pts t false -> let T := tTriangles t in
  forall u v, In u T -> nearest_vertex pts T u v -> joined T u v.
Proof. intros H Ret T u v Hu. destruct (good_exact srt pts t H Ret (some_T _ _ Hu)) as (I & G). exact (nearest_edge _ _ _ G u v Hu). Qed.
Print Assumptions C124_nearest.
(** any two vertices are joined by a path of edges none of which is longer than their distance (so the triangulation is
    connected and contains a minimum spanning tree) *)
Theorem C124_bottleneck srt pts t : input_ok srt pts -> returns srt pts t false -> let T := tTriangles t in
  forall u v, In u T -> In v T -> hops pts T (d2 pts u v) u v.
Proof. intros H Ret T u v Hu. destruct (good_exact srt pts t H Ret (some_T _ _ Hu)) as (I & G). exact (bottleneck _ _ _ G u v Hu). Qed.
Print Assumptions C124_bottleneck.
Theorem C124_grid64 srt vs t : grid_ok srt vs -> returns64 srt vs t false -> let T := tTriangles t in let pts := values vs in
  (forall u v o r2, In u T -> In v T -> u <> v -> empty_circle pts T o r2 [u; v] -> joined T u v) /\
  (forall u v, In u T -> In v T -> u <> v -> gabriel pts T u v -> joined T u v) /\
  (forall u v, In u T -> nearest_vertex pts T u v -> joined T u v) /\
  (forall u v, In u T -> In v T -> hops pts T (d2 pts u v) u v).
Proof.
  intros H Ret T pts. assert (GG : forall u, In u T -> exists I, good pts T I) by (intros u Hu; apply (good_grid srt vs t H Ret (some_T _ _ Hu))).
  split; [|split; [|split]].
  - intros u v o r2 Hu. destruct (GG u Hu) as (I & G). exact (edge_required _ _ _ G u v o r2 Hu).
  - intros u v Hu. destruct (GG u Hu) as (I & G). exact (gabriel_edge _ _ _ G u v Hu).
  - intros u v Hu. destruct (GG u Hu) as (I & G). exact (nearest_edge _ _ _ G u v Hu).
  - intros u v Hu. destruct (GG u Hu) as (I & G). exact (bottleneck _ _ _ G u v Hu).
Qed.
Print Assumptions C124_grid64.

(** C125: required triangles, and independence of the order of the points *)
Theorem C125_triangle srt pts t : input_ok srt pts -> returns srt pts t false -> let T := tTriangles t in
  forall u v w o r2, In u T -> In v T -> In w T -> ccw (point pts u) (point pts v) (point pts w) < 0 -> empty_circle pts T o r2 [u; v; w] -> has_triangle T u v w.
Proof. intros H Ret T u v w o r2 Hu. destruct (good_exact srt pts t H Ret (some_T _ _ Hu)) as (I & G). exact (triangle_required _ _ _ G u v w o r2 Hu). Qed.
Print Assumptions C125_triangle.
Lemma index_sep pts : NoDup pts -> separated pts -> forall i j, (0 <= i < j)%Z -> (j < Z.of_nat (length pts))%Z -> epsR <= rdist2 (point pts i) (point pts j).
Proof.
  intros ND Se i j Hi Hj. apply Se; [apply nth_In; lia|apply nth_In; lia|]. intros E. apply (proj1 (NoDup_nth pts (RV 0 0 0)) ND) in E; lia.
Qed.
(** without near-duplicates and cocircular points the triangles are exactly those with an empty circumcircle *)
Theorem C125_triangles srt pts t : input_ok srt pts -> returns srt pts t false -> NoDup pts -> separated pts -> no_four_cocircular pts ->
  forall A B C, triangle_at pts (tTriangles t) A B C <->
    In A pts /\ In B pts /\ In C pts /\ ccw A B C < 0 /\ exists o r2, circle3 o r2 A B C /\ circle_free pts o r2.
Proof.
  intros H Ret ND Se N4 A B C. destruct (C19_well_formed srt pts t false H Ret) as (_ & _ & Rg & _).
  pose proof (C22_every_point srt pts t H Ret (index_sep pts ND Se)) as Al.
  destruct pts as [|p0 pts'] eqn:Ep.
  - split; [|intros ([] & _)]. intros (a & b & c & Ht & _). exfalso. assert (In a (tTriangles t)) as W by (destruct Ht as [K|[K|K]]; apply triples_In in K; tauto). apply Rg in W. simpl in W. lia.
  - rewrite <- Ep in *. assert (NT : tTriangles t <> []) by (apply (some_T _ 0%Z), Al; rewrite Ep; simpl length; lia).
    destruct (good_exact srt pts t H Ret NT) as (I & G). apply (characterised_at _ _ _ G); auto. intros i. split; [apply Al|apply Rg].
Qed.
Print Assumptions C125_triangles.
Lemma perm_facts (pts pts' : list rv) : Permutation pts pts' -> NoDup pts -> separated pts -> no_four_cocircular pts -> NoDup pts' /\ separated pts' /\ no_four_cocircular pts'.
Proof.
  intros Pm ND Se N4. pose proof (fun p => Permutation_in p (Permutation_sym Pm)) as In'. split; [eapply Permutation_NoDup; eauto|]. split.
  - intros a b Ha Hb. apply Se; auto.
  - intros a b c d o r2 Ha Hb Hc Hd. apply N4; auto.
Qed.
Lemma perm_same (pts pts' : list rv) A B C : Permutation pts pts' ->
  (In A pts /\ In B pts /\ In C pts /\ ccw A B C < 0 /\ exists o r2, circle3 o r2 A B C /\ circle_free pts o r2) ->
  In A pts' /\ In B pts' /\ In C pts' /\ ccw A B C < 0 /\ exists o r2, circle3 o r2 A B C /\ circle_free pts' o r2.
Proof.
  intros Pm (HA & HB & HC & Or & o & r2 & Ci & Fr). repeat (split; [eapply Permutation_in; eauto|]). split; auto. exists o, r2. split; auto.
  intros p Hp. apply Fr. eapply Permutation_in; [apply Permutation_sym; exact Pm|exact Hp].
Qed.
(** the triangles do not depend on the order in which the points are given, nor on the sort *)
Theorem C125_order srt srt' pts pts' t t' err err' : input_ok srt pts -> input_ok srt' pts' -> Permutation pts pts' ->
  returns srt pts t err -> returns srt' pts' t' err' -> NoDup pts -> separated pts -> no_four_cocircular pts ->
  err = err' /\ forall A B C, triangle_at pts (tTriangles t) A B C <-> triangle_at pts' (tTriangles t') A B C.
Proof.
  intros H H' Pm Ret Ret' ND Se N4. destruct (perm_facts pts pts' Pm ND Se N4) as (ND' & Se' & N4'). pose proof (Permutation_length Pm) as Ln.
  assert (OL : on_a_line pts <-> on_a_line pts').
  { split; intros (nx & ny & k & NZ & K); exists nx, ny, k; (split; [exact NZ|]); intros p Hp; apply K; [eapply Permutation_in; [apply Permutation_sym; exact Pm|auto]|eapply Permutation_in; [exact Pm|auto]]. }
  assert (No : forall l (A B C : rv), ~ triangle_at l [] A B C) by (intros l A B C (a & b & c & [[]|[[]|[]]] & _)).
  destruct (Nat.le_gt_cases 2 (length pts)) as [L2|L2].
  - destruct (C17_error_iff_collinear srt pts t err H Ret L2) as (E1 & E2 & _). destruct (C17_error_iff_collinear srt' pts' t' err' H' Ret' ltac:(lia)) as (E1' & E2' & _).
    destruct err, err'.
    + split; auto. intros A B C. destruct (E2 eq_refl) as (-> & _). destruct (E2' eq_refl) as (-> & _). split; intros K; destruct (No _ _ _ _ K).
    + exfalso. assert (false = true) as Q by (apply E1', OL, E1; auto). discriminate.
    + exfalso. assert (false = true) as Q by (apply E1, OL, E1'; auto). discriminate.
    + split; auto. intros A B C. rewrite (C125_triangles srt pts t H Ret ND Se N4), (C125_triangles srt' pts' t' H' Ret' ND' Se' N4'). split; apply perm_same; auto. apply Permutation_sym; auto.
  - assert (L1 : length pts <> 1%nat) by apply H. assert (pts = []) by (destruct pts as [|x [|y l]]; simpl in *; auto; lia). subst pts. apply Permutation_nil in Pm. subst pts'.
    destruct (master srt [] H) as (t0 & e0 & R0 & _ & D0). destruct (master srt' [] H') as (t1 & e1 & R1 & _ & D1).
    destruct (returns_fun _ _ _ _ _ _ Ret R0) as (-> & ->). destruct (returns_fun _ _ _ _ _ _ Ret' R1) as (-> & ->).
    assert (OLn : on_a_line []) by (exists 1, 0, 0; split; [lra|intros p []]).
    destruct D0 as [(_ & X0 & T0 & _)|(NL & _)]; [|contradiction]. destruct D1 as [(_ & X1 & T1 & _)|(NL & _)]; [|contradiction].
    rewrite T0, T1. split; [|intros A B C; tauto]. destruct e0, e1; auto; exfalso; [destruct X0 as [X0 _]; specialize (X0 eq_refl)|destruct X1 as [X1 _]; specialize (X1 eq_refl)]; simpl in *; lia.
Qed.
Print Assumptions C125_order.
Theorem C125_grid64 srt vs t : grid_ok srt vs -> returns64 srt vs t false -> let T := tTriangles t in let pts := values vs in
  (forall u v w o r2, In u T -> In v T -> In w T -> ccw (point pts u) (point pts v) (point pts w) < 0 -> empty_circle pts T o r2 [u; v; w] -> has_triangle T u v w) /\
  (NoDup pts -> separated pts -> no_four_cocircular pts -> forall A B C, triangle_at pts T A B C <->
    In A pts /\ In B pts /\ In C pts /\ ccw A B C < 0 /\ exists o r2, circle3 o r2 A B C /\ circle_free pts o r2).
Proof.
  intros H Ret T pts. split.
  - intros u v w o r2 Hu. destruct (good_grid srt vs t H Ret (some_T _ _ Hu)) as (I & G). exact (triangle_required _ _ _ G u v w o r2 Hu).
  - intros ND Se N4 A B C. destruct (C87_well_formed srt vs t false H Ret) as (_ & Rg & _). rewrite <- (len_values vs) in Rg. fold pts in Rg.
    assert (Al : forall i, (0 <= i < Z.of_nat (length pts))%Z -> In i T).
    { intros i Hi. unfold pts in Hi. rewrite (len_values vs) in Hi. destruct (C89_no_point_lost srt vs t H Ret i Hi) as (v & Hv & D). rewrite <- (len_values vs) in Hi. fold pts in D, Hi. pose proof (Rg v Hv).
      destruct (Z.lt_total i v) as [Q|[->|Q]]; auto; exfalso.
      - pose proof (index_sep pts ND Se i v ltac:(lia) ltac:(lia)). lra.
      - pose proof (index_sep pts ND Se v i ltac:(lia) ltac:(lia)). assert (rdist2 (point pts i) (point pts v) = rdist2 (point pts v) (point pts i)) by (unfold rdist2, rdot, rsub; cbn [rx ry rz]; ring). lra. }
    destruct (list_eq_dec Z.eq_dec T []) as [E0|NT].
    + split; [rewrite E0; intros (a & b & c & [[]|[[]|[]]] & _)|]. intros (HA & _). exfalso. destruct (In_nth _ _ (RV 0 0 0) HA) as (n & Lt & _). assert (In (Z.of_nat n) T) as W by (apply Al; lia). rewrite E0 in W. destruct W.
    + destruct (good_grid srt vs t H Ret NT) as (I & G). apply (characterised_at _ _ _ G); auto. intros i. split; [apply Al|apply Rg].
Qed.
Print Assumptions C125_grid64.

(** C126: linear interpolation on the returned triangle containing q has the least error for the paraboloid, among all triangles of vertices containing q *)
Theorem C126_optimal srt pts t : input_ok srt pts -> returns srt pts t false -> let T := tTriangles t in
  forall a b c u v w q al be ga al' be' ga', In (a, b, c) (triples T) -> mean_of (point pts a) (point pts b) (point pts c) q al be ga ->
  In u T -> In v T -> In w T -> mean_of (point pts u) (point pts v) (point pts w) q al' be' ga' ->
  spread (point pts a) (point pts b) (point pts c) q al be ga <= spread (point pts u) (point pts v) (point pts w) q al' be' ga'.
Proof.
  intros H Ret T a b c u v w q al be ga al' be' ga' Ht B Hu. destruct (good_exact srt pts t H Ret (some_T _ _ Hu)) as (I & G).
  exact (optimal _ _ _ G a b c q al be ga u v w al' be' ga' Ht B Hu).
Qed.
Print Assumptions C126_optimal.
(** and every point of the hull, with its boundary, is in some triangle *)
Theorem C126_cover srt pts t I : input_ok srt pts -> returns srt pts t false -> boundary (tTriangles t) (tHalfedges t) I -> I <> [] ->
  forall q, encloses (map (point pts) I) [q] -> exists a b c al be ga, In (a, b, c) (triples (tTriangles t)) /\ mean_of (point pts a) (point pts b) (point pts c) q al be ga.
Proof.
  intros H Ret BI NI q W.
  assert (NT : tTriangles t <> []).
  { intros E. destruct I as [|x I]; [contradiction|]. destruct (pe_succ (x :: I) x ltac:(left; auto)) as (y & Q). apply (proj2 BI) in Q. destruct Q as (e & He & _). rewrite E in He. simpl in He. lia. }
  destruct (good_exact srt pts t H Ret NT) as (J & G). destruct (C21_hull srt pts t false H Ret) as (J' & _ & BJ & _).
  assert (G' : good pts (tTriangles t) I).
  { destruct G as [G1 G2 G3 G4 G5 G6 G7]. destruct (C21_hull srt pts t false H Ret) as (K & _ & BK & EK & _).
    assert (Sub : forall e, In e (polygon_edges (map (point pts) I)) -> In e (polygon_edges (map (point pts) K))).
    { intros e He. rewrite pe_map in *. apply in_map_iff in He. destruct He as ([u v] & <- & He). apply in_map_iff. exists (u, v). split; auto. apply (proj2 BK), (proj2 BI); auto. }
    constructor; auto.
    - intros q' Hq'. apply (C82_cover srt pts t false I H Ret BI NI q' Hq').
    - intros e He. apply (EK e (Sub e He)).
    - intros e He. rewrite pe_map in He. apply in_map_iff in He. destruct He as ([u v] & <- & He). cbn [fst snd]. apply (proj2 BI) in He.
      destruct He as (k & Hk & _ & <- & <-). pose proof (C18_paired srt pts t false H Ret) as Pr. pose proof (corner_next_range _ _ k Pr Hk). pose proof (pr_corners _ _ Pr k Hk) as N. intros Sm. apply N. symmetry. apply G5; auto; apply nth_In; lia. }
  destruct (cover_closed _ _ _ G' q W) as ([[a b] c] & Ht & K). destruct (tri_bary _ _ _ G' _ _ _ _ Ht K) as (al & be & ga & B). exists a, b, c, al, be, ga. auto.
Qed.
Print Assumptions C126_cover.
Theorem C126_grid64 srt vs t : grid_ok srt vs -> returns64 srt vs t false -> let T := tTriangles t in let pts := values vs in
  forall a b c u v w q al be ga al' be' ga', In (a, b, c) (triples T) -> mean_of (point pts a) (point pts b) (point pts c) q al be ga ->
  In u T -> In v T -> In w T -> mean_of (point pts u) (point pts v) (point pts w) q al' be' ga' ->
  spread (point pts a) (point pts b) (point pts c) q al be ga <= spread (point pts u) (point pts v) (point pts w) q al' be' ga'.
Proof.
  intros H Ret T pts a b c u v w q al be ga al' be' ga' Ht B Hu. destruct (good_grid srt vs t H Ret (some_T _ _ Hu)) as (I & G).
  exact (optimal _ _ _ G a b c q al be ga u v w al' be' ga' Ht B Hu).
Qed.
Print Assumptions C126_grid64.
Theorem C125_order64 srt srt' vs vs' t t' : grid_ok srt vs -> grid_ok srt' vs' -> Permutation (values vs) (values vs') ->
  returns64 srt vs t false -> returns64 srt' vs' t' false -> NoDup (values vs) -> separated (values vs) -> no_four_cocircular (values vs) ->
  forall A B C, triangle_at (values vs) (tTriangles t) A B C <-> triangle_at (values vs') (tTriangles t') A B C.
Proof.
  intros H H' Pm Ret Ret' ND Se N4 A B C. destruct (perm_facts _ _ Pm ND Se N4) as (ND' & Se' & N4').
  destruct (C125_grid64 srt vs t H Ret) as (_ & E). destruct (C125_grid64 srt' vs' t' H' Ret') as (_ & E').
  rewrite (E ND Se N4), (E' ND' Se' N4'). split; apply perm_same; auto. apply Permutation_sym; auto.
Qed.
Print Assumptions C125_order64.

(** ** four points in general position satisfy all hypotheses *)
Definition ex4 : list rv := [RV 0 0 0; RV 4 0 0; RV 1 3 0; RV 6 5 0].
Example C123_126_nonvacuous : input_ok isort ex4 /\ NoDup ex4 /\ separated ex4 /\ no_four_cocircular ex4 /\
  exists t, returns isort ex4 t false /\ (forall i, (0 <= i < 4)%Z -> In i (tTriangles t)) /\ gabriel ex4 (tTriangles t) 0 2 /\ nearest_vertex ex4 (tTriangles t) 0 2 /\
    empty_circle ex4 (tTriangles t) (RV 2 1 0) 5 [0; 1; 2]%Z /\ has_triangle (tTriangles t) 0 2 1 /\ joined (tTriangles t) 0 2.
Proof.
  assert (Pl : input_ok isort ex4).
  { split; [exact isort_good|]. split; [|split; [discriminate|simpl; lia]]. intros a b Ha Hb. cbn in Ha, Hb. decompose [or] Ha; decompose [or] Hb; subst; try contradiction; reflexivity. }
  assert (ND : NoDup ex4). { repeat constructor; cbn; intros K; decompose [or] K; try contradiction; match goal with E : RV _ _ _ = RV _ _ _ |- _ => injection E; intros; lra end. }
  assert (Se : separated ex4).
  { intros a b Ha Hb N. cbn in Ha, Hb. decompose [or] Ha; decompose [or] Hb; subst; try contradiction; unfold samexy, epsR, rdist2, rdot, rsub; cbn [rx ry rz]; (split; [lra|lra]). }
  assert (N4 : no_four_cocircular ex4).
  { intros a b c d o r2 Ha Hb Hc Hd N (E1 & E2 & E3 & E4). cbn in Ha, Hb, Hc, Hd.
    repeat match goal with Q : NoDup _ |- _ => inversion Q; clear Q; subst end.
    destruct Ha as [<-|[<-|[<-|[<-|[]]]]], Hb as [<-|[<-|[<-|[<-|[]]]]]; try (exfalso; match goal with Q : ~ In _ _ |- _ => apply Q; simpl; auto; fail end);
    destruct Hc as [<-|[<-|[<-|[<-|[]]]]]; try (exfalso; match goal with Q : ~ In _ _ |- _ => apply Q; simpl; auto; fail end);
    destruct Hd as [<-|[<-|[<-|[<-|[]]]]]; try (exfalso; match goal with Q : ~ In _ _ |- _ => apply Q; simpl; auto; fail end);
    unfold dist2xy in *; cbn [rx ry] in *; lra. }
  split; [exact Pl|]. split; [exact ND|]. split; [exact Se|]. split; [exact N4|].
  destruct (C16_returns isort ex4 Pl) as (t & err & Ret & _). destruct (C17_error_iff_collinear isort ex4 t err Pl Ret ltac:(simpl; lia)) as (E & _ & _).
  destruct err.
  { exfalso. destruct (proj1 E eq_refl) as (nx & ny & k & NZ & K). pose proof (K (RV 0 0 0) ltac:(cbn; auto)) as A. pose proof (K (RV 4 0 0) ltac:(cbn; auto)) as B. pose proof (K (RV 1 3 0) ltac:(cbn; auto)) as C. cbn in A, B, C. lra. }
  exists t. split; [exact Ret|]. assert (Al : forall i, (0 <= i < 4)%Z -> In i (tTriangles t)) by (intros i Hi; apply (C22_every_point isort ex4 t Pl Ret (index_sep ex4 ND Se)); simpl; lia).
  assert (Rg : forall v, In v (tTriangles t) -> v = 0%Z \/ v = 1%Z \/ v = 2%Z \/ v = 3%Z).
  { intros v Hv. pose proof (C19_well_formed isort ex4 t false Pl Ret) as (_ & _ & R & _). apply R in Hv. simpl in Hv. lia. }
  assert (P0 : point ex4 0 = RV 0 0 0) by reflexivity. assert (P1 : point ex4 1 = RV 4 0 0) by reflexivity. assert (P2 : point ex4 2 = RV 1 3 0) by reflexivity. assert (P3 : point ex4 3 = RV 6 5 0) by reflexivity.
  assert (Ga : gabriel ex4 (tTriangles t) 0 2).
  { intros w Hw N0 N2. apply Rg in Hw. unfold d2. destruct Hw as [->|[->|[->|E3]]]; try congruence; [|subst w]; rewrite ?P0, ?P1, ?P2, ?P3; unfold dist2xy; cbn [rx ry]; lra. }
  assert (Em : empty_circle ex4 (tTriangles t) (RV 2 1 0) 5 [0; 1; 2]%Z).
  { split.
    - intros v [<-|[<-|[<-|[]]]]; rewrite ?P0, ?P1, ?P2; unfold dist2xy; cbn [rx ry]; lra.
    - intros w Hw Nw. apply Rg in Hw. assert (w = 3%Z) as -> by (simpl in Nw; lia). rewrite P3. unfold dist2xy; cbn [rx ry]; lra. }
  split; [exact Al|]. split; [exact Ga|]. split.
  { split; [apply Al; lia|]. split; [lia|]. intros w Hw N0. apply Rg in Hw. unfold d2. destruct Hw as [->|[->|[->|E3]]]; try congruence; [| |subst w]; rewrite ?P0, ?P1, ?P2, ?P3; unfold dist2xy; cbn [rx ry]; lra. }
  split; [exact Em|]. split.
  - apply (C125_triangle isort ex4 t Pl Ret 0%Z 2%Z 1%Z (RV 2 1 0) 5); try (apply Al; lia).
    + rewrite P0, P1, P2. unfold ccw; cbn [rx ry]; lra.
    + destruct Em as (On & Out). split; [intros v Hv; apply On; simpl in *; tauto|intros w Hw Nw; apply Out; auto; simpl in *; tauto].
  - apply (C124_gabriel isort ex4 t Pl Ret); try (apply Al; lia); auto. lia.
Qed.
