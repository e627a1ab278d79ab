(** Property theorems C86-C91: Triangulate as compiled, in binary64. On the points of a 257 x 257 grid with any
    power-of-two cell the result is exactly right although the circumcenter, the radii and the distances are rounded. *)
From Coq Require Import ZArith Lia List Bool Reals Lra QArith Permutation Sorted.
From Flocq Require Import Core BinarySingleNaN.
From Verif Require Import Base Arith GoLoop M_r3 M_tri2 M_triangulator Spec_r3 Spec_plane Spec_halfedge Spec_delaunay XRvec P_tri2 P_delgeom
  P_leg P_legmodel P_tstate P_addtri P_ringops P_insstep P_ring P_insert P_seed P_init P_flipterm P_triang P_result P_tile P_tiling
  P_insphere_b64 P_b64sc P_b64hash P_b64grid P_b64triang P_outcome64.
Import ListNotations.
Open Scope Z_scope.

(** the float64 [x] is k * 2^e for an integer k of at most 8 bits *)
Definition on_grid (e : Z) (x : b64) : Prop :=
  exists k, -128 <= k <= 128 /\ is_finite x = true /\ B2R x = (IZR k * bpow radix2 e)%R.
(** all points are grid points at one height, which is a grid value too *)
Definition grid_points (e : Z) (vs : list (vec B64)) : Prop :=
  (forall v, In v vs -> on_grid e (vx v) /\ on_grid e (vy v) /\ on_grid e (vz v)) /\
  (forall v w, In v vs -> In w vs -> B2R (vz v : b64) = B2R (vz w : b64)).
(** a sort that sorts, grid points for some exponent, not exactly one point, a slice length *)
Definition grid_ok (srt : (Z -> Z -> bool) -> list Z -> list Z) (vs : list (vec B64)) : Prop :=
  good_sort srt /\ (exists e, -170 <= e <= 170 /\ grid_points e vs) /\ length vs <> 1%nat /\ Z.of_nat (length vs) < 2 ^ 63.
Definition returns64 srt (vs : list (vec B64)) (t : Triangulation B64) (err : bool) : Prop := Triangulate srt vs = Ok (t, err).
(** the points' values *)
Definition values (vs : list (vec B64)) : list rv := map rvec vs.

Lemma on_grid_si e x : on_grid e x -> exists k, si x e k 128.
Proof. intros (k & Hk & F & E). exists k. split; [split; auto; rewrite E; unfold bp; ring|lia]. Qed.
Lemma grid_gridpt e vs : grid_points e vs -> exists zz, forall v, In v vs -> gridpt e zz v.
Proof.
  intros [H Z]. destruct vs as [|w l]; [exists 0; intros v []|].
  destruct (on_grid_si e (vz w) (proj2 (proj2 (H w (or_introl eq_refl))))) as [zz Hz]. exists zz. intros v Hv.
  destruct (H v Hv) as (X & Y & W). destruct (on_grid_si _ _ X) as [x Hx]. destruct (on_grid_si _ _ Y) as [y Hy].
  exists x, y. split; auto. split; auto. destruct W as (k & Hk & F & E).
  split; [split; auto|apply Hz]. rewrite (Z v w Hv (or_introl eq_refl)). apply Hz.
Qed.

Lemma grid_done srt vs : grid_ok srt vs -> done64 srt vs.
Proof. intros (GS & (e & He & Gp) & L1 & Big). destruct (grid_gridpt e vs Gp) as (zz & Hg). split; [exact L1|]. exact (triangulate_b64 e zz srt vs He GS Hg L1 Big). Qed.
Lemma master64 srt vs : grid_ok srt vs -> let pts := values vs in exists t err, returns64 srt vs t err /\ tVectors t = vs /\
  ((length vs = 0%nat \/ on_a_line pts) /\ (err = true <-> (2 <= length vs)%nat) /\
     tTriangles t = [] /\ tHalfedges t = [] /\ tConvexHull t = []
   \/ ~ on_a_line pts /\ err = false /\ exists s V R i0 i1 i2 hs I,
      rest pts i0 i1 i2 hs s V R /\ tTriangles t = T_ s /\ tHalfedges t = H_ s /\ tConvexHull t = map (vat vs) I /\
      boundary (T_ s) (H_ s) I /\ length I = length R /\ (forall v, In v I -> In v V) /\
      (forall u v, In (u, v) (polygon_edges I) <-> In (v, u) (polygon_edges R)) /\
      forall i, 0 <= i < Ln vs -> exists v, In v V /\ (rdist2 (PP pts i) (PP pts v) < epsR)%R).
Proof. intros H. exact (outcome srt vs (grid_done srt vs H)). Qed.
Lemma returns64_fun srt vs t err t' err' : returns64 srt vs t err -> returns64 srt vs t' err' -> t = t' /\ err = err'.
Proof. unfold returns64. intros H H'. rewrite H in H'. injection H' as <- <-. auto. Qed.
Ltac result64 H t err :=
  let t' := fresh "t'" in let err' := fresh "err'" in let Rt := fresh "Rt" in let E1 := fresh "E1" in let E2 := fresh "E2" in
  match goal with Ret : returns64 ?srt ?vs t err |- _ =>
    destruct (master64 srt vs H) as (t' & err' & Rt & TP & [(O & Er & T0 & H0 & C0)|(NL & Ee & s & V & R & i0 & i1 & i2 & hs & I & RS & ET & EH & EC & Bd & LI & IV & IE & Cov)]);
    destruct (returns64_fun _ _ _ _ _ _ Ret Rt) as [E1 E2];
    subst t' err'; clear Rt
  end.
Lemma len_values vs : length (values vs) = length vs. Proof. apply map_length. Qed.

(** ** C86 *)
Theorem C86_returns srt vs : grid_ok srt vs -> exists t err, returns64 srt vs t err /\ tVectors t = vs /\
  ((2 <= length vs)%nat -> (err = true <-> on_a_line (values vs)) /\ (err = false -> tTriangles t <> [])).
Proof. intros H. exact (o_returns srt vs (grid_done srt vs H)). Qed.
Print Assumptions C86_returns.

(** ** C87 *)
Theorem C87_well_formed srt vs t err : grid_ok srt vs -> returns64 srt vs t err ->
  paired (tTriangles t) (tHalfedges t) /\
  (forall v, In v (tTriangles t) -> 0 <= v < Z.of_nat (length vs)) /\
  (forall c, In c (triples (tTriangles t)) -> (0 < area3 (values vs) c)%R) /\
  (forall u v, In u (tTriangles t) -> In v (tTriangles t) -> samexy (point (values vs) u) (point (values vs) v) -> u = v).
Proof. intros H. exact (o_well_formed srt vs t err (grid_done srt vs H)). Qed.
Print Assumptions C87_well_formed.

(** ** C88 *)
Theorem C88_delaunay srt vs t err : grid_ok srt vs -> returns64 srt vs t err -> delaunay (values vs) (tTriangles t).
Proof. intros H. exact (o_delaunay srt vs t err (grid_done srt vs H)). Qed.
Print Assumptions C88_delaunay.

(** ** C89 *)
Theorem C89_hull srt vs t err : grid_ok srt vs -> returns64 srt vs t err -> exists I,
  map rvec (tConvexHull t) = map (point (values vs)) I /\ boundary (tTriangles t) (tHalfedges t) I /\
  encloses (map (point (values vs)) I) (map (point (values vs)) (tTriangles t)) /\ (forall v, In v I -> In v (tTriangles t)) /\
  Spec_plane.Rsum (map (area3 (values vs)) (triples (tTriangles t))) = shoelace (map (point (values vs)) I).
Proof. intros H. exact (o_hull srt vs t err (grid_done srt vs H)). Qed.
Print Assumptions C89_hull.
Theorem C89_no_point_lost srt vs t : grid_ok srt vs -> returns64 srt vs t false ->
  forall i, 0 <= i < Z.of_nat (length vs) -> exists v, In v (tTriangles t) /\ (rdist2 (point (values vs) i) (point (values vs) v) < epsR)%R.
Proof. intros H. exact (o_no_point_lost srt vs t (grid_done srt vs H)). Qed.
Print Assumptions C89_no_point_lost.
(** the triangles do not overlap and fill the hull *)
Theorem C89_tiles srt vs t err : grid_ok srt vs -> returns64 srt vs t err ->
  (forall q i j ti tj, nth_error (triples (tTriangles t)) i = Some ti -> nth_error (triples (tTriangles t)) j = Some tj ->
     in_triangle (values vs) q ti -> in_triangle (values vs) q tj -> i = j) /\
  (forall I, boundary (tTriangles t) (tHalfedges t) I -> I <> [] -> forall q, strictly_inside (map (point (values vs)) I) q ->
     exists ti, In ti (triples (tTriangles t)) /\ in_triangle_or_edge (values vs) q ti).
Proof. intros H. exact (o_tiles srt vs t err (grid_done srt vs H)). Qed.
Print Assumptions C89_tiles.

(** ** C90 *)
Theorem C90_hashKey_b64 (center v : vec B64) (n : Z) : 0 < n <= 2 ^ 53 ->
  is_finite (vx v : b64) = true -> is_finite (vy v : b64) = true ->
  is_finite (vx center : b64) = true -> is_finite (vy center : b64) = true ->
  is_finite (vx (Sub v center) : b64) = true -> is_finite (vy (Sub v center) : b64) = true ->
  B2R (vx v : b64) <> B2R (vx center : b64) \/ B2R (vy v : b64) <> B2R (vy center : b64) ->
  0 <= hashKey center n v < n.
Proof. exact (hashKey_b64 center v n). Qed.
Print Assumptions C90_hashKey_b64.
(** the centre itself, and a point so far away that the difference overflows, have no bucket *)
Definition zv (x y : Z) : vec B64 := mkvec (fofZ B64 x) (fofZ B64 y) (fofZ B64 0).
Theorem C90_hypotheses_needed : hashKey (zv 3 5) 4 (zv 3 5) < 0 /\
  hashKey (zv (2 ^ 1023 + 2 ^ 1022) 0) 4 (zv (- (2 ^ 1023 + 2 ^ 1022)) 0) < 0.
Proof. vm_compute. split; reflexivity. Qed.
Print Assumptions C90_hypotheses_needed.

(** ** C91 *)
(** planar distinct points that are not on a line, all coordinates finite: Triangulate panics. The circumcenter
    of the first three points is rounded to one of them. *)
Theorem C91_returns_refuted : exists vs : list (vec B64),
  (forall v, In v vs -> is_finite (vx v : b64) = true /\ is_finite (vy v : b64) = true /\ vz v = fofZ B64 0) /\
  (forall i j, 0 <= i < j -> j < Z.of_nat (length vs) -> ~ samexy (point (values vs) i) (point (values vs) j)) /\
  ~ on_a_line (values vs) /\ good_sort isort /\ is_panic (Triangulate isort vs) = true.
Proof.
  set (B := 9007199254740992). exists [zv B B; zv (B + 2) B; zv B (B + 2)].
  assert (E0 : B2R (fofZ B64 B : b64) = IZR B) by (unfold B; cbn; unfold Defs.F2R; cbn; lra).
  assert (E2 : B2R (fofZ B64 (B + 2) : b64) = IZR (B + 2)) by (unfold B; cbn; unfold Defs.F2R; cbn; lra).
  assert (EV : values [zv B B; zv (B + 2) B; zv B (B + 2)] =
    [RV (IZR B) (IZR B) 0; RV (IZR (B + 2)) (IZR B) 0; RV (IZR B) (IZR (B + 2)) 0]).
  { unfold values, zv, rvec. cbn [map vx vy vz]. rewrite E0, E2. reflexivity. }
  rewrite EV. split; [|split; [|split; [|split]]].
  - intros v [<-|[<-|[<-|[]]]]; repeat split.
  - intros i j Hi Hj. change (Z.of_nat _) with 3 in Hj. 
    assert (C : (i = 0 /\ j = 1) \/ (i = 0 /\ j = 2) \/ (i = 1 /\ j = 2)) by lia.
    destruct C as [[-> ->]|[[-> ->]|[-> ->]]]; intros [Q1 Q2]; unfold point in Q1, Q2; change (Z.to_nat 0) with 0%nat in *; change (Z.to_nat 1) with 1%nat in *; change (Z.to_nat 2) with 2%nat in *;
      cbn [nth rx ry] in Q1, Q2; apply eq_IZR in Q1; apply eq_IZR in Q2; lia.
  - intros (p & q & k & N & L). pose proof (L _ (or_introl eq_refl)) as L0. pose proof (L _ (or_intror (or_introl eq_refl))) as L1.
    pose proof (L _ (or_intror (or_intror (or_introl eq_refl)))) as L2. cbn [rx ry] in L0, L1, L2.
    assert (EB : IZR (B + 2) = (IZR B + 2)%R) by (rewrite plus_IZR; reflexivity). rewrite EB in L1, L2.
    assert (p = 0%R) by lra. assert (q = 0%R) by lra. subst. destruct N; lra.
  - exact isort_good.
  - vm_compute. reflexivity.
Qed.
Print Assumptions C91_returns_refuted.

(** ** non-vacuity: an irregular list on the grid of eighths, at height 5/8, with a repeated point *)
Definition eighth (x y : Z) : vec B64 := mkvec (fofQ B64 (x # 8)) (fofQ B64 (y # 8)) (fofQ B64 (5 # 8)).
Definition ex64 : list (vec B64) := [eighth 0 0; eighth 17 3; eighth 5 12; eighth (-9) 8; eighth (-1) (-7); eighth 17 3; eighth 127 (-128)].
Ltac eighths := match goal with |- on_grid _ (fofQ B64 (?k # 8)) =>
  exists k; split; [lia|]; split; [reflexivity|]; change (bpow radix2 (-3)) with (/ 8)%R; cbn; unfold Defs.F2R; cbn; lra end.
Example grid_nonvacuous : grid_ok isort ex64 /\ ~ on_a_line (values ex64).
Proof.
  split.
  - split; [exact isort_good|]. split; [|split; [discriminate|simpl; lia]]. exists (-3). split; [lia|]. split.
    + intros v Hv. unfold ex64 in Hv. cbn [In] in Hv. repeat destruct Hv as [Hv|Hv]; subst; try contradiction; unfold eighth; cbn [vx vy vz]; repeat split; eighths.
    + intros v w Hv Hw. unfold ex64 in *. cbn [In] in *. repeat destruct Hv as [Hv|Hv]; subst; try contradiction; repeat destruct Hw as [Hw|Hw]; subst; try contradiction; reflexivity.
  - intros (p & q & k & N & L). 
    assert (I : forall v, In v ex64 -> (p * B2R (vx v : b64) + q * B2R (vy v : b64) = k)%R).
    { intros v Hv. apply (L (rvec v)). apply in_map; auto. }
    pose proof (I (eighth 0 0) ltac:(simpl; auto)) as L0. pose proof (I (eighth 17 3) ltac:(simpl; auto)) as L1. pose proof (I (eighth 5 12) ltac:(simpl; auto)) as L2.
    unfold eighth in L0, L1, L2. cbn in L0, L1, L2. unfold Defs.F2R in L1, L2. cbn in L1, L2.
    assert (p = 0%R) by lra. assert (q = 0%R) by lra. subst. destruct N; lra.
Qed.
Example C86_89_nonvacuous :
  (match Triangulate isort ex64 with Ok (t, false) => Some (tTriangles t, tHalfedges t) | _ => None end) =
  Some ([1; 0; 2; 1; 4; 0; 0; 3; 2; 4; 3; 0; 1; 6; 4], [5; 8; -1; 14; 11; 0; 10; -1; 1; -1; 6; 4; -1; -1; 3]).
Proof. vm_compute. reflexivity. Qed.
