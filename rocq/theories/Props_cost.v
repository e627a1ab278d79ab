(** Property theorems C176: how many geometric tests Triangulate, legalize and ConvexHull make, and how many rounds findSpan takes. *)
From Coq Require Import ZArith Lia List Bool Reals Lra Permutation.
From Flocq Require Import Core BinarySingleNaN.
From Verif Require Import Base Arith M_r3 M_tri2 M_triangulator M_cost M_nurbs Spec_r3 Spec_plane Spec_halfedge Spec_delaunay Spec_nurbs Spec_cost Spec_cleartri XRvec P_nurbs
  P_flipterm P_cost P_costtri P_costgrid P_costclear P_triang Props_legalize Props_grid Props_cleartri P_meshgeom P_tri3 P_nurbs2 Props_clearhull.
Import ListNotations.
Open Scope Z_scope.

(** the counted functions are the functions, with a counter *)
Theorem C176_same {A : Arith} : forall (vs : list (vec A)),
  (forall srt, triangulate srt vs = (let! (s, e, _) := triangulateN srt vs in Ok (s, e))) /\
  (forall fuel s a, legalize vs fuel s a = (let! (s, r, _) := legalizeN vs fuel s a in Ok (s, r))) /\
  (forall srt, ConvexHull srt vs = (let! (h, _) := ConvexHullN srt vs in Ok h)).
Proof.
  intros vs. split; [intros; apply triangulate_erase|]. split; [apply legalize_erase|]. intros; apply ConvexHull_erase.
Qed.
Print Assumptions C176_same.

(** Triangulate: at least one in-circle test for every triangle but the first, at most 2 (n - 1) (n - 3) for n points *)
Definition in_budget (n : nat) (r : res (tri * bool * nat)) : Prop :=
  exists s e k, r = Ok (s, e, k) /\ test_budget n (Z.of_nat (length (triangles s)) / 3) k.
Lemma cut_budget n s k : trianglesLen s <= 3 * (Z.of_nat k + 1) -> Z.of_nat k <= 2 * (Z.of_nat n - 1) * (Z.of_nat n - 3) ->
  test_budget n (Z.of_nat (length (triangles (cut s))) / 3) k.
Proof.
  intros T B. unfold test_budget. split; [|lia].
  assert (L : Z.of_nat (length (triangles (cut s))) <= Z.max 0 (trianglesLen s)).
  { unfold cut. cbn [withHalfedges withTriangles triangles]. unfold live. rewrite firstn_length. lia. }
  assert (Z.of_nat (length (triangles (cut s))) / 3 < Z.of_nat k + 2); [|lia]. apply Z.div_lt_upper_bound; lia.
Qed.
Lemma empty_budget n : test_budget n (Z.of_nat (length (triangles emptyTri)) / 3) 0.
Proof. unfold test_budget. change (Z.of_nat (length (triangles emptyTri)) / 3) with 0. lia. Qed.
Theorem C176_triangulate srt pts : good_sort srt -> planar pts -> length pts <> 1%nat -> Z.of_nat (length pts) < 2 ^ 63 ->
  in_budget (length pts) (triangulateN srt (map fv pts)).
Proof.
  intros GS Pl L1 Big. unfold in_budget.
  destruct (triangulateN_planar srt pts GS Pl L1 Big) as [(_ & E)|[(_ & _ & E)|(_ & s & V & R & i0 & i1 & i2 & k & E & B & T & _)]].
  - exists emptyTri, false, 0%nat. split; [exact E|apply empty_budget].
  - exists emptyTri, true, 0%nat. split; [exact E|apply empty_budget].
  - exists (cut s), false, k. split; [exact E|apply cut_budget; assumption].
Qed.
Print Assumptions C176_triangulate.
(** and as compiled, in float64 *)
Theorem C176_triangulate_b64 srt (vs : list (vec B64)) : grid_ok srt vs \/ clear_ok srt vs -> in_budget (length vs) (triangulateN srt vs).
Proof.
  intros [(GS & (e & He & Gp) & L1 & Big)|(GS & Hv & Hc & L1 & Big)]; unfold in_budget.
  - destruct (grid_gridpt e vs Gp) as (zz & Hg).
    destruct (triangulateN_b64 e zz srt vs He GS Hg L1 Big) as [(_ & E)|[(_ & _ & E)|(_ & s & V & R & i0 & i1 & i2 & hs & k & E & B & T & _)]].
    + exists emptyTri, false, 0%nat. split; [exact E|apply empty_budget].
    + exists emptyTri, true, 0%nat. split; [exact E|apply empty_budget].
    + exists (cut s), false, k. split; [exact E|apply cut_budget; assumption].
  - destruct (triangulateN_clear srt vs GS Hv Hc L1 Big) as [(_ & E)|[(_ & _ & E)|(_ & s & V & R & i0 & i1 & i2 & hs & k & E & B & T & _)]].
    + exists emptyTri, false, 0%nat. split; [exact E|apply empty_budget].
    + exists emptyTri, true, 0%nat. split; [exact E|apply empty_budget].
    + exists (cut s), false, k. split; [exact E|apply cut_budget; assumption].
Qed.
Print Assumptions C176_triangulate_b64.

(** one call of legalize, in every arithmetic of C25: fewer than two tests for every triangle there is,
    and for every two entries changed at least one *)
Theorem C176_legalize (A : Arith) (zn : A -> Prop) (vs : list (vec A)) s R a :
  null_like A zn ->
  0 <= trianglesLen s <= Z.of_nat (length (triangles s)) -> length (halfedges s) = length (triangles s) ->
  paired (live s (triangles s)) (live s (halfedges s)) ->
  (forall v, In v (live s (triangles s)) -> 0 <= v < Z.of_nat (length vs)) ->
  hull_ring s R -> 0 <= a < trianglesLen s ->
  exists s' r c, legalizeN vs (legalizeFuel s) s a = Ok (s', r, c) /\ 3 * (Z.of_nat c + 1) <= 2 * trianglesLen s /\
    (differ (triangles s) (triangles s') <= 2 * c)%nat.
Proof.
  intros Z L0 L2 P V HR Ha. destruct (legalize_cost A zn vs s R a Z L0 L2 P V HR Ha) as (s' & r & c & E & B).
  exists s', r, c. split; [exact E|]. split; [exact B|]. apply (legalize_differ vs _ _ _ _ _ _ E).
Qed.
Print Assumptions C176_legalize.

(** ConvexHull: of the m points kept, every one but the first two costs at least two cross products, and every one at most four,
    in every arithmetic and for every sort; popping r points off a stack costs r comparisons and one more unless only one point is left *)
Theorem C176_hull {A : Arith} srt (vs : list (vec A)) h c : (length (srt vs) <= length vs)%nat -> ConvexHullN srt vs = Ok (h, c) ->
  (c <= 4 * length vs)%nat /\ exists kept, filterNear (srt vs) = Ok kept /\ (2 * (length kept - 2) <= c <= 4 * length kept)%nat.
Proof.
  intros L E. destruct (filterNear (srt vs)) as [ds| |] eqn:F.
  - pose proof (ConvexHull_cost srt vs ds h c F E). pose proof (ConvexHull_least srt vs ds h c F E). pose proof (filterNear_length _ _ F).
    split; [lia|]. exists ds. split; [reflexivity|lia].
  - unfold ConvexHullN in E. rewrite F in E. discriminate E.
  - unfold ConvexHullN in E. rewrite F in E. discriminate E.
Qed.
Theorem C176_pop {A : Arith} test (p : vec A) s : let '(r, c) := popWhileN test p s in
  (c = length s - length r + (if 2 <=? length r then 1 else 0) /\ length r <= length s)%nat.
Proof.
  destruct (popWhileN test p s) as (r, c) eqn:E. pose proof (popWhile_shorter _ _ _ _ _ E) as Sh. pose proof (popWhile_exact _ _ _ _ _ E) as X. revert X.
  destruct (Nat.leb_spec 2 (length r)); intros X; lia.
Qed.
Print Assumptions C176_pop.
Print Assumptions C176_hull.

(** findSpan: in the domain, at most one round more than the logarithm of the number of spans *)
Theorem C176_findSpan (U : list Z) n p u :
  0 <= p <= n -> n + 1 < Z.of_nat (length U) -> (knot U p <= u <= knot U (n + 1))%R ->
  exists i, findSpan (A := XR) (S (Z.to_nat (Z.log2_up (n + 1 - p)))) n p (Fin u) U = Ok i /\ p <= i <= n /\
    (u = knot U (n + 1) -> i = n) /\ (u <> knot U (n + 1) -> knot U i <= u < knot U (i + 1))%R.
Proof. exact (findSpan_log U (Fin u : XR) u (fun k _ => XR_lt u k) (fun k _ => XR_le u k) (fun k _ => XR_eq u k) n p). Qed.
Print Assumptions C176_findSpan.
Theorem C176_findSpan_b64 (U : list Z) n p (u : B64) :
  (forall k, In k U -> Z.abs k < 2 ^ 53) -> bfin u ->
  0 <= p <= n -> n + 1 < Z.of_nat (length U) -> (knot U p <= bR u <= knot U (n + 1))%R ->
  exists i, findSpan (A := B64) (S (Z.to_nat (Z.log2_up (n + 1 - p)))) n p u U = Ok i /\ p <= i <= n /\
    (bR u = knot U (n + 1) -> i = n) /\ (bR u <> knot U (n + 1) -> knot U i <= bR u < knot U (i + 1))%R.
Proof.
  intros HU Hu. apply (findSpan_log (A := B64) U u (bR u)); intros k Hk; specialize (HU k Hk); cbn [fofZ B64].
  - rewrite flt_bR by (auto using bfin_ofZ). now rewrite bR_ofZ.
  - rewrite fle_bR by (auto using bfin_ofZ). now rewrite bR_ofZ.
  - rewrite feq_bR by (auto using bfin_ofZ). now rewrite bR_ofZ.
Qed.
Print Assumptions C176_findSpan_b64.

(** the counters on concrete inputs, as compiled *)
Definition tests (r : res (tri * bool * nat)) : option nat := match r with Ok (_, _, k) => Some k | _ => None end.
Example C176_nonvacuous : clear_ok isort (map zv ex161) /\ tests (triangulateN isort (map zv ex161)) = Some 3%nat.
Proof.
  split; [apply C161_nonvacuous|]. vm_compute. reflexivity.
Qed.
Example C176_counts :
  tests (triangulateN isort (map zv [(0,0,0);(4,0,0);(1,4,0);(5,5,0);(-3,9,0);(2,-7,0);(12,1,0);(-9,-2,0)])) = Some 10%nat /\
  tests (triangulateN isort (map zv [(0,0,0);(3,1,0);(6,3,0);(9,6,0);(12,10,0);(100,-1,0);(-2,-2,0)])) = Some 7%nat.
Proof. split; vm_compute; reflexivity. Qed.
Example C176_flip : match legalizeN (A:=B64) (map zp quadP) (legalizeFuel quadS) quadS 1 with Ok (_, _, c) => Some c | _ => None end = Some 1%nat.
Proof. vm_compute. reflexivity. Qed.
Definition byXY (a b : vec B64) : bool := orb (flt B64 (vx a) (vx b)) (andb (feq B64 (vx a) (vx b)) (flt B64 (vy a) (vy b))).
Example C176_hull_count :
  match ConvexHullN (isort byXY) (map zv [(0,0,0);(4,1,0);(1,4,0);(5,5,0);(-3,9,0)]) with Ok (h, c) => Some (length h, c) | _ => None end = Some (4, 7)%nat.
Proof. vm_compute. reflexivity. Qed.
