(** Property theorems C139-C140: which points ConvexHull returns, and what its result depends on. *)
From Coq Require Import ZArith Lia List Bool Reals Lra Permutation Sorted.
From Flocq Require Import Core BinarySingleNaN.
From Verif Require Import Base Arith M_r3 M_tri2 M_triangulator Spec_r3 Spec_plane Spec_hull Spec_delaunay XRvec P_tri2 P_polygon P_hull P_ring P_hullsame P_hullset
  P_insphere_b64 P_b64sc P_b64grid P_b64triang P_b64hull Props_grid Props_grid2.
Import ListNotations.
Open Scope R_scope.

Lemma map_fv_inj l m : map fv l = map fv m -> l = m.
Proof.
  revert m. induction l as [|x l IH]; intros [|y m] X; try discriminate; auto. injection X as A B C D. f_equal; [apply rv_ext; auto|auto].
Qed.

(** ** C139 *)
(** The returned polygon consists of exactly the input points on the boundary: those through which there is a line with
    all of the input on one side. Points in the middle of a side are kept. *)
Theorem C139_hull_members srt vs : sorts lessXY (map fv vs) (srt (map fv vs)) -> separated vs -> (exists p q, In p vs /\ In q vs /\ p <> q) ->
  exists h, ConvexHull srt (map fv vs) = Ok (map fv h) /\ (forall v, In v h <-> In v vs /\ on_boundary vs v) /\
    forall v, In v vs -> corner vs v -> In v h.
Proof.
  intros So Sep PQ. destruct (hull_run srt vs So Sep PQ) as (a & t & E & _ & _ & _ & _ & Mem).
  exists (a :: t). split; [exact E|]. split; [exact Mem|]. intros v Hv (n & k & C). apply Mem. split; [auto|].
  exists n, k. split.
  - destruct PQ as (p & q & Hp & Hq & N).
    assert (X : exists w, In w vs /\ w <> v) by (destruct (rv_eq_dec p v) as [->|]; [exists q|exists p]; auto).
    destruct X as (w & Hw & Nw). specialize (C w Hw Nw). destruct (Req_dec n 0) as [->|]; auto. right. intros ->. lra.
  - intros q Hq. destruct (rv_eq_dec q v) as [->|Nq]; [lra|]. specialize (C q Hq Nq). lra.
Qed.
Print Assumptions C139_hull_members.
(** Each of them once, unless all input points lie on one line, and no vertex turns right. *)
Theorem C139_hull_once srt vs : sorts lessXY (map fv vs) (srt (map fv vs)) -> separated vs -> not_on_line vs ->
  exists h, ConvexHull srt (map fv vs) = Ok (map fv h) /\ NoDup h /\
    forall u v w, In (u, v) (polygon_edges h) -> In (v, w) (polygon_edges h) -> 0 <= ccw u v w.
Proof.
  intros So Sep NL. destruct (hull_run srt vs So Sep (line2 _ NL)) as (a & t & E & Na & _ & _ & He & _).
  exists (a :: t). split; [exact E|]. split; [apply (walk_nodup vs); auto; apply sep_dist; auto|].
  intros u v w. apply (edge_turn vs). exact He.
Qed.
Print Assumptions C139_hull_once.
(** The same in binary64 on grid points. *)
Theorem C139_hull_members64 e srt vs : (-300 <= e <= 300)%Z -> grid25 e vs -> sorts lessXY vs (srt vs) -> separated (values vs) ->
  (exists p q, In p (values vs) /\ In q (values vs) /\ p <> q) ->
  exists h, ConvexHull srt vs = Ok h /\ (forall p, In p (values h) <-> In p (values vs) /\ on_boundary (values vs) p) /\
    (not_on_line (values vs) -> NoDup (values h)).
Proof.
  intros He Hg Hs Sep PQ. destruct (hull_grid_exact e He srt vs (grid25_24 e vs Hg) Hs) as (h & srtX & E & _ & So & EX).
  destruct (C139_hull_members srtX (values vs) So Sep PQ) as (h' & E' & Mem & _).
  assert (h' = values h) as ->. { apply map_fv_inj. unfold values in *. congruence. }
  exists h. split; [exact E|]. split; [exact Mem|]. intros NL.
  destruct (C139_hull_once srtX (values vs) So Sep NL) as (h2 & E2 & ND & _).
  assert (h2 = values h) as <-. { apply map_fv_inj. unfold values in *. congruence. } exact ND.
Qed.
Print Assumptions C139_hull_members64.

(** ** C140 *)
(** Dropping input points that are not on the returned polygon changes nothing: any list between the result and the input
    has the same hull, whatever its order, repetitions and tie-breaking. In particular the hull of a hull is itself. *)
Theorem C140_hull_stable srt srt' vs ws h : sorts lessXY (map fv vs) (srt (map fv vs)) -> sorts lessXY (map fv ws) (srt' (map fv ws)) ->
  separated vs -> not_on_line vs -> ConvexHull srt (map fv vs) = Ok (map fv h) -> incl h ws -> incl ws vs ->
  ConvexHull srt' (map fv ws) = Ok (map fv h).
Proof. exact (hull_between srt srt' vs ws h). Qed.
Print Assumptions C140_hull_stable.
Theorem C140_hull_idempotent srt vs : (forall l, sorts lessXY l (srt l)) -> separated vs -> not_on_line vs ->
  exists h, ConvexHull srt (map fv vs) = Ok h /\ ConvexHull srt h = Ok h.
Proof.
  intros So Sep NL. destruct (C139_hull_members srt vs (So _) Sep (line2 _ NL)) as (h & E & Mem & _).
  exists (map fv h). split; [exact E|]. apply (hull_between srt srt vs); auto; [intros x; auto|intros x Hx; apply Mem; auto].
Qed.
Print Assumptions C140_hull_idempotent.
Theorem C140_hull_stable64 e srt srt' vs ws h : (-300 <= e <= 300)%Z -> grid25 e vs -> sorts lessXY vs (srt vs) -> sorts lessXY ws (srt' ws) ->
  separated (values vs) -> not_on_line (values vs) -> ConvexHull srt vs = Ok h -> incl h ws -> incl ws vs ->
  exists h', ConvexHull srt' ws = Ok h' /\ values h' = values h.
Proof.
  intros He Hg Hs Hs' Sep NL E I1 I2.
  destruct (hull_grid_exact e He srt vs (grid25_24 e vs Hg) Hs) as (h0 & srtX & E0 & _ & So & EX).
  assert (h0 = h) as -> by congruence.
  assert (Hg' : forall v, In v ws -> on_grid24 e v) by (intros v Hv; apply (grid25_24 e vs Hg), I2; auto).
  destruct (hull_grid_exact e He srt' ws Hg' Hs') as (h' & srtX' & E' & _ & So' & EX').
  exists h'. split; [exact E'|]. apply map_fv_inj. unfold values.
  assert (X : ConvexHull srtX' (map fv (values ws)) = Ok (map fv (values h))).
  { apply (hull_between srtX srtX' (values vs)); auto; unfold values; apply incl_map; auto. }
  unfold values in X. congruence.
Qed.
Print Assumptions C140_hull_stable64.

(** a 2x2 square of unit steps, its centre and a point in the middle of a side: five of six points are returned, and
    dropping the centre changes nothing *)
Definition ex139 : list (vec B64) := [gp 14 1 1; gp 14 2 0; gp 14 0 0; gp 14 1 2; gp 14 2 2; gp 14 0 2].
Definition ints (r : res (list (vec B64))) : list (Z * Z) := match r with Ok h => map (fun v => (ftoZ B64 (vx v) / 16384, ftoZ B64 (vy v) / 16384)%Z) h | _ => [] end.
Example C139_140_nonvacuous : grid25 14 ex139 /\ sorts lessXY ex139 (isort2 ex139) /\ separated (values ex139) /\ not_on_line (values ex139) /\
  ints (ConvexHull isort2 ex139) = [(0, 0); (2, 0); (2, 2); (1, 2); (0, 2)]%Z /\
  ints (ConvexHull isort2 (rev (tl ex139))) = [(0, 0); (2, 0); (2, 2); (1, 2); (0, 2)]%Z.
Proof.
  assert (Gp : grid_points 14 ex139).
  { split.
    - intros v Hv. unfold ex139 in Hv. cbn [In] in Hv. repeat destruct Hv as [Hv|Hv]; subst; try contradiction; unfold gp; cbn [vx vy vz]; (split; [cell14|split; [cell14|]]).
      all: exists 0%Z; split; [lia|]; split; [reflexivity|]; cbn; lra.
    - intros v w Hv Hw. unfold ex139 in *. cbn [In] in *. repeat destruct Hv as [Hv|Hv]; subst; try contradiction; repeat destruct Hw as [Hw|Hw]; subst; try contradiction; reflexivity. }
  split; [apply grid_points_25, Gp|]. split; [apply (isort2_sorts 14), grid_points_25, Gp|]. split; [apply (grid_separated 14); [lia|exact Gp]|].
  split; [|split; vm_compute; reflexivity].
  exists (rvec (gp 14 1 1)), (rvec (gp 14 2 0)), (rvec (gp 14 0 0)). split; [left; auto|]. split; [right; left; auto|]. split; [right; right; left; auto|].
  unfold ccw, rvec, gp; cbn; unfold Defs.F2R; cbn; lra.
Qed.
