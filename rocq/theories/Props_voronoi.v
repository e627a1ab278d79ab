(** Property theorems C179: the triangulation and nearest vertices (Voronoi diagram, largest empty circle, covering radius). *)
From Coq Require Import ZArith Lia List Bool Reals Lra.
From Flocq Require Import Core BinarySingleNaN.
From Verif Require Import Base Arith M_r3 M_tri2 M_triangulator Spec_r3 Spec_plane Spec_halfedge Spec_delaunay Spec_delaunay2 Spec_voronoi Spec_cleartri XRvec P_flipterm P_triang P_result
  P_tri3 Props_legalize P_delcomp P_voronoi Props_triangulator Props_tiling Props_grid Props_delcomp Props_clearhull Props_cleartri Props_clearval Props_clearopt.
Import ListNotations.
Open Scope R_scope.

Theorem C179_exact srt pts t : input_ok srt pts -> returns srt pts t false -> shows_nearest pts (tTriangles t).
Proof. intros H Ret. apply shows_all. exact (good_exact srt pts t H Ret). Qed.
Print Assumptions C179_exact.
(** and as compiled, in float64 *)
Theorem C179_b64 srt (vs : list (vec B64)) t : grid_ok srt vs \/ clear_ok srt vs -> returns64 srt vs t false -> shows_nearest (values vs) (tTriangles t).
Proof. intros [H|H] Ret; apply shows_all; [exact (good_grid srt vs t H Ret)|exact (good_clear srt vs t H Ret)]. Qed.
Print Assumptions C179_b64.

(** four points: (2, 1) is a corner of the diagram, at squared distance 5 from three of them, so it is a circumcentre *)
Example C179_nonvacuous : input_ok isort ex4 /\ exists t, returns isort ex4 t false /\
  voronoi_corner ex4 (tTriangles t) (RV 2 1 0) 5 /\ circumcircle_of ex4 (tTriangles t) (RV 2 1 0) 5 /\
  hull_point ex4 (tTriangles t) (RV 2 1 0) /\ ~ free_circle ex4 (tTriangles t) (RV 2 1 0) 6.
Proof.
  destruct C123_126_nonvacuous as (Pl & _ & _ & _ & t & Ret & Al & _ & _ & (On & Out) & _). split; [exact Pl|]. exists t. split; [exact Ret|].
  assert (P0 : point ex4 0 = RV 0 0 0) by reflexivity. assert (P1 : point ex4 1 = RV 4 0 0) by reflexivity. assert (P2 : point ex4 2 = RV 1 3 0) by reflexivity.
  assert (V : voronoi_corner ex4 (tTriangles t) (RV 2 1 0) 5).
  { split.
    - intros v Hv. destruct (in_dec Z.eq_dec v [0; 1; 2]%Z) as [I|I]; [rewrite (On v I); lra|apply Rlt_le, Out; auto].
    - exists 0%Z, 1%Z, 2%Z. split; [apply Al; lia|]. split; [apply Al; lia|]. split; [apply Al; lia|]. rewrite P0, P1, P2. split; [unfold circle3, dist2xy; cbn [rx ry]; lra|unfold ccw; cbn [rx ry]; lra]. }
  split; [exact V|]. split; [apply (C179_exact isort ex4 t Pl Ret); exact V|]. split.
  - exists 0%Z, 1%Z, 2%Z, (1 / 4), (5 / 12), (1 / 3). split; [apply Al; lia|]. split; [apply Al; lia|]. split; [apply Al; lia|]. rewrite P0, P1, P2. unfold mean_of. cbn [rx ry]. lra.
  - intros F. specialize (F 0%Z (Al 0%Z ltac:(lia))). rewrite P0 in F. unfold dist2xy in F. cbn [rx ry] in F. lra.
Qed.
