(** Property theorem C164: what C123-C126, C136-C137 and C155-C156 say about the triangulation, for Triangulate as compiled,
    in binary64, on inputs clear of rounding errors. *)
From Coq Require Import ZArith Lia List Bool Reals Lra.
From Flocq Require Import Core BinarySingleNaN.
From Verif Require Import Base Arith M_r3 M_tri2 M_triangulator Spec_r3 Spec_plane Spec_halfedge Spec_delaunay Spec_delaunay2 Spec_delaunay3 Spec_clear Spec_cleartri XRvec P_tri2 P_ring P_insert P_init P_triang P_result P_flipterm P_delcomp P_delangle
  Spec_walk P_walk P_edgecount P_insphere_b64 P_b64triang P_outcome64 P_cleartri P_clearchk Props_triangulator Props_tiling Props_grid Props_grid2 Props_delcomp Props_delangle Props_walk Props_edgecount Props_clearhull Props_cleartri Props_clearval.
Import ListNotations.
Open Scope R_scope.

Section clear.
Variables (srt : (Z -> Z -> bool) -> list Z -> list Z) (vs : list (vec B64)) (t : Triangulation B64).
Hypothesis H : clear_ok srt vs.
Hypothesis Ret : returns64 srt vs t false.
Let T := tTriangles t.
Let pts := values vs.
Let gd u : In u T -> exists I, good pts T I.
Proof. intros Hu. exact (good_clear srt vs t H Ret (some_T _ _ Hu)). Qed.
Let ge : triples T = [] \/ exists I, good pts T I.
Proof. destruct (list_eq_dec Z.eq_dec T []) as [E|N]; [left; rewrite E; reflexivity|right; exact (good_clear srt vs t H Ret N)]. Qed.

(** from any vertex, some path of edges gets nearer to any point with every step and ends at a nearest vertex *)
Theorem C164_route q u : In u T -> exists z, In z T /\ descends pts T q u z /\ forall w, In w T -> dist2xy (point pts z) q <= dist2xy (point pts w) q.
Proof. intros Hu. destruct (gd u Hu) as (I & G). exact (greedy_path _ _ _ G q u Hu). Qed.
(** edges which must be there *)
Theorem C164_edges u v : In u T -> In v T ->
  (u <> v -> forall o r2, empty_circle pts T o r2 [u; v] -> joined T u v) /\ (u <> v -> gabriel pts T u v -> joined T u v) /\
  (nearest_vertex pts T u v -> joined T u v) /\ hops pts T (d2 pts u v) u v.
Proof.
  intros Hu Hv. destruct (gd u Hu) as (I & G). split; [|split; [|split]].
  - intros N o r2. exact (edge_required _ _ _ G u v o r2 Hu Hv N).
  - exact (gabriel_edge _ _ _ G u v Hu Hv).
  - exact (nearest_edge _ _ _ G u v Hu).
  - exact (bottleneck _ _ _ G u v Hu Hv).
Qed.
(** interpolating |q|^2 linearly in the triangles errs less than with any other three vertices around the point *)
Theorem C164_interpolation a b c u v w q al be ga al' be' ga' : In (a, b, c) (triples T) -> mean_of (point pts a) (point pts b) (point pts c) q al be ga ->
  In u T -> In v T -> In w T -> mean_of (point pts u) (point pts v) (point pts w) q al' be' ga' ->
  spread (point pts a) (point pts b) (point pts c) q al be ga <= spread (point pts u) (point pts v) (point pts w) q al' be' ga'.
Proof. intros Ht B Hu. destruct (gd u Hu) as (I & G). exact (optimal _ _ _ G a b c q al be ga u v w al' be' ga' Ht B Hu). Qed.
(** against all other triangulations of the same vertices: the largest smallest angle, the smallest largest circle *)
Theorem C164_angles S : (T <> [] -> triangulates pts T (triples T)) /\ (triangulates pts T S -> min_angle pts S <= min_angle pts (triples T)).
Proof.
  split.
  - intros N. destruct (good_clear srt vs t H Ret N) as (I & G). exact (self_triangulates _ _ _ G).
  - intros HS. destruct ge as [->|(I & G)]; [apply min_angle_PI|exact (best_min_angle _ _ _ G S HS)].
Qed.
Theorem C164_circles S r2 : triangulates pts T S -> (forall s, In s S -> fits pts r2 s) -> forall s, In s (triples T) -> fits pts r2 s.
Proof. intros HS F s Hs. destruct ge as [E|(I & G)]; [rewrite E in Hs; destruct Hs|exact (best_circle _ _ _ G S r2 HS F s Hs)]. Qed.
(** walking towards a point *)
Theorem C164_walk : let Hf := tHalfedges t in
  (forall q l, walk pts T Hf q l -> NoDup l /\ (length l <= length (triples T))%nat) /\
  (forall q k, encloses (map rvec (tConvexHull t)) [q] -> (0 <= 3 * k < Z.of_nat (length T))%Z ->
     ((forall k', ~ towards pts T Hf q k k') -> in_triangle_or_edge pts q (corners T k)) /\
     exists m, walk pts T Hf q (k :: m) /\ in_triangle_or_edge pts q (corners T (last (k :: m) k))).
Proof.
  intros Hf. destruct (C161_well_formed srt vs t false H Ret) as (Pr & _ & Ar & _). pose proof (neg_of_area _ _ Ar) as Pos. pose proof (C161_delaunay srt vs t false H Ret) as Del.
  destruct (C161_hull srt vs t false H Ret) as (I & EI & Bd & _). split.
  - intros q l W. split; [apply (walk_nodup pts T Hf Pr Pos Del q l W)|apply (walk_length pts T Hf Pr Pos Del q l W)].
  - intros q k En Hk. rewrite EI in En. split.
    + intros No. destruct (step_or_stop pts T Hf Pr q k Hk) as [(k' & To & _)|[S|(e & He & Ee & Be & Xe)]]; [destruct (No _ To)|exact S|destruct (beyond_hull pts T Hf I q e Bd En He Xe Be)].
    + destruct (walk_extend pts T Hf Pr Pos Del q [] k (walk_one _ _ _ _ k Hk)) as (m & z & W & Ez & Hz & S). exists m. split; [exact W|]. rewrite Ez.
      destruct S as [S|(e & He & Ee & Be & Xe)]; [exact S|]. destruct (beyond_hull pts T Hf I q e Bd En He Xe Be).
Qed.
(** how many triangles and edges *)
Theorem C164_counts : vs <> [] ->
  (Z.of_nat (length (triples T)) = 2 * vertices T - 2 - Z.of_nat (length (tConvexHull t)))%Z /\
  (forall L, NoDup L -> (forall u v, In (u, v) L <-> joined T u v /\ (u < v)%Z) ->
     (Z.of_nat (length L) = 3 * vertices T - 3 - Z.of_nat (length (tConvexHull t)))%Z) /\
  exists v, In v T /\ forall l, NoDup l -> (forall u, In u l -> joined T v u) -> (length l <= 5)%nat.
Proof.
  intros NE. destruct (C161_well_formed srt vs t false H Ret) as (Pr & _ & Ar & _). destruct (C161_hull srt vs t false H Ret) as (I & EI & Bd & En & _). destruct (C161_tiles srt vs t false H Ret) as (Di & _).
  assert (Cn : (Z.of_nat (length (triples T)) = 2 * vertices T - 2 - Z.of_nat (length (tConvexHull t)))%Z).
  { clear I EI Bd En. unfold T in *. destruct (outcome srt vs (clear_done srt vs H)) as (t' & err' & Rt & TP & [(O & Er & T0 & H0 & C0)|(NL & Ee & s & V & R & i0 & i1 & i2 & hs & I & RS & ET & EH & EC & Bd & LI & IV & IE & Cov)]);
      destruct (returns64_fun _ _ _ _ _ _ Ret Rt) as [E1 E2]; subst t' err'; clear Rt.
    - exfalso. destruct Er as [_ Er]. destruct (le_lt_dec 2 (length vs)) as [Q|Q]; [specialize (Er Q); discriminate|].
      destruct H as (_ & _ & _ & L1 & _). destruct vs as [|a [|b l]]; simpl in *; try lia; contradiction.
    - rewrite ET, EC, map_length, LI. apply (res_count _ i0 i1 i2 _ s V R RS). }
  split; [exact Cn|]. assert (LI : length (tConvexHull t) = length I). { rewrite <- (map_length rvec), EI, map_length. reflexivity. }
  rewrite LI in *. split.
  - intros L ND E. apply (edge_count pts T (tHalfedges t) I); auto. apply neg_of_area; exact Ar.
  - apply (low_degree pts T (tHalfedges t) I); auto. apply neg_of_area; exact Ar.
Qed.
End clear.
Print Assumptions C164_route.
Print Assumptions C164_edges.
Print Assumptions C164_interpolation.
Print Assumptions C164_angles.
Print Assumptions C164_circles.
Print Assumptions C164_walk.
Print Assumptions C164_counts.

(** ** the points of C161: five vertices, four on the hull, four triangles, and a vertex joined to its nearest neighbour *)
Definition zat (l : list zpt) (i : Z) : zpt := nth (Z.to_nat i) l (0, 0, 0)%Z.
Definition zd2 (p q : zpt) : Z := ((fst (fst p) - fst (fst q)) * (fst (fst p) - fst (fst q)) + (snd (fst p) - snd (fst q)) * (snd (fst p) - snd (fst q)))%Z.
Lemma d2_z l u v : d2 (map zr l) u v = IZR (zd2 (zat l u) (zat l v)).
Proof.
  assert (E : forall i, point (map zr l) i = zr (zat l i)). { intros i. unfold point, zat. change (RV 0 0 0) with (zr (0, 0, 0)%Z). apply map_nth. }
  unfold d2, dist2xy. rewrite !E. unfold zr, zd2. cbn [rx ry]. rewrite plus_IZR, !mult_IZR, !minus_IZR. ring.
Qed.
Example C164_nonvacuous : let vs := map zv ex161 in clear_ok isort vs /\ exists t, returns64 isort vs t false /\
  Z.of_nat (length (triples (tTriangles t))) = 4%Z /\ vertices (tTriangles t) = 5%Z /\ length (tConvexHull t) = 4%nat /\ (4 = 2 * 5 - 2 - 4)%Z /\
  nearest_vertex (values vs) (tTriangles t) 4 2 /\ joined (tTriangles t) 4 2.
Proof.
  cbv zeta. destruct C161_nonvacuous as (Ok' & _ & _ & ET). split; [exact Ok'|].
  assert (Ev : values (map zv ex161) = map zr ex161).
  { apply (C161_certified isort ex161 isort_good ex161_check ltac:(discriminate) ltac:(reflexivity)). intros p Hp. repeat (destruct Hp as [<-|Hp]; [cbn; lia|]). destruct Hp. }
  assert (EC : (match Triangulate isort (map zv ex161) with Ok (t, false) => Some (length (tConvexHull t)) | _ => None end) = Some 4%nat) by (vm_compute; reflexivity).
  destruct (C161_returns isort _ Ok') as (t & err & Ret & _). pose proof Ret as Ret0. unfold returns64 in Ret. rewrite Ret in ET, EC. clear Ret. destruct err; [discriminate ET|]. assert (ET' : tTriangles t = [4; 0; 2; 2; 5; 4; 5; 1; 4; 4; 1; 0]%Z) by (injection ET; auto). assert (EC' : length (tConvexHull t) = 4%nat) by (injection EC; auto).
  clear ET EC. exists t. split; [exact Ret0|].
  assert (NV : nearest_vertex (values (map zv ex161)) (tTriangles t) 4 2).
  { rewrite Ev, ET'. split; [simpl; tauto|]. split; [discriminate|]. intros w Hw. cbn [In] in Hw.
    repeat (destruct Hw as [<-|Hw]; [first [intros []; reflexivity|intros _; rewrite !d2_z; apply IZR_le; vm_compute; discriminate]|]). destruct Hw. }
  split; [rewrite ET'; reflexivity|]. split; [rewrite ET'; reflexivity|]. split; [exact EC'|]. split; [reflexivity|]. split; [exact NV|].
  apply (C164_edges isort (map zv ex161) t Ok' Ret0 4 2); [rewrite ET'; simpl; tauto|rewrite ET'; simpl; tauto|exact NV].
Qed.
