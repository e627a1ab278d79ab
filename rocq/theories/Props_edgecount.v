(** Property theorems C156: how many edges the triangulation Triangulate returns has, and at least one vertex with few of
    them, in exact arithmetic and in binary64 on grids. *)
From Coq Require Import ZArith Lia List Bool Reals Lra.
From Flocq Require Import Core BinarySingleNaN.
From Verif Require Import Base Arith M_r3 M_tri2 M_triangulator Spec_r3 Spec_plane Spec_halfedge Spec_delaunay Spec_delaunay2 XRvec P_tri2 P_ring P_insert P_init P_triang P_result P_flipterm P_delcomp
  P_walk P_edgecount P_insphere_b64 Props_triangulator Props_tiling Props_grid Props_delcomp Props_walk.
Import ListNotations.
Open Scope Z_scope.

(** the number of different vertices of the triangles *)
Notation vertices T := (Z.of_nat (length (nodup Z.eq_dec T))).

(** ** C156 *)
(** [L] lists the pairs u < v of joined vertices: there are 3 n - 3 - h of them, n vertices of which h are on the hull *)
Theorem C156_edges srt pts t : input_ok srt pts -> returns srt pts t false -> pts <> [] -> let T := tTriangles t in
  forall L, NoDup L -> (forall u v, In (u, v) L <-> joined T u v /\ u < v) ->
  Z.of_nat (length L) = 3 * vertices T - 3 - Z.of_nat (length (tConvexHull t)).
Proof.
  intros Hi Ret NE T L ND E. destruct (C19_well_formed srt pts t false Hi Ret) as (_ & _ & _ & Ar & _). destruct (C21_hull srt pts t false Hi Ret) as (I & EI & Bd & En & _).
  pose proof (C23_counts srt pts t Hi Ret NE) as (Cn & _). rewrite EI, map_length in *.
  apply (edge_count pts T (tHalfedges t) I); auto; [apply (C18_paired srt pts t false Hi Ret)|apply neg_of_area; exact Ar|apply (C82_disjoint srt pts t false Hi Ret)].
Qed.
Print Assumptions C156_edges.
(** some vertex is joined to at most five others *)
Theorem C156_degree srt pts t : input_ok srt pts -> returns srt pts t false -> pts <> [] -> let T := tTriangles t in
  exists v, In v T /\ forall l, NoDup l -> (forall u, In u l -> joined T v u) -> (length l <= 5)%nat.
Proof.
  intros Hi Ret NE T. destruct (C19_well_formed srt pts t false Hi Ret) as (_ & _ & _ & Ar & _). destruct (C21_hull srt pts t false Hi Ret) as (I & EI & Bd & En & _).
  pose proof (C23_counts srt pts t Hi Ret NE) as (Cn & _). rewrite EI, map_length in *.
  apply (low_degree pts T (tHalfedges t) I); auto; [apply (C18_paired srt pts t false Hi Ret)|apply neg_of_area; exact Ar|apply (C82_disjoint srt pts t false Hi Ret)].
Qed.
Print Assumptions C156_degree.
(** the same in binary64 on grids, with the number of triangles *)
Theorem C156_grid64 srt vs t : grid_ok srt vs -> returns64 srt vs t false -> vs <> [] -> let T := tTriangles t in
  Z.of_nat (length (triples T)) = 2 * vertices T - 2 - Z.of_nat (length (tConvexHull t)) /\
  (forall L, NoDup L -> (forall u v, In (u, v) L <-> joined T u v /\ u < v) ->
     Z.of_nat (length L) = 3 * vertices T - 3 - Z.of_nat (length (tConvexHull t))) /\
  exists v, In v T /\ forall l, NoDup l -> (forall u, In u l -> joined T v u) -> (length l <= 5)%nat.
Proof.
  intros Hi Ret NE T. destruct (C87_well_formed srt vs t false Hi Ret) as (Pr & _ & Ar & _). destruct (C89_hull srt vs t false Hi Ret) as (I & EI & Bd & En & _). destruct (C89_tiles srt vs t false Hi Ret) as (Di & _).
  assert (Cn : Z.of_nat (length (triples T)) = 2 * vertices T - 2 - Z.of_nat (length (tConvexHull t))).
  { clear I EI Bd En. unfold T in *. clear T. result64 Hi t false.
    - exfalso. destruct Er as [_ Er]. destruct (le_lt_dec 2 (length vs)) as [Q|Q]; [specialize (Er Q); discriminate|].
      destruct Hi as (_ & _ & L1 & _). destruct vs; [contradiction|]. simpl in *. lia.
    - rewrite ET, EC, map_length, LI. apply (res_count _ i0 i1 i2 _ s V R RS). }
  split; [exact Cn|]. assert (LI : length (tConvexHull t) = length I). { rewrite <- (map_length rvec), EI, map_length. reflexivity. }
  rewrite LI in *. split.
  - intros L ND E. apply (edge_count (values vs) T (tHalfedges t) I); auto. apply neg_of_area; exact Ar.
  - apply (low_degree (values vs) T (tHalfedges t) I); auto. apply neg_of_area; exact Ar.
Qed.
Print Assumptions C156_grid64.

(** ** four points: three on the hull or four, and the list of edges exists *)
Example C156_nonvacuous : input_ok isort ex4 /\ ex4 <> [] /\ exists t L, returns isort ex4 t false /\ NoDup L /\
  (forall u v, In (u, v) L <-> joined (tTriangles t) u v /\ u < v) /\ vertices (tTriangles t) = 4 /\ Z.of_nat (length L) = 9 - Z.of_nat (length (tConvexHull t)).
Proof.
  destruct C123_126_nonvacuous as (Pl & _ & _ & _ & t & Ret & Al & _). split; [exact Pl|]. split; [discriminate|].
  assert (Rg : forall v, In v (tTriangles t) -> 0 <= v < 4).
  { intros v Hv. pose proof (C19_well_formed isort ex4 t false Pl Ret) as (_ & _ & R & _). apply R in Hv. simpl in Hv. lia. }
  pose proof (C18_paired isort ex4 t false Pl Ret) as Pr. set (T := tTriangles t) in *. set (H := tHalfedges t) in *.
  set (all := list_prod [0; 1; 2; 3] [0; 1; 2; 3]).
  set (P := fun p : Z * Z => existsb (fun e => ((entry T e =? fst p) && (entry T (corner_next e) =? snd p) || (entry T e =? snd p) && (entry T (corner_next e) =? fst p))%bool) (slots T) && (fst p <? snd p)).
  set (L := filter P all).
  assert (ND : NoDup L). { apply NoDup_filter. unfold all. cbn. repeat constructor; cbn; intros K; decompose [or] K; try contradiction; congruence. }
  assert (E : forall u v, In (u, v) L <-> joined T u v /\ u < v).
  { intros u v. unfold L. rewrite filter_In. unfold P. cbn [fst snd]. rewrite andb_true_iff, existsb_exists, Z.ltb_lt. split.
    - intros (_ & (e & He & Q) & Lt). split; [|exact Lt]. apply (joined_edge T H [] Pr). exists e. split; [apply (In_slots T []); exact He|].
      apply orb_true_iff in Q. destruct Q as [Q|Q]; apply andb_true_iff in Q; rewrite !Z.eqb_eq in Q; tauto.
    - intros (J & Lt). split.
      + destruct J as (_ & a & b & c & Q & Hu & Hv). apply triples_In in Q. assert (Iu : In u T) by (destruct Hu as [<-|[<-|[<-|[]]]]; tauto). assert (Iv : In v T) by (destruct Hv as [<-|[<-|[<-|[]]]]; tauto).
        apply in_prod; apply Rg in Iu, Iv; simpl; lia.
      + split; [|exact Lt]. apply (joined_edge T H [] Pr) in J. destruct J as (e & He & D). exists e. split; [apply (In_slots T []); exact He|].
        apply orb_true_iff. rewrite !andb_true_iff, !Z.eqb_eq. tauto. }
  assert (V : vertices T = 4).
  { assert (X : length (nodup Z.eq_dec T) = length [0; 1; 2; 3]); [|rewrite X; reflexivity]. apply Permutation.Permutation_length. apply Permutation.NoDup_Permutation; [apply NoDup_nodup|repeat constructor; cbn; lia|].
    intros x. rewrite nodup_In. split; [intros Hx; apply Rg in Hx; simpl; lia|]. intros Hx. apply Al. simpl in Hx. lia. }
  exists t, L. split; [exact Ret|]. split; [exact ND|]. split; [exact E|]. split; [exact V|]. rewrite (C156_edges isort ex4 t Pl Ret ltac:(discriminate) L ND E). fold T. rewrite V. lia.
Qed.
