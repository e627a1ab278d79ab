(** Property theorems C155: point location by walking through the triangulation Triangulate returns, in exact arithmetic
    and in binary64 on grids. *)
From Coq Require Import ZArith Lia List Bool Reals Lra.
From Flocq Require Import Core BinarySingleNaN.
From Verif Require Import Base Arith M_r3 M_tri2 M_triangulator Spec_r3 Spec_plane Spec_halfedge Spec_delaunay Spec_delaunay2 XRvec P_tri2 P_ring P_result P_flipterm P_delcomp
  Spec_walk P_walk P_insphere_b64 Props_triangulator Props_tiling Props_grid Props_delcomp.
Import ListNotations.
Open Scope R_scope.

Lemma neg_of_area pts T : (forall c, In c (triples T) -> 0 < area3 pts c) -> forall a b c, In (a, b, c) (triples T) -> ccw (point pts a) (point pts b) (point pts c) < 0.
Proof. intros A a b c Q. specialize (A _ Q). unfold area3 in A. lra. Qed.
Lemma beyond_hull pts T H I q e : boundary T H I -> encloses (map (point pts) I) [q] -> (0 <= e < Z.of_nat (length T))%Z -> entry H e = (-1)%Z -> ~ beyond pts T q e.
Proof.
  intros (_ & Bd) En He X Bq. assert (Q : In (entry T (corner_next e), entry T e) (polygon_edges I)) by (apply Bd; exists e; auto).
  assert (Q' : In (point pts (entry T (corner_next e)), point pts (entry T e)) (polygon_edges (map (point pts) I))).
  { rewrite pe_map. apply in_map_iff. eexists; split; [|exact Q]. reflexivity. }
  specialize (En _ Q' q (or_introl eq_refl)). clear Q'. rename En into Q'. cbn [fst snd] in Q'. unfold beyond in Bq. rewrite ccw_flip in Bq. lra.
Qed.
Lemma map_fv_inj l : forall m, map (@fv) l = map (@fv) m -> l = m.
Proof.
  induction l as [|a l IH]; intros [|b m] E; try discriminate; auto. cbn [map] in E. assert (E1 := f_equal (fun l => nth 0 l (fv a)) E). assert (E2 := f_equal (@tl _) E). cbn [nth tl] in E1, E2.
  f_equal; auto. apply fv_inj; exact E1.
Qed.

Lemma exact_facts srt pts t err : input_ok srt pts -> returns srt pts t err -> let T := tTriangles t in let H := tHalfedges t in
  paired T H /\ (forall a b c, In (a, b, c) (triples T) -> ccw (point pts a) (point pts b) (point pts c) < 0) /\ delaunay pts T /\
  exists I, boundary T H I /\ forall h, tConvexHull t = map fv h -> h = map (point pts) I.
Proof.
  intros H Ret T Hh. destruct (C19_well_formed srt pts t err H Ret) as (_ & _ & _ & Ar & _). destruct (C21_hull srt pts t err H Ret) as (I & EI & Bd & _ & _).
  split; [apply (C18_paired srt pts t err H Ret)|]. split; [apply neg_of_area; exact Ar|]. split; [apply (C20_delaunay srt pts t err H Ret)|]. exists I. split; [exact Bd|].
  intros h Eh. rewrite EI in Eh. apply map_fv_inj. rewrite <- Eh, map_map. reflexivity.
Qed.
Lemma grid_facts srt vs t err : grid_ok srt vs -> returns64 srt vs t err -> let T := tTriangles t in let H := tHalfedges t in let pts := values vs in
  paired T H /\ (forall a b c, In (a, b, c) (triples T) -> ccw (point pts a) (point pts b) (point pts c) < 0) /\ delaunay pts T /\
  exists I, boundary T H I /\ map rvec (tConvexHull t) = map (point pts) I.
Proof.
  intros H Ret T Hh pts. destruct (C87_well_formed srt vs t err H Ret) as (Pr & _ & Ar & _). destruct (C89_hull srt vs t err H Ret) as (I & EI & Bd & _).
  split; [exact Pr|]. split; [apply neg_of_area; exact Ar|]. split; [apply (C88_delaunay srt vs t err H Ret)|]. exists I. split; [exact Bd|exact EI].
Qed.

(** C155: crossing an edge towards q never increases the power of q with respect to the circumcircle *)
Theorem C155_power srt pts t err : input_ok srt pts -> returns srt pts t err -> let T := tTriangles t in let H := tHalfedges t in
  forall q k k' a b c a' b' c' o r2 o' r2', towards pts T H q k k' -> corners T k = (a, b, c) -> corners T k' = (a', b', c') ->
  circle3 o r2 (point pts a) (point pts b) (point pts c) -> circle3 o' r2' (point pts a') (point pts b') (point pts c') ->
  dist2xy q o' - r2' <= dist2xy q o - r2.
Proof.
  intros Hi Ret T H q k k' a b c a' b' c' o r2 o' r2' (e & He & Ee & Be & Xe & Ek) E E' C C'. destruct (exact_facts srt pts t err Hi Ret) as (Pr & Pos & Del & _). fold T in Pos, Del. fold T H in Pr.
  destruct (twin pts T H Pr e He Xe) as (Hf & _). destruct (crossing pts T H Pr Pos Del q e o r2 o' r2' He Xe Be) as (Q & _); [| |exact Q].
  - apply (circ_corners pts T e k a b c); auto; lia.
  - apply (circ_corners pts T (entry H e) k' a' b' c'); auto; lia.
Qed.
Print Assumptions C155_power.
(** no walk towards q comes back to a triangle, so it has at most as many steps as there are triangles - whichever
    separating edge it chooses to cross, and with points on one circle too *)
Theorem C155_walk srt pts t err : input_ok srt pts -> returns srt pts t err -> let T := tTriangles t in let H := tHalfedges t in
  forall q l, walk pts T H q l -> NoDup l /\ (length l <= length (triples T))%nat.
Proof.
  intros Hi Ret T H q l W. destruct (exact_facts srt pts t err Hi Ret) as (Pr & Pos & Del & _).
  split; [apply (walk_nodup pts T H Pr Pos Del q l W)|apply (walk_length pts T H Pr Pos Del q l W)].
Qed.
Print Assumptions C155_walk.
(** it cannot go on only at a triangle that contains q or at a hull edge that q is outside of *)
Theorem C155_stop srt pts t err : input_ok srt pts -> returns srt pts t err -> let T := tTriangles t in let H := tHalfedges t in
  forall q k, (0 <= 3 * k < Z.of_nat (length T))%Z -> (forall k', ~ towards pts T H q k k') ->
  (in_triangle_or_edge pts q (corners T k) \/ exists e, (0 <= e < Z.of_nat (length T))%Z /\ (e / 3 = k)%Z /\ entry H e = (-1)%Z /\ beyond pts T q e) /\
  (forall h, tConvexHull t = map fv h -> encloses h [q] -> in_triangle_or_edge pts q (corners T k)).
Proof.
  intros Hi Ret T H q k Hk No. destruct (exact_facts srt pts t err Hi Ret) as (Pr & Pos & Del & I & Bd & EI).
  destruct (step_or_stop pts T H Pr q k Hk) as [(k' & To & _)|[S|(e & He & Ee & Be & Xe)]]; [destruct (No _ To)|split; auto|].
  split; [right; exists e; auto|]. intros h Eh En. rewrite (EI h Eh) in En. destruct (beyond_hull pts T H I q e Bd En He Xe Be).
Qed.
Print Assumptions C155_stop.
(** so from any triangle, a point within the hull is located *)
Theorem C155_locate srt pts t err : input_ok srt pts -> returns srt pts t err -> let T := tTriangles t in let H := tHalfedges t in
  forall q h k, tConvexHull t = map fv h -> encloses h [q] -> (0 <= 3 * k < Z.of_nat (length T))%Z ->
  exists m, walk pts T H q (k :: m) /\ in_triangle_or_edge pts q (corners T (last (k :: m) k)).
Proof.
  intros Hi Ret T H q h k Eh En Hk. destruct (exact_facts srt pts t err Hi Ret) as (Pr & Pos & Del & I & Bd & EI). rewrite (EI h Eh) in En.
  destruct (walk_extend pts T H Pr Pos Del q [] k (walk_one _ _ _ _ k Hk)) as (m & z & W & Ez & Hz & S). exists m. split; [exact W|]. rewrite Ez.
  destruct S as [S|(e & He & Ee & Be & Xe)]; [exact S|]. destruct (beyond_hull pts T H I q e Bd En He Xe Be).
Qed.
Print Assumptions C155_locate.
(** the same in binary64 on grids *)
Theorem C155_grid64 srt vs t err : grid_ok srt vs -> returns64 srt vs t err -> let T := tTriangles t in let H := tHalfedges t in let pts := values vs in
  (forall q l, walk pts T H q l -> NoDup l /\ (length l <= length (triples T))%nat) /\
  (forall q k, encloses (map rvec (tConvexHull t)) [q] -> (0 <= 3 * k < Z.of_nat (length T))%Z ->
     ((forall k', ~ towards pts T H q k k') -> in_triangle_or_edge pts q (corners T k)) /\
     exists m, walk pts T H q (k :: m) /\ in_triangle_or_edge pts q (corners T (last (k :: m) k))).
Proof.
  intros Hi Ret T H pts. destruct (grid_facts srt vs t err Hi Ret) as (Pr & Pos & Del & I & Bd & EI). split.
  - intros q l W. split; [apply (walk_nodup pts T H Pr Pos Del q l W)|apply (walk_length pts T H Pr Pos Del q l W)].
  - intros q k En Hk. rewrite EI in En. split.
    + intros No. destruct (step_or_stop pts T H Pr q k Hk) as [(k' & To & _)|[S|(e & He & Ee & Be & Xe)]]; [destruct (No _ To)|exact S|destruct (beyond_hull pts T H I q e Bd En He Xe Be)].
    + destruct (walk_extend pts T H Pr Pos Del q [] k (walk_one _ _ _ _ k Hk)) as (m & z & W & Ez & Hz & S). exists m. split; [exact W|]. rewrite Ez.
      destruct S as [S|(e & He & Ee & Be & Xe)]; [exact S|]. destruct (beyond_hull pts T H I q e Bd En He Xe Be).
Qed.
Print Assumptions C155_grid64.

(** ** four points: a walk that does cross an edge *)
Example C155_nonvacuous : input_ok isort ex4 /\ exists t k m, returns isort ex4 t false /\ walk ex4 (tTriangles t) (tHalfedges t) (RV 5 4 0) (k :: m) /\ m <> [] /\
  in_triangle_or_edge ex4 (RV 5 4 0) (corners (tTriangles t) (last (k :: m) k)).
Proof.
  destruct C123_126_nonvacuous as (Pl & _ & _ & _ & t & Ret & Al & _ & _ & _ & Ht & _). split; [exact Pl|].
  assert (P0 : point ex4 0 = RV 0 0 0) by reflexivity. assert (P1 : point ex4 1 = RV 4 0 0) by reflexivity. assert (P2 : point ex4 2 = RV 1 3 0) by reflexivity. assert (P3 : point ex4 3 = RV 6 5 0) by reflexivity.
  destruct (exact_facts isort ex4 t false Pl Ret) as (Pr & Pos & Del & I & Bd & EI). set (T := tTriangles t) in *. set (H := tHalfedges t) in *.
  assert (Hk : exists k, (0 <= 3 * k < Z.of_nat (length T))%Z /\ ~ in_triangle_or_edge ex4 (RV 5 4 0) (corners T k)).
  { destruct Ht as [Q|[Q|Q]]; apply (triples_entry (-1)%Z) in Q; destruct Q as (k & Lk & A & B & C); exists (Z.of_nat k); (split; [lia|]);
    unfold corners, entry; replace (Z.to_nat (3 * Z.of_nat k)) with (3 * k)%nat by lia; replace (Z.to_nat (3 * Z.of_nat k + 1)) with (3 * k + 1)%nat by lia; replace (Z.to_nat (3 * Z.of_nat k + 2)) with (3 * k + 2)%nat by lia;
    rewrite ?A, ?B, ?C; unfold in_triangle_or_edge; rewrite ?P0, ?P1, ?P2; unfold ccw; cbn [rx ry]; lra. }
  destruct Hk as (k & Hk & Out).
  (* the point is within the hull: every boundary edge has all four points on one side *)
  destruct (C21_hull isort ex4 t false Pl Ret) as (J & EJ & BJ & En & IJ). fold T H in BJ. fold T in En, IJ.
  assert (Eq : encloses (map (point ex4) J) [RV 5 4 0]).
  { intros e He q [<-|[]]. pose proof (En e He (point ex4 1) ltac:(apply in_map; apply Al; lia)) as Q1. pose proof (En e He (point ex4 2) ltac:(apply in_map; apply Al; lia)) as Q2.
    pose proof (En e He (point ex4 3) ltac:(apply in_map; apply Al; lia)) as Q3. rewrite P1 in Q1. rewrite P2 in Q2. rewrite P3 in Q3.
    assert (Q : 7 * ccw (fst e) (snd e) (RV 5 4 0) = ccw (fst e) (snd e) (RV 4 0 0) + ccw (fst e) (snd e) (RV 1 3 0) + 5 * ccw (fst e) (snd e) (RV 6 5 0)).
    { unfold ccw. cbn [rx ry]. ring. } lra. }
  destruct (C155_locate isort ex4 t false Pl Ret (RV 5 4 0) (map (point ex4) J) k) as (m & W & S); auto.
  { rewrite EJ, map_map. reflexivity. }
  exists t, k, m. split; [exact Ret|]. split; [exact W|]. split; [|exact S]. intros ->. apply Out. exact S.
Qed.
