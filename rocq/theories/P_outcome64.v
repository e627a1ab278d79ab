(** What follows when Triangulate in binary64 ran like the exact program: the consequences shared by the grid (C86-C89) and
    by inputs clear of rounding errors (C161). *)
From Coq Require Import ZArith Lia List Bool Reals Lra QArith Permutation Sorted.
From Flocq Require Import Core BinarySingleNaN.
From Verif Require Import Base Arith GoLoop M_r3 M_tri2 M_triangulator Spec_r3 Spec_plane Spec_halfedge Spec_delaunay XRvec P_tri2 P_delgeom
  P_leg P_legmodel P_tstate P_addtri P_ringops P_insstep P_ring P_insert P_seed P_init P_flipterm P_triang P_result P_tile P_tiling
  P_insphere_b64 P_b64triang.
Import ListNotations.
Open Scope Z_scope.

Definition done64 srt (vs : list (vec B64)) : Prop := length vs <> 1%nat /\
  ((vs = [] /\ triangulate srt vs = Ok (emptyTri, false)) \/
   (2 <= Ln vs /\ on_a_line (gpts vs) /\ triangulate srt vs = Ok (emptyTri, true)) \/
   (~ on_a_line (gpts vs) /\ exists s V R i0 i1 i2 hs, triangulate srt vs = Ok (cut s, false) /\
     rest (gpts vs) i0 i1 i2 hs s V R /\
     forall i, 0 <= i < Ln vs -> exists v, In v V /\ (rdist2 (PP (gpts vs) i) (PP (gpts vs) v) < epsR)%R)).
Lemma outcome srt (vs : list (vec B64)) : done64 srt vs -> let pts := gpts vs in exists t err, Triangulate srt vs = Ok (t, err) /\ tVectors t = vs /\
  ((length vs = 0%nat \/ on_a_line pts) /\ (err = true <-> (2 <= length vs)%nat) /\
     tTriangles t = [] /\ tHalfedges t = [] /\ tConvexHull t = []
   \/ ~ on_a_line pts /\ err = false /\ exists s V R i0 i1 i2 hs I,
      rest pts i0 i1 i2 hs s V R /\ tTriangles t = T_ s /\ tHalfedges t = H_ s /\ tConvexHull t = map (vat vs) I /\
      boundary (T_ s) (H_ s) I /\ length I = length R /\ (forall v, In v I -> In v V) /\
      (forall u v, In (u, v) (polygon_edges I) <-> In (v, u) (polygon_edges R)) /\
      forall i, 0 <= i < Ln vs -> exists v, In v V /\ (rdist2 (PP pts i) (PP pts v) < epsR)%R).
Proof.
  intros (L1 & D). cbv zeta. unfold Triangulate. destruct D as [(-> & E)|[(N2 & OL & E)|(NL & s & V & R & i0 & i1 & i2 & hs & E & RS & Cov)]].
  - rewrite E. do 2 eexists. split; [reflexivity|]. split; [reflexivity|]. left. split; [auto|]. split; [split; [discriminate|simpl; lia]|]. auto.
  - rewrite E. do 2 eexists. split; [reflexivity|]. split; [reflexivity|]. left. split; [auto|]. split; [split; auto; intros _; lia|]. auto.
  - rewrite E. cbn [rbind]. rewrite hull_cut.
    destruct (res_hull (gpts vs) i0 i1 i2 hs s V R RS vs (len_gpts vs)) as (I & EH & Bd & LI & IV & IE). rewrite EH. cbn [rbind].
    do 2 eexists. split; [reflexivity|]. split; [reflexivity|]. right. split; [exact NL|]. split; [reflexivity|].
    exists s, V, R, i0, i1, i2, hs, I. repeat (split; [solve [auto|reflexivity]|]). auto.
Qed.
Lemma ret_fun srt (vs : list (vec B64)) t err t' err' : Triangulate srt vs = Ok (t, err) -> Triangulate srt vs = Ok (t', err') -> t = t' /\ err = err'.
Proof. intros H H'. rewrite H in H'. injection H' as <- <-. auto. Qed.
Ltac resout H t err :=
  let t' := fresh "t'" in let err' := fresh "err'" in let Rt := fresh "Rt" in let E1 := fresh "E1" in let E2 := fresh "E2" in
  match goal with Ret : Triangulate ?srt ?vs = Ok (t, err) |- _ =>
    destruct (outcome srt vs H) as (t' & err' & Rt & TP & [(O & Er & T0 & H0 & C0)|(NL & Ee & s & V & R & i0 & i1 & i2 & hs & I & RS & ET & EH & EC & Bd & LI & IV & IE & Cov)]);
    destruct (ret_fun _ _ _ _ _ _ Ret Rt) as [E1 E2];
    subst t' err'; clear Rt
  end.
Lemma len_gptsR vs : length (gpts vs) = length vs. Proof. apply map_length. Qed.

Lemma o_returns srt (vs : list (vec B64)) : done64 srt vs -> exists t err, Triangulate srt vs = Ok (t, err) /\ tVectors t = vs /\
  ((2 <= length vs)%nat -> (err = true <-> on_a_line (gpts vs)) /\ (err = false -> tTriangles t <> [])).
Proof.
  intros H. destruct (outcome srt vs H) as (t & err & Ret & TP & D). exists t, err. split; auto. split; auto. intros N2.
  destruct D as [(O & Er & T0 & H0 & C0)|(NL & -> & s & V & R & i0 & i1 & i2 & hs & I & RS & ET & EH & EC & Bd & LI & IV & IE & Cov)].
  - destruct O as [O|O]; [lia|]. assert (err = true) as -> by (apply Er; auto). split; [tauto|discriminate].
  - split; [split; [discriminate|contradiction]|]. intros _ E. rewrite ET in E.
    destruct (Cov 0 ltac:(lia)) as (v & Hv & _). apply (In_T _ i0 i1 i2 _ s V R RS) in Hv. rewrite E in Hv. exact Hv.
Qed.

Lemma o_well_formed srt (vs : list (vec B64)) t err : done64 srt vs -> Triangulate srt vs = Ok (t, err) ->
  paired (tTriangles t) (tHalfedges t) /\
  (forall v, In v (tTriangles t) -> 0 <= v < Z.of_nat (length vs)) /\
  (forall c, In c (triples (tTriangles t)) -> (0 < area3 (gpts vs) c)%R) /\
  (forall u v, In u (tTriangles t) -> In v (tTriangles t) -> samexy (point (gpts vs) u) (point (gpts vs) v) -> u = v).
Proof.
  intros H Ret. resout H t err.
  - rewrite T0, H0. split; [constructor; [reflexivity|exists 0%nat; reflexivity| |]; simpl; intros e He; lia|]. split; [intros v []|]. split; [intros c []|intros u v []].
  - rewrite ET, EH. split; [apply (res_paired _ i0 i1 i2 _ s V R RS)|]. rewrite <- (len_gptsR vs).
    split; [apply (res_range _ i0 i1 i2 _ s V R RS)|]. split; [apply (res_oriented _ i0 i1 i2 _ s V R RS)|].
    intros u v Hu Hv. rewrite !point_PP by (apply (res_range _ i0 i1 i2 _ s V R RS); auto).
    apply (In_T _ i0 i1 i2 _ s V R RS) in Hu, Hv. apply (r_dist _ _ _ _ _ _ _ _ RS); auto.
Qed.

Lemma o_delaunay srt (vs : list (vec B64)) t err : done64 srt vs -> Triangulate srt vs = Ok (t, err) -> delaunay (gpts vs) (tTriangles t).
Proof.
  intros H Ret. resout H t err.
  - rewrite T0. intros a b c [].
  - rewrite ET. apply (res_delaunay _ i0 i1 i2 _ s V R RS).
Qed.

Lemma o_hull srt (vs : list (vec B64)) t err : done64 srt vs -> Triangulate srt vs = Ok (t, err) -> exists I,
  map rvec (tConvexHull t) = map (point (gpts vs)) I /\ boundary (tTriangles t) (tHalfedges t) I /\
  encloses (map (point (gpts vs)) I) (map (point (gpts vs)) (tTriangles t)) /\ (forall v, In v I -> In v (tTriangles t)) /\
  Spec_plane.Rsum (map (area3 (gpts vs)) (triples (tTriangles t))) = shoelace (map (point (gpts vs)) I).
Proof.
  intros H Ret. resout H t err.
  - rewrite T0, H0, C0. exists []. split; [reflexivity|]. split; [|split; [intros e []|split; [intros v []|]]].
    + split; [constructor|]. intros u v. split; [intros []|]. intros (e & He & _). simpl in He. lia.
    + unfold shoelace. simpl. lra.
  - rewrite ET, EH, EC. exists I. split.
    { rewrite map_map. apply map_ext_in. intros v Hv. rewrite point_PP; [|apply (r_range _ _ _ _ _ _ _ _ RS); auto]. symmetry. apply (PP_V vs). }
    split; [auto|]. split; [apply (hull_encloses _ i0 i1 i2 _ s V R RS); auto|]. split.
    { intros v Hv. apply (In_T _ i0 i1 i2 _ s V R RS); auto. }
    apply (res_area _ i0 i1 i2 _ s V R RS); auto. apply Bd.
Qed.
Lemma o_no_point_lost srt (vs : list (vec B64)) t : done64 srt vs -> Triangulate srt vs = Ok (t, false) ->
  forall i, 0 <= i < Z.of_nat (length vs) -> exists v, In v (tTriangles t) /\ (rdist2 (point (gpts vs) i) (point (gpts vs) v) < epsR)%R.
Proof.
  intros H Ret. resout H t false.
  - intros i Hi. destruct Er as [_ Er]. destruct (le_lt_dec 2 (length vs)) as [Q|Q]; [specialize (Er Q); discriminate|].
    destruct H as (L1 & _). lia.
  - intros i Hi. destruct (Cov i Hi) as (v & Hv & D). exists v. split; [rewrite ET; apply (In_T _ i0 i1 i2 _ s V R RS); auto|].
    rewrite !point_PP; auto; [apply (r_range _ _ _ _ _ _ _ _ RS); auto|]. pose proof (len_gptsR vs). lia.
Qed.
(** the triangles do not overlap and fill the hull *)
Lemma o_tiles srt (vs : list (vec B64)) t err : done64 srt vs -> Triangulate srt vs = Ok (t, err) ->
  (forall q i j ti tj, nth_error (triples (tTriangles t)) i = Some ti -> nth_error (triples (tTriangles t)) j = Some tj ->
     in_triangle (gpts vs) q ti -> in_triangle (gpts vs) q tj -> i = j) /\
  (forall I, boundary (tTriangles t) (tHalfedges t) I -> I <> [] -> forall q, strictly_inside (map (point (gpts vs)) I) q ->
     exists ti, In ti (triples (tTriangles t)) /\ in_triangle_or_edge (gpts vs) q ti).
Proof.
  intros H Ret. pose proof (o_well_formed srt vs t err H Ret) as (_ & Rg & _). rewrite <- (len_gptsR vs) in Rg. split.
  - intros q i j [[a b] c] [[a' b'] c'] Hi Hj. resout H t err.
    + rewrite T0 in Hi. destruct i; discriminate.
    + rewrite ET in *. unfold in_triangle. intros Qi Qj.
      assert (G : forall x y z, In (x, y, z) (triples (T_ s)) -> In x (T_ s) /\ In y (T_ s) /\ In z (T_ s)).
      { intros x y z Hin. apply (triples_entry (-1)) in Hin. destruct Hin as (k & K & <- & <- & <-). repeat split; apply nth_In; lia. }
      destruct (G _ _ _ (nth_error_In _ _ Hi)) as (A & B & C). destruct (G _ _ _ (nth_error_In _ _ Hj)) as (A' & B' & C').
      rewrite !point_PP in Qi, Qj by (apply Rg; auto).
      apply (res_disjoint _ i0 i1 i2 _ s V R RS q i j a b c a' b' c'); auto; unfold tin, ar; lra.
  - intros J BI NI q SI. resout H t err.
    + exfalso. destruct J as [|x J]; [contradiction|]. destruct (pe_succ (x :: J) x ltac:(left; auto)) as (y & Q). apply (proj2 BI) in Q.
      destruct Q as (e & He & _). rewrite T0 in He. simpl in He. lia.
    + rewrite ET, EH in *. destruct (res_cover _ i0 i1 i2 _ s V R RS q) as (a & b & c & Hin & Tc).
      * intros u v Huv. assert (Q : In (v, u) (polygon_edges J)) by (apply (proj2 BI), (proj2 Bd), IE; auto).
        destruct (ring_V _ i0 i1 i2 _ s V R RS u v Huv) as [Vu Vv].
        pose proof (SI (point (gpts vs) v, point (gpts vs) u)) as W. cbn [fst snd] in W. rewrite !point_PP in W by (apply (r_range _ _ _ _ _ _ _ _ RS); auto).
        rewrite pe_map in W. assert (0 < ccw (PP (gpts vs) v) (PP (gpts vs) u) q)%R.
        { apply W. apply in_map_iff. exists (v, u). split; auto. cbn [fst snd]. rewrite !point_PP by (apply (r_range _ _ _ _ _ _ _ _ RS); auto). auto. }
        rewrite ar_swap. unfold ar. lra.
      * exists (a, b, c). split; auto. unfold in_triangle_or_edge.
        apply (triples_entry (-1)) in Hin. destruct Hin as (k & K & Ea & Eb & Ec).
        rewrite !point_PP by (apply Rg; subst; apply nth_In; lia). unfold tinc, ar in Tc. lra.
Qed.

