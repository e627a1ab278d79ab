(** The number of in-circle tests of Triangulate in float64, on grids (property C176). *)
From Coq Require Import ZArith Lia List Bool Reals Lra QArith Permutation Sorted.
From Flocq Require Import Core BinarySingleNaN.
From Verif Require Import Base Arith GoLoop M_r3 M_tri2 M_triangulator Spec_r3 Spec_plane Spec_halfedge Spec_delaunay XRvec P_tri2 P_delgeom
  P_leg P_legmodel P_tstate P_addtri P_ringops P_insstep P_insert P_seed P_init P_flipterm P_triang P_insphere_err P_insphere_b64 P_b64sc P_b64hash P_b64err P_gridgeo P_b64grid.
From Verif Require Import M_cost P_costtri P_b64triang.
Import ListNotations.
Open Scope Z_scope.

Theorem triangulateN_b64 e zz srt vs : -170 <= e <= 170 -> good_sort srt -> (forall v, In v vs -> gridpt e zz v) ->
  length vs <> 1%nat -> Ln vs < 2 ^ 63 ->
  (vs = [] /\ triangulateN srt vs = Ok (emptyTri, false, 0%nat)) \/
  (2 <= Ln vs /\ on_a_line (gpts vs) /\ triangulateN srt vs = Ok (emptyTri, true, 0%nat)) \/
  (~ on_a_line (gpts vs) /\ exists s V R i0 i1 i2 hs k, triangulateN srt vs = Ok (cut s, false, k) /\ (Z.of_nat k <= 2 * (Ln vs - 1) * (Ln vs - 3))%Z /\ (trianglesLen s <= 3 * (Z.of_nat k + 1))%Z /\
     rest (gpts vs) i0 i1 i2 hs s V R /\
     forall i, 0 <= i < Ln vs -> exists v, In v V /\ (rdist2 (PP (gpts vs) i) (PP (gpts vs) v) < epsR)%R).
Proof.
  intros He GS Hgrid L1 Big. destruct (Nat.eq_dec (length vs) 0) as [E|NE].
  { left. destruct vs; [|discriminate]. split; reflexivity. }
  right. assert (N2 : 2 <= Ln vs) by lia.
  rewrite triangulateN_eq by (intros Q; apply NE; destruct vs; [reflexivity|discriminate]). cbv zeta.
  pose proof (len_gpts vs) as LG. set (pts := gpts vs) in *. set (n := Ln pts).
  unfold bounds. rewrite (V_zget vs 0), (V_zget vs 1) by (fold pts; lia). cbn [rbind]. destruct (fold_left _ _ _) as [[[x0 y0] x1] y1].
  set (m := @mkvec B64 _ _ _). pose proof (gseed0 vs N2 m) as R0. fold pts in R0. rewrite (V_zget vs (seed0 _ m)) by auto. cbn [rbind].
  set (i0 := seed0 vs m) in *. destruct (gseed1 e zz vs He Hgrid N2 i0 R0) as [R1 _]. fold pts in R1. rewrite (V_zget vs (seed1 _ _ _)) by auto. cbn [rbind].
  destruct (seed2 _ _ _ _ _) as [i2 r] eqn:E2.
  destruct (gseeds e zz vs He Hgrid N2 i0 _ i2 r R0 eq_refl E2) as (_ & D). fold pts in D.
  set (i1 := seed1 vs i0 (vat vs i0)) in *.
  destruct D as [[-> Line]|(Ef & R2 & Ar & Emp)].
  { left. split; [lia|]. auto. }
  right. assert (NL : ~ on_a_line pts).
  { intros Ln. apply Ar. apply (line_ar pts _ _ _ Ln); apply PP_In; auto. }
  split; auto. rewrite Ef. rewrite (V_zget vs i2) by auto. cbn [rbind].
  rewrite (ex_lt _ _ (gexact e zz vs He Hgrid) i0 i1 i2) by auto. fold pts.
  (* the general case for a positively oriented seed *)
  assert (Gen : forall j1 j2, 0 <= j1 < n -> 0 <= j2 < n -> (0 < ar (PP pts i0) (PP pts j1) (PP pts j2))%R ->
    (forall v, 0 <= v < n -> (0 <= incirc (PP pts i0) (PP pts j1) (PP pts j2) (PP pts v))%R) ->
    exists s V R a0 a1 a2 hs k,
     (let! v1 := zget vs j1 in
      let! v2 := zget vs j2 in
      let! s := initTri vs (circumcenter (vat vs i0) v1 v2) i0 j1 j2 in
      let! (s, c) := insertAllN vs (circumcenter (vat vs i0) v1 v2) i0 j1 j2
         (srt (lessId vs (map (fun p => SquaredDistance p (circumcenter (vat vs i0) v1 v2)) vs)) (allIds (length vs)))
         (mkvec infinity infinity (fofZ B64 0)) s in
      Ok (cut s, false, c)) = Ok (cut s, false, k) /\ (Z.of_nat k <= 2 * (Ln vs - 1) * (Ln vs - 3))%Z /\ (trianglesLen s <= 3 * (Z.of_nat k + 1))%Z /\
     rest pts a0 a1 a2 hs s V R /\
     forall i, 0 <= i < Ln vs -> exists v, In v V /\ (rdist2 (PP pts i) (PP pts v) < epsR)%R).
  { intros j1 j2 Rj1 Rj2 Or Hs. rewrite !V_zget by auto. cbn [rbind].
    assert (Nd : zd (GX e vs i0) (GY e vs i0) (GX e vs j1) (GY e vs j1) (GX e vs j2) (GY e vs j2) <> 0).
    { intros Q. apply (ar_zero e zz vs Hgrid) in Q. fold pts in Q. lra. }
    assert (Out : forall v, 0 <= v < n -> (0 <= ar (PP pts i0) (PP pts j1) (PP pts j2) * incirc (PP pts i0) (PP pts j1) (PP pts j2) (PP pts v))%R).
    { intros v Hv. apply Rmult_le_pos; [lra|auto]. }
    pose proof (gsorted e zz vs He Hgrid N2 i0 j1 j2 Nd srt GS) as SI. cbv zeta in SI.
    set (ctr := circumcenter (vat vs i0) (vat vs j1) (vat vs j2)) in *.
    set (ids := srt _ _) in *. destruct SI as (ND & Iids & ST). fold pts in Iids, ST.
    assert (HS : 0 < ftoZ B64 (fceil B64 (fsqrt B64 (fofZ B64 (Ln pts)))) <= 2 ^ 53) by (apply hsize_b64; lia).
    destruct (runN_ok vs pts (gexact e zz vs He Hgrid) i0 j1 j2 ctr (go e vs i0 j1 j2)) with (ids := ids) as (s & V & R & k & E & Bk & Tk & RS & Cov); auto.
    - apply (gplanar e zz vs Hgrid).
    - lia.
    - intros v Hv. apply (hash_ok e zz vs He Hgrid i0 j1 j2); auto.
    - intros i Hi. apply (near0 e zz vs He Hgrid); auto.
    - intros i j Hi Hj. apply (gnear e zz vs He Hgrid); auto.
    - intros j i Hj Hi. apply (first_ok e zz vs He Hgrid i0 j1 j2); auto.
    - exists s, V, R, i0, j1, j2. eexists. exists k. split; [exact E|]. split; [rewrite LG; exact Bk|]. split; [exact Tk|]. split; [exact RS|]. rewrite LG. auto. }
  destruct (Rltb (ar (PP pts i0) (PP pts i1) (PP pts i2)) 0) eqn:B.
  - apply Rltb_true in B. apply Gen; auto.
    + rewrite ar_swap23. lra.
    + intros v Hv. specialize (Emp v Hv).
      assert (E : incirc (PP pts i0) (PP pts i2) (PP pts i1) (PP pts v) = (- incirc (PP pts i0) (PP pts i1) (PP pts i2) (PP pts v))%R)
        by (unfold incirc; ring).
      rewrite E. apply (Rmult_le_reg_l (- ar (PP pts i0) (PP pts i1) (PP pts i2))); lra.
  - assert (B' : (0 < ar (PP pts i0) (PP pts i1) (PP pts i2))%R) by (apply Rltb_false in B; lra).
    apply Gen; auto. intros v Hv. specialize (Emp v Hv).
    apply (Rmult_le_reg_l (ar (PP pts i0) (PP pts i1) (PP pts i2))); lra.
Qed.
