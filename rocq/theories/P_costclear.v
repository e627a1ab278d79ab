(** The number of in-circle tests of Triangulate in float64, away from degenerate positions (property C176). *)
From Coq Require Import ZArith Lia List Bool Reals Lra QArith Permutation Sorted.
From Flocq Require Import Core BinarySingleNaN.
From Verif Require Import Base Arith GoLoop M_r3 M_tri2 M_triangulator Spec_r3 Spec_plane Spec_halfedge Spec_delaunay Spec_acc64 Spec_clear Spec_circ64 Spec_cleartri XRvec P_tri2 P_delgeom
  P_leg P_legmodel P_tstate P_addtri P_ringops P_insstep P_insert P_seed P_init P_flipterm P_triang P_insphere_err P_insphere_b64 P_b64sc P_b64hash P_b64err P_b64rel P_b64norm P_b64hull P_b64triang P_acc64 P_clearhull P_circ64.
From Verif Require Import M_cost P_costtri P_cleartri.
Import ListNotations.
Open Scope R_scope.

Theorem triangulateN_clear srt vs : good_sort srt -> (forall v, In v vs -> tame_vec v) -> clear_triangulation (gpts vs) ->
  length vs <> 1%nat -> (Ln vs < 2 ^ 63)%Z ->
  (vs = [] /\ triangulateN srt vs = Ok (emptyTri, false, 0%nat)) \/
  ((2 <= Ln vs)%Z /\ on_a_line (gpts vs) /\ triangulateN srt vs = Ok (emptyTri, true, 0%nat)) \/
  (~ on_a_line (gpts vs) /\ exists s V R i0 i1 i2 hs k, triangulateN srt vs = Ok (cut s, false, k) /\ (Z.of_nat k <= 2 * (Ln vs - 1) * (Ln vs - 3))%Z /\ (trianglesLen s <= 3 * (Z.of_nat k + 1))%Z /\
     rest (gpts vs) i0 i1 i2 hs s V R /\
     forall i, (0 <= i < Ln vs)%Z -> exists v, In v V /\ rdist2 (PP (gpts vs) i) (PP (gpts vs) v) < epsR).
Proof.
  intros GS Hv Hc L1 Big. destruct (Nat.eq_dec (length vs) 0) as [E|NE].
  { left. destruct vs; [|discriminate]. split; reflexivity. }
  right. assert (N2 : (2 <= Ln vs)%Z) by lia.
  rewrite triangulateN_eq by (intros Q; apply NE; destruct vs; [reflexivity|discriminate]). cbv zeta.
  pose proof (len_gpts vs) as LG. set (pts := gpts vs) in *. set (n := Ln pts).
  unfold bounds. rewrite (V_zget vs 0), (V_zget vs 1) by (fold pts; lia). cbn [rbind]. destruct (fold_left _ _ _) as [[[x0 y0] x1] y1].
  set (m := @mkvec B64 _ _ _). pose proof (gseed0 vs N2 m) as R0. fold pts in R0. rewrite (V_zget vs (seed0 _ m)) by auto. cbn [rbind].
  set (i0 := seed0 vs m) in *. destruct (cseed1 vs Hv Hc N2 i0 R0) as [R1 _]. fold pts in R1. rewrite (V_zget vs (seed1 _ _ _)) by auto. cbn [rbind].
  destruct (seed2 _ _ _ _ _) as [i2 r] eqn:E2.
  destruct (cseeds vs Hv Hc N2 i0 _ i2 r R0 eq_refl E2) as (_ & D). fold pts in D.
  set (i1 := seed1 vs i0 (vat vs i0)) in *.
  destruct D as [[-> Line]|(Ef & R2 & Ar & Gb & Emp)].
  { left. split; [lia|]. auto. }
  right. assert (NL : ~ on_a_line pts).
  { intros Ln. apply Ar. apply (line_ar pts _ _ _ Ln); apply PP_In; auto. }
  split; auto. rewrite Ef. rewrite (V_zget vs i2) by auto. cbn [rbind].
  rewrite (ex_lt _ _ (cexact vs Hv Hc) i0 i1 i2) by auto. fold pts.
  assert (Nc : ccw (PP pts i0) (PP pts i1) (PP pts i2) <> 0) by (unfold ar in Ar; lra).
  assert (I : forall j, (0 <= j < n)%Z -> In (PP pts j) pts) by (intros j Hj; apply PP_In; auto).
  destruct (ct_radii _ Hc _ _ (I _ R0) (I _ R1) Gb _ _ (I _ R2) (I _ R2) Nc Nc) as (Mi & _ & _).
  pose proof (ct_center _ Hc _ _ _ (I _ R0) (I _ R1) (I _ R2) Gb Nc) as CC.
  assert (Gen : forall j1 j2, (0 <= j1 < n)%Z -> (0 <= j2 < n)%Z -> 0 < ar (PP pts i0) (PP pts j1) (PP pts j2) ->
    mild (PP pts i0) (PP pts j1) (PP pts j2) -> clear_center pts (PP pts i0) (PP pts j1) (PP pts j2) ->
    (forall v, (0 <= v < n)%Z -> 0 <= incirc (PP pts i0) (PP pts j1) (PP pts j2) (PP pts v)) ->
    exists s V R a0 a1 a2 hs k,
     (let! v1 := zget vs j1 in
      let! v2 := zget vs j2 in
      let! s := initTri vs (circumcenter (vat vs i0) v1 v2) i0 j1 j2 in
      let! (s, c) := insertAllN vs (circumcenter (vat vs i0) v1 v2) i0 j1 j2
         (srt (lessId vs (map (fun p => SquaredDistance p (circumcenter (vat vs i0) v1 v2)) vs)) (allIds (length vs)))
         (mkvec infinity infinity (fofZ B64 0)) s in
      Ok (cut s, false, c)) = Ok (cut s, false, k) /\ (Z.of_nat k <= 2 * (Ln vs - 1) * (Ln vs - 3))%Z /\ (trianglesLen s <= 3 * (Z.of_nat k + 1))%Z /\
     rest pts a0 a1 a2 hs s V R /\
     forall i, (0 <= i < Ln vs)%Z -> exists v, In v V /\ rdist2 (PP pts i) (PP pts v) < epsR).
  { intros j1 j2 Rj1 Rj2 Or M2 C2 Hs. rewrite !V_zget by auto. cbn [rbind].
    assert (Out : forall v, (0 <= v < n)%Z -> 0 <= ar (PP pts i0) (PP pts j1) (PP pts j2) * incirc (PP pts i0) (PP pts j1) (PP pts j2) (PP pts v)).
    { intros v Hi. apply Rmult_le_pos; [lra|auto]. }
    pose proof (csorted vs Hv Hc N2 i0 j1 j2 R0 Rj1 Rj2 M2 C2 Out srt GS) as SI. cbv zeta in SI.
    set (ids := srt _ _) in *. destruct SI as (ND & Iids & ST). fold pts in Iids, ST.
    assert (HS : (0 < ftoZ B64 (fceil B64 (fsqrt B64 (fofZ B64 (Ln pts)))) <= 2 ^ 53)%Z) by (apply hsize_b64; lia).
    destruct (runN_ok vs pts (cexact vs Hv Hc) i0 j1 j2 (circumcenter (vat vs i0) (vat vs j1) (vat vs j2)) (co vs i0 j1 j2)) with (ids := ids) as (s & V & R & k & E & Bk & Tk & RS & Cov); auto.
    - apply (ct_planar _ Hc).
    - lia.
    - intros v Hi. apply (chash vs Hv i0 j1 j2); auto.
    - intros i Hi. apply (cnear0 vs Hv); auto.
    - intros i j Hi Hj. apply (cnear vs Hv Hc); auto.
    - intros j i Hj Hi. apply (cfirst vs Hv i0 j1 j2); auto.
    - exists s, V, R, i0, j1, j2. eexists. exists k. split; [exact E|]. split; [rewrite LG; exact Bk|]. split; [exact Tk|]. split; [exact RS|]. rewrite LG. auto. }
  destruct (Rltb (ar (PP pts i0) (PP pts i1) (PP pts i2)) 0) eqn:B.
  - apply Rltb_true in B. apply Gen; auto using mild_swap, clear_center_swap.
    + rewrite ar_swap23. lra.
    + intros v Hi. specialize (Emp v Hi).
      assert (E : incirc (PP pts i0) (PP pts i2) (PP pts i1) (PP pts v) = - incirc (PP pts i0) (PP pts i1) (PP pts i2) (PP pts v))
        by (unfold incirc; ring).
      rewrite E. apply (Rmult_le_reg_l (- ar (PP pts i0) (PP pts i1) (PP pts i2))); lra.
  - assert (B' : 0 < ar (PP pts i0) (PP pts i1) (PP pts i2)) by (apply Rltb_false in B; lra).
    apply Gen; auto. intros v Hi. specialize (Emp v Hi).
    apply (Rmult_le_reg_l (ar (PP pts i0) (PP pts i1) (PP pts i2))); lra.
Qed.
