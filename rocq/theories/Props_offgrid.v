(** Property theorem C138: Triangulate in binary64 on integer coordinates outside the range of the grids of C86-C89. *)
From Coq Require Import ZArith Lia List Bool Reals Lra.
From Flocq Require Import Core BinarySingleNaN.
From Verif Require Import Base Arith GoLoop M_r3 M_tri2 M_triangulator Spec_r3 Spec_plane Spec_halfedge Spec_delaunay XRvec P_tri2 P_triang P_flipterm
  P_insphere_b64 P_b64sc P_b64hash P_b64grid P_b64triang Props_triangulator Props_grid.
Import ListNotations.
Open Scope Z_scope.

(** planar points with integer coordinates *)
Definition int_points (l : list (Z * Z)) : list (vec B64) := map (fun p => zv (fst p) (snd p)) l.
Definition int_rv (l : list (Z * Z)) : list rv := map (fun p => RV (IZR (fst p)) (IZR (snd p)) 0) l.
Definition outT (r : res (Triangulation B64 * bool)) : option (list Z) := match r with Ok (t, false) => Some (tTriangles t) | _ => None end.
Lemma outT_inv srt vs T : outT (Triangulate srt vs) = Some T -> exists t, returns64 srt vs t false /\ tTriangles t = T.
Proof. unfold returns64. destruct (Triangulate srt vs) as [[t [|]]| |]; cbn; try discriminate. intros E. exists t. split; [reflexivity|congruence]. Qed.

(** five integer points, coordinates below 2^28, not on a line: the triangulation does not use the second one, and this
    is strictly inside the circumcircle of one of the two triangles *)
Definition lost5 : list (Z * Z) := [(9175029, 9175027); (14266191, 14266189); (247288382, 247288382); (80427785, 80427784); (159340670, 159340668)].
Theorem C138_lost_refuted : exists l t, NoDup l /\ (forall p, In p l -> 0 <= fst p < 2 ^ 28 /\ 0 <= snd p < 2 ^ 28) /\ values (int_points l) = int_rv l /\
  ~ on_a_line (int_rv l) /\ good_sort isort /\ returns64 isort (int_points l) t false /\
  ~ (forall i, 0 <= i < Z.of_nat (length l) -> exists v, In v (tTriangles t) /\ (rdist2 (point (int_rv l) i) (point (int_rv l) v) < epsR)%R).
Proof.
  exists lost5.
  assert (E : outT (Triangulate isort (int_points lost5)) = Some [4; 3; 2; 4; 0; 3]) by (vm_compute; reflexivity).
  destruct (outT_inv _ _ _ E) as (t & Ret & ET). exists t. rewrite ET.
  split; [repeat constructor; simpl; intuition discriminate|]. split; [intros p Hp; simpl in Hp; decompose [or] Hp; subst; try contradiction; cbn; lia|].
  split; [unfold values, int_points, int_rv, lost5, zv, rvec; cbn [map fst snd vx vy vz]; repeat f_equal; cbn; unfold Defs.F2R; cbn; lra|].
  split; [|split; [exact isort_good|split; [exact Ret|]]].
  - intros (nx & ny & k & N & H). pose proof (H _ (or_introl eq_refl)) as H0. pose proof (H _ (or_intror (or_introl eq_refl))) as H1.
    pose proof (H _ (or_intror (or_intror (or_introl eq_refl)))) as H2. cbn [fst snd rx ry] in *. destruct N as [N|N]; apply N; lra.
  - intros H. destruct (H 1 ltac:(cbn; lia)) as (v & Hv & L). revert L. unfold epsR.
    assert (P0 : point (int_rv lost5) 0 = RV (9175029) (9175027) 0) by reflexivity.
    assert (P1 : point (int_rv lost5) 1 = RV (14266191) (14266189) 0) by reflexivity.
    assert (P2 : point (int_rv lost5) 2 = RV (247288382) (247288382) 0) by reflexivity.
    assert (P3 : point (int_rv lost5) 3 = RV (80427785) (80427784) 0) by reflexivity.
    assert (P4 : point (int_rv lost5) 4 = RV (159340670) (159340668) 0) by reflexivity.
    assert (D : (1 <= rdist2 (point (int_rv lost5) 1) (point (int_rv lost5) v))%R).
    { simpl in Hv. decompose [or] Hv; subst; try contradiction; rewrite ?P0, ?P1, ?P2, ?P3, ?P4; unfold rdist2, rdot, rsub; cbn [rx ry rz]; lra. }
    lra.
Qed.
Print Assumptions C138_lost_refuted.

(** four integer points, coordinates below 2^45: each triangle has the fourth point strictly inside its circumcircle *)
Definition wrong4 : list (Z * Z) := [(26388279066625, 7696581394432); (7696581394433, -26388279066624); (-16492674416641, -21990232555520); (16492674416641, 21990232555521)].
Theorem C138_delaunay_refuted : exists l t, NoDup l /\ (forall p, In p l -> Z.abs (fst p) < 2 ^ 45 /\ Z.abs (snd p) < 2 ^ 45) /\ values (int_points l) = int_rv l /\
  good_sort isort /\ returns64 isort (int_points l) t false /\ ~ delaunay (int_rv l) (tTriangles t).
Proof.
  exists wrong4.
  assert (E : outT (Triangulate isort (int_points wrong4)) = Some [0; 1; 3; 1; 2; 3]) by (vm_compute; reflexivity).
  destruct (outT_inv _ _ _ E) as (t & Ret & ET). exists t. rewrite ET.
  split; [repeat constructor; simpl; intuition discriminate|]. split; [intros p Hp; simpl in Hp; decompose [or] Hp; subst; try contradiction; cbn; lia|].
  split; [unfold values, int_points, int_rv, wrong4, zv, rvec; cbn [map fst snd vx vy vz]; repeat f_equal; cbn; unfold Defs.F2R; cbn; lra|].
  split; [exact isort_good|split; [exact Ret|]].
    assert (P0 : point (int_rv wrong4) 0 = RV (26388279066625) (7696581394432) 0) by reflexivity.
    assert (P1 : point (int_rv wrong4) 1 = RV (7696581394433) (-26388279066624) 0) by reflexivity.
    assert (P2 : point (int_rv wrong4) 2 = RV (-16492674416641) (-21990232555520) 0) by reflexivity.
    assert (P3 : point (int_rv wrong4) 3 = RV (16492674416641) (21990232555521) 0) by reflexivity.
  intros D. specialize (D 0 1 3 (or_introl eq_refl)). set (o := RV (-263882790666237 / 1099511627776034) (747667906887697 / 1099511627776034) 0).
  set (r2 := dist2xy (point (int_rv wrong4) 0) o). specialize (D o r2).
  assert (C : circle3 o r2 (point (int_rv wrong4) 0) (point (int_rv wrong4) 1) (point (int_rv wrong4) 3)).
  { unfold circle3, r2. split; [reflexivity|]. rewrite P0, P1, P3. unfold o, dist2xy. cbn [rx ry]. split; lra. }
  specialize (D C 2 ltac:(do 4 right; left; reflexivity)). revert D. unfold r2. rewrite P0, P2. unfold o, dist2xy. cbn [rx ry]. lra.
Qed.
Print Assumptions C138_delaunay_refuted.
