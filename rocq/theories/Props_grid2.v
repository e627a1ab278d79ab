(** Property theorems C92-C96: ConvexHull, polygonArea and Validate as compiled, in binary64, on grid points. *)
From Coq Require Import ZArith Lia List Bool Reals Lra QArith Permutation Sorted.
From Flocq Require Import Core BinarySingleNaN.
From Verif Require Import Base Arith GoLoop M_r3 M_tri2 M_triangulator Spec_r3 Spec_plane Spec_halfedge Spec_delaunay XRvec P_tri2 P_delgeom P_polygon P_hull
  P_leg P_legmodel P_tstate P_addtri P_ringops P_insstep P_ring P_insert P_seed P_init P_flipterm P_triang P_result P_tile P_tiling P_hullsame P_validate
  P_insphere_b64 P_b64sc P_b64hash P_b64grid P_b64triang P_b64hull P_b64valid P_hulltri Props_grid.
Import ListNotations.
Open Scope Z_scope.

(** ** C92 *)
(** a coordinate of at most 25 bits in units of 2^e *)
Definition on_grid25 (e : Z) (x : b64) : Prop :=
  exists k, -16777216 <= k <= 16777216 /\ is_finite x = true /\ B2R x = (IZR k * bpow radix2 e)%R.
Definition grid25 (e : Z) (vs : list (vec B64)) : Prop :=
  forall v, In v vs -> on_grid25 e (vx v) /\ on_grid25 e (vy v) /\ on_grid25 e (vz v).
Lemma on_grid25_si e x : on_grid25 e x -> exists k, si x e k 16777216.
Proof. intros (k & Hk & F & E). exists k. split; [split; auto; rewrite E; unfold bp; ring|lia]. Qed.
Lemma grid25_24 e vs : grid25 e vs -> forall v, In v vs -> on_grid24 e v.
Proof.
  intros H v Hv. destruct (H v Hv) as (X & Y & W).
  destruct (on_grid25_si _ _ X) as [x Hx]. destruct (on_grid25_si _ _ Y) as [y Hy]. destruct (on_grid25_si _ _ W) as [z Hz].
  exists x, y, z. auto.
Qed.
Theorem C92_hull64 e srt vs : -300 <= e <= 300 -> grid25 e vs -> sorts lessXY vs (srt vs) -> separated (values vs) ->
  (exists p q, In p (values vs) /\ In q (values vs) /\ p <> q) ->
  exists h, ConvexHull srt vs = Ok h /\ incl h vs /\ encloses (values h) (values vs) /\
    exists a b, In a (values h) /\ In b (values h) /\ a <> b /\
      (forall q, In q (values vs) -> q <> a -> lexlt a q) /\ (forall q, In q (values vs) -> q <> b -> lexlt q b).
Proof.
  intros He Hg Hs Sep PQ. destruct (hull_grid_exact e He srt vs (grid25_24 e vs Hg) Hs) as (h & srtX & E & I & So & EX).
  destruct (convex_hull_correct srtX (values vs) So Sep PQ) as (h' & E' & _ & En & Ext).
  unfold values in E'. rewrite EX in E'. injection E' as E'.
  assert (h' = values h) as ->.
  { clear -E'. unfold values in *. revert h' E'. induction (map rvec h) as [|x l IH]; intros [|y h'] E; try discriminate; auto.
    injection E as Ex Ey Ez El. f_equal; [apply rv_ext; auto|auto]. }
  exists h. auto.
Qed.
Print Assumptions C92_hull64.

(** ** C93 *)
Lemma grid_separated e vs : -26 <= e -> grid_points e vs -> separated (values vs).
Proof.
  intros He [Hg Hz] a b Ha Hb N. unfold values in Ha, Hb. apply in_map_iff in Ha. apply in_map_iff in Hb.
  destruct Ha as (v & <- & Hv). destruct Hb as (w & <- & Hw).
  destruct (Hg v Hv) as ((x & _ & _ & Ex) & (y & _ & _ & Ey) & _). destruct (Hg w Hw) as ((x' & _ & _ & Ex') & (y' & _ & _ & Ey') & _).
  assert (Ez : rz (rvec v) = rz (rvec w)) by (apply Hz; auto).
  assert (NS : x <> x' \/ y <> y').
  { destruct (Z.eq_dec x x') as [Q1|]; auto. destruct (Z.eq_dec y y') as [Q2|]; auto. exfalso. apply N. apply rv_ext; auto.
    - unfold rvec; cbn [rx]. rewrite Ex, Ex', Q1. reflexivity.
    - unfold rvec; cbn [ry]. rewrite Ey, Ey', Q2. reflexivity. }
  pose proof (bpow_gt_0 radix2 e) as BP. split.
  - intros [S1 S2]. unfold rvec in S1, S2; cbn [rx ry] in S1, S2. rewrite Ex, Ex' in S1. rewrite Ey, Ey' in S2.
    apply Rmult_eq_reg_r in S1; [|lra]. apply Rmult_eq_reg_r in S2; [|lra]. apply eq_IZR in S1. apply eq_IZR in S2. lia.
  - unfold rdist2, rdot, rsub; cbn [rx ry rz]. rewrite Ez. unfold rvec; cbn [rx ry rz]. rewrite Ex, Ex', Ey, Ey'.
    set (u := (x - x')%Z). set (t := (y - y')%Z). assert (Q : 1 <= u * u + t * t).
    { assert (u <> 0 \/ t <> 0) as [Q|Q] by (unfold u, t; lia); pose proof (Z.square_nonneg u); pose proof (Z.square_nonneg t).
      - assert (0 < u * u) by (apply Z.lt_eq_cases in H as [H|H]; auto; symmetry in H; apply Z.mul_eq_0 in H; lia). lia.
      - assert (0 < t * t) by (apply Z.lt_eq_cases in H0 as [H0|H0]; auto; symmetry in H0; apply Z.mul_eq_0 in H0; lia). lia. }
    apply IZR_le in Q. rewrite plus_IZR, !mult_IZR in Q. unfold u, t in Q. rewrite !minus_IZR in Q.
    assert (EE : (epsR <= bpow radix2 e * bpow radix2 e)%R).
    { rewrite <- bpow_plus. apply Rle_trans with (bpow radix2 (-52)); [unfold epsR; simpl; lra|apply bpow_le; lia]. }
    apply Rle_trans with (bpow radix2 e * bpow radix2 e * 1)%R; [lra|].
    apply Rle_trans with (bpow radix2 e * bpow radix2 e * ((IZR x - IZR x') * (IZR x - IZR x') + (IZR y - IZR y') * (IZR y - IZR y')))%R.
    + apply Rmult_le_compat_l; auto. apply Rmult_le_pos; lra.
    + apply Req_le. ring.
Qed.
Lemma grid_points_24 e vs : grid_points e vs -> forall v, In v vs -> on_grid24 e v.
Proof.
  intros [H _]. apply grid25_24. intros v Hv.
  assert (G : forall x, on_grid e x -> on_grid25 e x) by (intros x (k & Hk & F); exists k; split; [lia|auto]).
  destruct (H v Hv) as (A & B & C). auto.
Qed.
(** the input of Triangulate, on the grid 2^e with cells of at least 2^-26 (so that distinct points are not merged) *)
Definition grid_at (e : Z) srt (vs : list (vec B64)) : Prop :=
  good_sort srt /\ -26 <= e <= 170 /\ grid_points e vs /\ length vs <> 1%nat /\ Z.of_nat (length vs) < 2 ^ 63.
Lemma grid_at_ok e srt vs : grid_at e srt vs -> grid_ok srt vs.
Proof. intros (A & B & C & D & E). split; auto. split; [exists e; split; auto; lia|auto]. Qed.
(** everything Validate looks at, for the result on a grid *)
Lemma hulls64 e srt srt2 vs t : grid_at e srt vs -> returns64 srt vs t false -> vs <> [] -> sorts lessXY vs (srt2 vs) ->
  exists h2 h1 h3, ConvexHull srt2 vs = Ok h2 /\ incl h2 vs /\ incl (tConvexHull t) vs /\ tConvexHull t <> [] /\
    values (tConvexHull t) = h1 ++ h3 /\ values h2 = h3 ++ h1.
Proof.
  intros HA Ret NE Hs. pose proof (grid_at_ok e srt vs HA) as H. destruct HA as (_ & He & Gp & _).
  result64 H t false.
  { exfalso. destruct Er as [_ Er]. destruct (le_lt_dec 2 (length vs)) as [Q|Q]; [specialize (Er Q); discriminate|].
    destruct H as (_ & _ & L1 & _). destruct vs as [|a [|b l]]; simpl in *; try lia; contradiction. }
  destruct (hull_grid_exact e ltac:(lia) srt2 vs (grid_points_24 e vs Gp) Hs) as (h2 & srtX & Eh2 & I2 & So & EX).
  assert (NEv : values vs <> []) by (intros Q; apply NE; destruct vs; [auto|discriminate]).
  assert (Cov' : forall i, 0 <= i < Z.of_nat (length (values vs)) -> exists v, In v V /\ (rdist2 (PP (values vs) i) (PP (values vs) v) < epsR)%R).
  { rewrite len_values. exact Cov. }
  destruct (hulls_rest (values vs) i0 i1 i2 hs s V R I srtX RS Bd LI IV IE Cov' NEv (grid_separated e vs (proj1 He) Gp) So) as (h1 & h3 & E13 & EC2).
  unfold values in EC2. rewrite EX in EC2. injection EC2 as EC2.
  assert (Ev : values h2 = h3 ++ h1).
  { clear -EC2. unfold values in *. revert EC2. generalize (map rvec h2) (h3 ++ h1). induction l as [|x l IH]; intros [|y h'] E; try discriminate; auto.
    injection E as Ex Ey Ez El. f_equal; [apply rv_ext; auto|auto]. }
  exists h2, h1, h3. split; auto. split; auto.
  assert (IR : forall v, In v I -> 0 <= v < Z.of_nat (length vs)).
  { intros v Hv. rewrite <- (len_values vs). apply (r_range _ _ _ _ _ _ _ _ RS); auto. }
  split; [|split; [|split]]; auto.
  - rewrite EC. intros x Hx. apply in_map_iff in Hx. destruct Hx as (v & <- & Hv). apply V_In. rewrite <- len_gpts. auto.
  - rewrite EC. destruct I as [|v I]; [|discriminate]. exfalso. destruct R as [|r R].
    + destruct (w_hull _ _ (r_wfs _ _ _ _ _ _ _ _ RS)) as (x & _ & []).
    + discriminate LI.
  - rewrite <- E13, EC. unfold values. rewrite map_map. apply map_ext_in. intros v Hv. specialize (IR v Hv).
    rewrite point_PP by lia. symmetry. apply (PP_V vs).
Qed.
(** the triangulation's ConvexHull and ConvexHull(points) list the same points in the same cyclic order *)
Theorem C93_hulls_agree64 e srt srt2 vs t : grid_at e srt vs -> returns64 srt vs t false -> vs <> [] -> sorts lessXY vs (srt2 vs) ->
  exists h2 h1 h3, ConvexHull srt2 vs = Ok h2 /\ values (tConvexHull t) = h1 ++ h3 /\ values h2 = h3 ++ h1.
Proof. intros. destruct (hulls64 e srt srt2 vs t) as (h2 & h1 & h3 & A & _ & _ & _ & B & C); auto. exists h2, h1, h3. auto. Qed.
Print Assumptions C93_hulls_agree64.

(** ** C94 *)
(** m vertices on the hull and cells of size 2^e with m (m + 1) 2^e at most 23108: Validate accepts *)
Theorem C94_validate_accepts64 e srt srt2 vs t : grid_at e srt vs -> returns64 srt vs t false -> vs <> [] -> sorts lessXY vs (srt2 vs) ->
  (let m := IZR (Z.of_nat (length (tConvexHull t))) in m * (m + 1) * bpow radix2 e <= 23108)%R ->
  Validate srt2 t = Ok true.
Proof.
  intros HA Ret NE Hs Bm. pose proof (grid_at_ok e srt vs HA) as H.
  destruct (hulls64 e srt srt2 vs t HA Ret NE Hs) as (h2 & h1 & h3 & E2 & I2 & It & Nt & Eh & Eh2).
  pose proof (C87_well_formed srt vs t false H Ret) as (Pd & Rg & Or & _).
  destruct (C89_hull srt vs t false H Ret) as (I & EI & _ & _ & _ & Ar).
  assert (TV : tVectors t = vs).
  { destruct (C86_returns srt vs H) as (t' & err' & Ret' & TV & _). destruct (returns64_fun _ _ _ _ _ _ Ret Ret') as [<- _]. auto. }
  destruct HA as (_ & He & Gp & _). destruct (grid_gridpt e vs Gp) as (zz & Hg).
  destruct (pr_whole _ _ Pd) as (k & Hk). destruct t as [v c T Hf]. cbn [tVectors tConvexHull tTriangles tHalfedges] in *. subst v.
  apply (validate64 e zz ltac:(lia) srt2 vs c h2 T Hf k); auto.
  - (* half-edges *)
    intros i j Hi Hj. assert (Bi : (i < length Hf)%nat) by (apply nth_error_Some; congruence). rewrite (pr_len _ _ Pd) in Bi.
    assert (Ei : entry Hf (Z.of_nat i) = j) by (unfold entry; rewrite Nat2Z.id; apply nth_error_nth; auto).
    destruct (pr_twin _ _ Pd (Z.of_nat i) ltac:(lia)) as [Q|(Q1 & Q2 & _)]; [rewrite Ei in Q; contradiction|].
    rewrite Ei in Q1, Q2. split; [lia|]. unfold entry in Q2. rewrite <- Q2. apply nth_error_nth'. rewrite (pr_len _ _ Pd). lia.
  - exists h1, h3. auto.
  - rewrite EI. exact Ar.
  - (* the hull is short *)
    cbv zeta in Bm. set (m := Z.of_nat (length c)) in *. assert (M0 : 0 <= m) by (unfold m; lia).
    destruct (Z_le_gt_dec m (2 ^ 36)) as [|Q]; auto. exfalso.
    assert (QR : (IZR (2 ^ 36) <= IZR m)%R) by (apply IZR_le; lia).
    assert (EB : (bpow radix2 (-26) <= bpow radix2 e)%R) by (apply bpow_le; lia).
    assert (B0 : (0 < bpow radix2 (-26))%R) by apply bpow_gt_0.
    assert (L1 : (IZR (2 ^ 36) * IZR (2 ^ 36) <= IZR m * (IZR m + 1))%R).
    { apply Rmult_le_compat; try lra; apply IZR_le; lia. }
    assert (L2 : (IZR (2 ^ 36) * IZR (2 ^ 36) * bpow radix2 (-26) <= IZR m * (IZR m + 1) * bpow radix2 e)%R).
    { apply Rmult_le_compat; lra. }
    change (bpow radix2 (-26)) with (/ IZR (2 ^ 26))%R in L2. simpl in L2. lra.
Qed.
Print Assumptions C94_validate_accepts64.

(** ** C95: without the bound it is false. Four points with coordinates up to 2^21, all multiples of 2^14: *)
Definition gp (e x y : Z) : vec B64 := mkvec (b64_lit x e) (b64_lit y e) (b64_lit 0 0).
Definition isort2 (vs : list (vec B64)) : list (vec B64) := isort lessXY vs.
Definition ex95 : list (vec B64) := [gp 14 0 0; gp 14 102 7; gp 14 7 100; gp 14 100 102].
Definition verdict (vs : list (vec B64)) : option bool :=
  match Triangulate isort vs with Ok (t, false) => match Validate isort2 t with Ok b => Some b | _ => None end | _ => None end.
Lemma ex95_verdict : verdict ex95 = Some false.
Proof. vm_compute. reflexivity. Qed.
Lemma isort2_sorts e vs : grid25 e vs -> sorts lessXY vs (isort2 vs).
Proof.
  intros Hg. split; [apply isort_perm|]. unfold isort2.
  assert (Fin : forall v, In v vs -> is_finite (vx v : b64) = true /\ is_finite (vy v : b64) = true).
  { intros v Hv. destruct (Hg v Hv) as ((? & _ & ? & _) & (? & _ & ? & _) & _). auto. }
  assert (L : forall v w, In v vs -> In w vs -> lessXY v w = true <-> lexlt (rvec v) (rvec w)).
  { intros v w Hv Hw. destruct (Fin v Hv), (Fin w Hw). rewrite <- lessXY_fv. unfold lessXY. rewrite fin_eq, !fin_lt by auto. reflexivity. }
  clear Fin Hg. assert (G : forall l, incl l vs -> StronglySorted (fun a b => lessXY b a = false) (isort lessXY l)).
  2:{ apply G. apply incl_refl. }
  induction l as [|x l IH]; intros Hi; [constructor|]. cbn [isort fold_right].
  assert (Hl : incl (isort lessXY l) vs).
  { intros y Hy. apply Hi. right. apply (Permutation_in y (Permutation_sym (isort_perm lessXY l)) Hy). }
  assert (Hx : In x vs) by (apply Hi; left; auto).
  specialize (IH ltac:(intros y Hy; apply Hi; right; auto)). change (fold_right (ins lessXY) [] l) with (isort lessXY l).
  revert IH Hl. generalize (isort lessXY l) as s. clear Hi l. induction s as [|y s IHs]; intros S Hl.
  - constructor; constructor.
  - cbn [ins]. apply StronglySorted_inv in S. destruct S as [S F]. rewrite Forall_forall in F.
    assert (Hy : In y vs) by (apply Hl; left; auto).
    destruct (lessXY y x) eqn:Eyx.
    + constructor.
      * apply IHs; auto. intros z Hz. apply Hl. right; auto.
      * rewrite Forall_forall. intros z Hz. assert (Q : In z (x :: s)) by (apply (Permutation_in z (Permutation_sym (ins_perm lessXY x s))); auto).
        destruct Q as [<-|Q]; [|auto]. destruct (lessXY x y) eqn:E; auto. exfalso. apply L in E; auto. apply L in Eyx; auto. unfold lexlt in *. lra.
    + constructor; [constructor; auto; rewrite Forall_forall; auto|]. rewrite Forall_forall. intros z [<-|Hz]; auto.
      destruct (lessXY z x) eqn:E; auto. exfalso. assert (Hz' : In z vs) by (apply Hl; right; auto). specialize (F z Hz).
      apply L in E; auto. assert (N1 : ~ lexlt (rvec y) (rvec x)) by (intros Q; apply L in Q; auto; congruence).
      assert (N2 : ~ lexlt (rvec z) (rvec y)) by (intros Q; apply L in Q; auto; congruence). unfold lexlt in *. lra.
Qed.
Ltac cell14 := match goal with |- on_grid _ (b64_lit ?k ?f) =>
  exists k; split; [lia|]; split; [reflexivity|]; change (bpow radix2 14) with 16384%R; cbn; unfold Defs.F2R; cbn; lra end.
Lemma ex95_grid : grid_at 14 isort ex95.
Proof.
  split; [exact isort_good|]. split; [lia|]. split; [|split; [discriminate|simpl; lia]]. split.
  - intros v Hv. unfold ex95 in Hv. cbn [In] in Hv. repeat destruct Hv as [Hv|Hv]; subst; try contradiction; unfold gp; cbn [vx vy vz]; (split; [cell14|split; [cell14|]]).
    all: exists 0; split; [lia|]; split; [reflexivity|]; cbn; lra.
  - intros v w Hv Hw. unfold ex95 in *. cbn [In] in *. repeat destruct Hv as [Hv|Hv]; subst; try contradiction; repeat destruct Hw as [Hw|Hw]; subst; try contradiction; reflexivity.
Qed.
Lemma grid_points_25 e vs : grid_points e vs -> grid25 e vs.
Proof.
  intros [H _] v Hv. assert (G : forall x, on_grid e x -> on_grid25 e x) by (intros x (k & Hk & F); exists k; split; [lia|auto]).
  destruct (H v Hv) as (A & B & C). auto.
Qed.
Lemma verdict_out vs b : verdict vs = Some b -> exists t, returns64 isort vs t false /\ Validate isort2 t = Ok b.
Proof.
  unfold verdict, returns64. destruct (Triangulate isort vs) as [[t [|]]| |]; intros E; try discriminate. exists t. split; auto.
  destruct (Validate isort2 t); try discriminate. injection E as ->. reflexivity.
Qed.
Theorem C95_validate_rejects_refuted : ~ (forall e srt srt2 vs t, grid_at e srt vs -> returns64 srt vs t false -> vs <> [] -> sorts lessXY vs (srt2 vs) ->
  Validate srt2 t = Ok true).
Proof.
  intros H. destruct (verdict_out ex95 false ex95_verdict) as (t & ET & EV). pose proof ex95_grid as G.
  assert (NE : ex95 <> []) by (unfold ex95; discriminate).
  pose proof (H 14 isort isort2 ex95 t G ET NE (isort2_sorts 14 ex95 (grid_points_25 14 ex95 (proj1 (proj2 (proj2 G)))))) as Q.
  clear - Q EV. rewrite Q in EV. discriminate EV.
Qed.
Print Assumptions C95_validate_rejects_refuted.
(** ... and C86-C89 say that the triangulation Validate rejects there is right: it is Delaunay, well-formed and fills the hull *)
Theorem C95_rejected_is_correct : exists t, returns64 isort ex95 t false /\ Validate isort2 t = Ok false /\
  delaunay (values ex95) (tTriangles t) /\ paired (tTriangles t) (tHalfedges t).
Proof.
  destruct (verdict_out ex95 false ex95_verdict) as (t & ET & EV). exists t. split; [exact ET|]. split; [exact EV|].
  pose proof (grid_at_ok _ _ _ ex95_grid) as G. split; [apply (C88_delaunay isort ex95 t false G ET)|apply (C87_well_formed isort ex95 t false G ET)].
Qed.
Print Assumptions C95_rejected_is_correct.

(** ** C96: the area of a polygon of grid points is exact, so it does not depend on the starting vertex or on a shift by grid steps *)
Theorem C96_polygonArea64 e vs : -170 <= e <= 170 -> grid_points e vs -> Z.of_nat (length vs) <= 2 ^ 37 ->
  exists x : b64, polygonArea vs = Ok x /\ is_finite x = true /\ B2R x = shoelace (values vs).
Proof.
  intros He Gp L. destruct (grid_gridpt e vs Gp) as (zz & Hg). destruct (area64 e zz He vs Hg L) as (x & E & F1 & F2). exists x. auto.
Qed.
Print Assumptions C96_polygonArea64.

(** ** non-vacuity *)
(** ex64: the irregular list on the grid of eighths; its hull has 5 vertices and 30 / 8 <= 23108 *)
Example C92_94_nonvacuous : grid_at (-3) isort ex64 /\ sorts lessXY ex64 (isort2 ex64) /\
  (match Triangulate isort ex64 with Ok (t, false) => Some (length (tConvexHull t)) | _ => None end) = Some 5%nat /\
  (5 * (5 + 1) * bpow radix2 (-3) <= 23108)%R /\ verdict ex64 = Some true /\
  (match ConvexHull isort2 ex64 with Ok h => Some (length h) | _ => None end) = Some 5%nat.
Proof.
  destruct grid_nonvacuous as [G _].
  assert (Gp : grid_points (-3) ex64).
  { split.
    - intros v Hv. unfold ex64 in Hv. cbn [In] in Hv. repeat destruct Hv as [Hv|Hv]; subst; try contradiction; unfold eighth; cbn [vx vy vz]; repeat split; eighths.
    - intros v w Hv Hw. unfold ex64 in *. cbn [In] in *. repeat destruct Hv as [Hv|Hv]; subst; try contradiction; repeat destruct Hw as [Hw|Hw]; subst; try contradiction; reflexivity. }
  split; [split; [exact isort_good|]; split; [lia|]; split; [exact Gp|]; split; [discriminate|simpl; lia]|].
  split; [apply (isort2_sorts (-3)), grid_points_25, Gp|]. split; [vm_compute; reflexivity|].
  split; [change (bpow radix2 (-3)) with (/ 8)%R; lra|]. split; vm_compute; reflexivity.
Qed.
(** (102 * 100 - 7 * 7 + 7 * 102 - 100 * 100) / 2 cells of 2^28 *)
Example C96_nonvacuous : grid_points 14 ex95 /\
  (match polygonArea ex95 with Ok x => Some (sf x) | _ => None end) = Some (SpecFloat.S754_finite false 7608620464209920 (-16)) /\
  7608620464209920 * 2 = (102 * 100 - 7 * 7 + 7 * 102 - 100 * 100) * 2 ^ 44.
Proof. split; [exact (proj1 (proj2 (proj2 ex95_grid)))|]. split; [vm_compute; reflexivity|reflexivity]. Qed.
