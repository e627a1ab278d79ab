(** Property theorems C31 (exact form), C83 and C84: Validate and the two hulls. *)
From Coq Require Import ZArith QArith Qreals Lia List Bool Reals Lra Permutation Sorted.
From Verif Require Import Base Arith M_r3 M_tri2 M_triangulator Spec_r3 Spec_plane Spec_halfedge Spec_delaunay XRvec P_tri2 P_delgeom P_polygon P_hull
  P_leg P_legmodel P_addtri P_ringops P_insstep P_ring P_insert P_init P_triang P_result P_tile P_tiling P_hullsame P_validate P_flipterm Props_triangulator Props_tiling.
Import ListNotations.
Open Scope Z_scope.

(** ** C31, exact arithmetic: what Validate accepts *)
Theorem C31_validate_exact srt pts h h2 T H k :
  length T = (3 * k)%nat -> (forall v, In v T -> 0 <= v < Z.of_nat (length pts)) ->
  ConvexHull srt (map fv pts) = Ok (map fv h2) ->
  (Validate srt (mkTriangulation (map fv pts) (map fv h) T H) = Ok true <->
   (forall i j, nth_error H i = Some j -> j <> -1 -> 0 <= j /\ nth_error H (Z.to_nat j) = Some (Z.of_nat i)) /\
   (Rabs (shoelace h - shoelace h2) <= 1 / 1000000000 /\
    Rabs (shoelace h - Spec_plane.Rsum (map (area3 pts) (triples T))) <= 1 / 1000000000 /\
    Rabs (perimeter3 h - perimeter3 h2) <= 1 / 1000000000)%R).
Proof. exact (validate_exact srt pts h h2 T H k). Qed.
Print Assumptions C31_validate_exact.

(** two points of one half-edge walk *)
Lemma lex_dt u v p : (lexlt u p /\ lexlt p v) \/ (lexlt v p /\ lexlt p u) -> ar u v p = 0%R -> (dt p u v < 0)%R.
Proof.
  intros B C. assert (E1 : ((rx p - rx u) * (ry p - ry v) = (ry p - ry u) * (rx p - rx v))%R) by (revert C; geo; lra).
  unfold dt.
  assert (Px : forall a b, (0 < a -> b < 0 -> a * b < 0)%R).
  { intros a b A Q. assert (0 < a * - b)%R by (apply Rmult_lt_0_compat; lra). lra. }
  assert (Nx : forall a b, (a < 0 -> 0 < b -> a * b < 0)%R).
  { intros a b A Q. assert (0 < - a * b)%R by (apply Rmult_lt_0_compat; lra). lra. }
  assert (W : forall a b c d, (a * d = c * b -> 0 < a -> b < 0 -> c * d <= 0)%R).
  { intros a b c d E A B0. destruct (Rle_lt_dec (c * d) 0) as [|Q]; auto. exfalso.
    assert (0 < (c * d) * (a * - b))%R by (apply Rmult_lt_0_compat; auto; apply Rmult_lt_0_compat; lra).
    assert (((c * d) * (a * - b) = - ((a * d) * (c * b)))%R) as F by ring. rewrite E in F.
    assert (0 <= (c * b) * (c * b))%R by apply Rle_0_sqr. lra. }
  destruct B as [[[B1|[B1 B1']] [B2|[B2 B2']]]|[[B1|[B1 B1']] [B2|[B2 B2']]]].
  - pose proof (Px (rx p - rx u)%R (rx p - rx v)%R ltac:(lra) ltac:(lra)).
    pose proof (W (rx p - rx u)%R (rx p - rx v)%R (ry p - ry u)%R (ry p - ry v)%R E1 ltac:(lra) ltac:(lra)). lra.
  - exfalso. rewrite B2 in E1. assert (Z : ((rx v - rx u) * (ry p - ry v) = 0)%R) by lra. apply Rmult_integral in Z. lra.
  - exfalso. rewrite B1 in E1. assert (Z : ((ry p - ry u) * (rx p - rx v) = 0)%R) by lra. apply Rmult_integral in Z. lra.
  - pose proof (Px (ry p - ry u)%R (ry p - ry v)%R ltac:(lra) ltac:(lra)). rewrite B2. replace (rx v - rx v)%R with 0%R by ring. lra.
  - pose proof (Nx (rx p - rx u)%R (rx p - rx v)%R ltac:(lra) ltac:(lra)).
    pose proof (W (rx p - rx v)%R (rx p - rx u)%R (ry p - ry v)%R (ry p - ry u)%R ltac:(lra) ltac:(lra) ltac:(lra)). lra.
  - exfalso. rewrite B2 in E1. assert (Z : ((ry p - ry u) * (rx u - rx v) = 0)%R) by lra. apply Rmult_integral in Z. lra.
  - exfalso. rewrite <- B1 in E1. assert (Z : ((rx v - rx u) * (ry p - ry v) = 0)%R) by lra. apply Rmult_integral in Z. lra.
  - pose proof (Nx (ry p - ry u)%R (ry p - ry v)%R ltac:(lra) ltac:(lra)). rewrite <- B1. replace (rx v - rx v)%R with 0%R by ring. lra.
Qed.

Definition sorts_xy (srt2 : list (vec XR) -> list (vec XR)) (pts : list rv) : Prop := sorts lessXY (map fv pts) (srt2 (map fv pts)).

(** ** C83: the triangulation's ConvexHull is ConvexHull(points), up to where the list starts *)
Theorem C83_hulls_agree srt srt2 pts t : input_ok srt pts -> returns srt pts t false -> pts <> [] -> separated pts -> sorts_xy srt2 pts ->
  exists h1 h2, tConvexHull t = h1 ++ h2 /\ ConvexHull srt2 (map fv pts) = Ok (h2 ++ h1).
Proof.
  intros H Ret NE Sep Srt. pose proof (C22_no_point_lost srt pts t H Ret) as Lost. pose proof (C19_well_formed srt pts t false H Ret) as (_ & _ & Rg & Or & Ds).
  pose proof (C18_paired srt pts t false H Ret) as Pd.
  assert (N2 : (2 <= length pts)%nat).
  { destruct H as (_ & _ & L1 & _). destruct pts as [|a [|b l]]; [contradiction|contradiction|simpl; lia]. }
  pose proof (proj2 (proj2 (C17_error_iff_collinear srt pts t false H Ret N2)) eq_refl) as NT.
  result H t false. destruct D as [(O & Er & T0 & H0 & C0)|(NL & _ & s & V & R & i0 & i1 & i2 & I & RS & ET & EH & EC & Bd & LI & IV & IE & Cov)].
  { contradiction. }
  assert (IT : forall v, In v I -> In v (tTriangles t)).
  { intros v Hv. rewrite ET. apply (In_T pts i0 i1 i2 _ s V R RS); auto. }
  assert (EI : tConvexHull t = map fv (map (point pts) I)).
  { rewrite EC, map_map. apply map_ext_in. intros v Hv. rewrite point_PP; auto. apply (r_range _ _ _ _ _ _ _ _ RS); auto. }
  assert (Pin : forall v, In v (tTriangles t) -> In (point pts v) pts).
  { intros v Hv. apply nth_In. specialize (Rg v Hv). lia. }
  assert (All : forall q, In q pts -> exists v, In v (tTriangles t) /\ q = point pts v).
  { intros q Hq. destruct (In_nth pts q (RV 0 0 0) Hq) as (i & Hi & E).
    destruct (Lost (Z.of_nat i) ltac:(lia)) as (v & Hv & Dv). unfold point in Dv at 1. rewrite Nat2Z.id, E in Dv.
    exists v. split; auto. destruct (rv_eq_dec q (point pts v)) as [|Q]; auto. exfalso.
    destruct (Sep q (point pts v) Hq (Pin v Hv) Q). lra. }
  rewrite EI. destruct (ConvexHull_walk srt2 pts (map (point pts) I)) as (h1 & h2 & E1 & E2); auto.
  - (* not all on a line *)
    destruct (pr_whole _ _ Pd) as ([|k] & Hk); [destruct (tTriangles t); [contradiction|discriminate]|].
    destruct (tTriangles t) as [|a [|b [|c l]]] eqn:ETt; simpl in Hk; try lia.
    exists (point pts a), (point pts b), (point pts c). pose proof (Or (a, b, c) ltac:(left; auto)) as A. unfold area3 in A.
    repeat split; try (apply Pin; simpl; auto). lra.
  - (* NoDup *)
    destruct Bd as [NDI _].
    assert (G : forall l, (forall v, In v l -> In v (tTriangles t)) -> NoDup l -> NoDup (map (point pts) l)).
    { clear - Ds. induction l as [|v l IH]; intros Hl ND; [constructor|]. apply NoDup_cons_iff in ND. destruct ND as [N ND]. cbn [map]. constructor.
      - intros Q. apply in_map_iff in Q. destruct Q as (w & E & Hw). apply N. rewrite (Ds v w); auto; [apply Hl; simpl; auto|apply Hl; simpl; auto|].
        rewrite E. split; auto.
      - apply IH; auto. intros; apply Hl; simpl; auto. }
    apply G; auto.
  - (* not empty *)
    destruct I as [|v I]; [|discriminate]. exfalso. destruct R as [|r R].
    + destruct (w_hull _ _ (r_wfs _ _ _ _ _ _ _ _ RS)) as (x & _ & []).
    + discriminate LI.
  - (* supporting edges *)
    intros e He. rewrite pe_map in He. apply in_map_iff in He. destruct He as ([u v] & <- & He). cbn [fst snd].
    destruct (pe_In _ _ _ He) as [Iu Iv]. assert (Hvu : In (v, u) (polygon_edges R)) by (apply IE; auto).
    assert (Ru : 0 <= u < Z.of_nat (length pts)) by (apply Rg, IT; auto). assert (Rv : 0 <= v < Z.of_nat (length pts)) by (apply Rg, IT; auto).
    destruct (ring_triangle pts i0 i1 i2 _ s V R RS v u Hvu) as (w & Ow & Cw).
    repeat split.
    + apply Pin, IT; auto.
    + apply Pin, IT; auto.
    + intros [S1 S2]. rewrite !point_PP in S1, S2 by lia. revert Ow. geo. rewrite S1, S2. lra.
    + intros q Hq. destruct (All q Hq) as (x & Hx & ->). rewrite ET in Hx. pose proof Hx as Hx2. apply (In_T pts i0 i1 i2 _ s V R RS) in Hx.
      pose proof (ring_left pts i0 i1 i2 _ s V R RS v u x Hvu Hx) as Q. rewrite !point_PP by (try lia; apply (r_range _ _ _ _ _ _ _ _ RS); auto).
      revert Q. geo. lra.
    + intros q Hq Cz Bt. destruct (All q Hq) as (x & Hx & ->). rewrite ET in Hx. apply (In_T pts i0 i1 i2 _ s V R RS) in Hx.
      rewrite !point_PP in Cz by (try lia; apply (r_range _ _ _ _ _ _ _ _ RS); auto). unfold between in Bt. rewrite !point_PP in Bt by (try lia; apply (r_range _ _ _ _ _ _ _ _ RS); auto).
      pose proof (Cw x Hx) as Q. rewrite incirc_pencil in Q.
      assert (A0 : ar (PP pts v) (PP pts u) (PP pts x) = 0%R) by (revert Cz; geo; lra). rewrite A0 in Q.
      assert (Dn : (dt (PP pts x) (PP pts v) (PP pts u) < 0)%R) by (apply lex_dt; auto; tauto).
      assert (0 < ar (PP pts v) (PP pts u) (PP pts w) * - dt (PP pts x) (PP pts v) (PP pts u))%R by (apply Rmult_lt_0_compat; lra). lra.
  - exists (map fv h1), (map fv h2). rewrite E1, map_app. split; auto. rewrite E2, map_app. reflexivity.
Qed.
Print Assumptions C83_hulls_agree.

(** ** C84: Validate accepts what Triangulate returns *)
Theorem C84_validate_accepts srt srt2 pts t : input_ok srt pts -> returns srt pts t false -> pts <> [] -> separated pts -> sorts_xy srt2 pts ->
  Validate srt2 t = Ok true.
Proof.
  intros H Ret NE Sep Srt. destruct (C83_hulls_agree srt srt2 pts t H Ret NE Sep Srt) as (g1 & g2 & Eh & Ec).
  pose proof (C19_well_formed srt pts t false H Ret) as (_ & (k & Hk) & Rg & _). pose proof (C18_paired srt pts t false H Ret) as Pd.
  destruct (C24_areas srt pts t false H Ret) as (I & EI & EA).
  assert (TV : tVectors t = map fv pts).
  { destruct (C16_returns srt pts H) as (t' & err' & Ret' & TV). destruct (returns_fun _ _ _ _ _ _ Ret Ret') as [<- _]. auto. }
  assert (Sp : exists h1 h2, map (point pts) I = h1 ++ h2 /\ g1 = map fv h1 /\ g2 = map fv h2).
  { rewrite EI in Eh. rewrite <- map_map in Eh. apply map_eq_app in Eh. destruct Eh as (h1 & h2 & A & B & C). exists h1, h2. auto. }
  destruct Sp as (h1 & h2 & E1 & -> & ->). rewrite <- map_app in Ec, Eh.
  destruct t as [v c T Hf]. cbn [tVectors tConvexHull tTriangles tHalfedges] in *. subst v c.
  apply (validate_exact srt2 pts (h1 ++ h2) (h2 ++ h1) T Hf k); auto.
  rewrite (shoelace_rot h1 h2), (perimeter_rot h1 h2). rewrite <- (shoelace_rot h1 h2), EA, E1. rewrite (shoelace_rot h1 h2).
  unfold Rminus. rewrite !Rplus_opp_r, Rabs_R0. unfold tolR. split; [|repeat split; lra].
  intros i j Hi Hj. assert (Bi : (i < length Hf)%nat) by (apply nth_error_Some; congruence). rewrite (pr_len _ _ Pd) in Bi.
  assert (Ei : entry Hf (Z.of_nat i) = j) by (unfold entry; rewrite Nat2Z.id; apply nth_error_nth; auto).
  destruct (pr_twin _ _ Pd (Z.of_nat i) ltac:(lia)) as [Q|(Q1 & Q2 & _)]; [rewrite Ei in Q; contradiction|].
  rewrite Ei in Q1, Q2. split; [lia|]. unfold entry in Q2. rewrite <- Q2. apply nth_error_nth'. rewrite (pr_len _ _ Pd). lia.
Qed.
Print Assumptions C84_validate_accepts.
Lemma Rsum_ge_term f (l : list (rv * rv)) e : (forall x, (0 <= f x)%R) -> In e l -> (f e <= Spec_plane.Rsum (map f l))%R.
Proof.
  intros F. assert (N : forall l, (0 <= Spec_plane.Rsum (map f l))%R).
  { clear l. induction l as [|x l IH]; cbn [map Spec_plane.Rsum]; [lra|]. specialize (F x). lra. }
  induction l as [|x l IH]; intros []; cbn [map Spec_plane.Rsum].
  - subst. specialize (N l). lra.
  - specialize (IH H). specialize (F x). lra.
Qed.
Lemma combine_shift_same {T} (l : list T) : forall z x, (forall e, In e (combine (x :: l) (l ++ [z])) -> fst e = snd e) -> forall v, In v (x :: l) -> v = z.
Proof.
  induction l as [|y l IH]; intros z x H v Hv.
  - destruct Hv as [<-|[]]. apply (H (x, z)). left. reflexivity.
  - assert (E : x = y) by (apply (H (x, y)); left; reflexivity). subst y. destruct Hv as [<-|Hv].
    + apply (IH z x); [|left; auto]. intros e He. apply H. right. exact He.
    + apply (IH z x); auto. intros e He. apply H. right. exact He.
Qed.
Lemma real_edge (h : list rv) a b : In a h -> In b h -> a <> b -> exists e, In e (polygon_edges h) /\ fst e <> snd e.
Proof.
  intros Ha Hb N.
  assert (D : forall l : list (rv * rv), (exists e, In e l /\ fst e <> snd e) \/ (forall e, In e l -> fst e = snd e)).
  { induction l as [|e l IH]; [right; intros e []|]. destruct IH as [(x & Q1 & Q2)|Q]; [left; exists x; simpl; auto|].
    destruct (rv_eq_dec (fst e) (snd e)); [right; intros x [<-|]; auto|left; exists e; simpl; auto]. }
  destruct (D (polygon_edges h)) as [Q|Q]; auto. exfalso. destruct h as [|x h]; [destruct Ha|].
  unfold polygon_edges in Q. apply N. rewrite (combine_shift_same h x x Q a Ha), (combine_shift_same h x x Q b Hb). reflexivity.
Qed.
(** when Triangulate reports an error (collinear points) the value it returns does not pass Validate *)
Theorem C84_collinear_rejected srt srt2 pts t : input_ok srt pts -> returns srt pts t true -> separated pts -> sorts_xy srt2 pts ->
  (exists p q, In p pts /\ In q pts /\ p <> q) -> Validate srt2 t = Ok false.
Proof.
  intros H Ret Sep Srt PQ.
  assert (TV : tVectors t = map fv pts).
  { destruct (C16_returns srt pts H) as (t' & err' & Ret' & TV). destruct (returns_fun _ _ _ _ _ _ Ret Ret') as [<- _]. auto. }
  result H t true. destruct D as [(O & Er & T0 & H0 & C0)|(NL & E & _)]; [|discriminate].
  destruct (convex_hull_correct srt2 pts Srt Sep PQ) as (h & Eh & Inc & _ & a & b & Ia & Ib & Nab & _).
  destruct t as [v c T Hf]. cbn [tVectors tConvexHull tTriangles tHalfedges] in *. subst v c T Hf.
  assert (NV : Validate srt2 (mkTriangulation (map fv pts) (map fv []) [] []) <> Ok true).
  { intros Val. apply (validate_exact srt2 pts [] h [] [] 0 eq_refl ltac:(intros ? []) Eh) in Val. destruct Val as (_ & _ & _ & Pr).
    destruct (real_edge h a b Ia Ib Nab) as ([x y] & He & Nxy). cbn [fst snd] in Nxy. destruct (pe_In _ _ _ He) as [Ix Iy].
    assert (L : (rdist x y <= perimeter3 h)%R).
    { apply (Rsum_ge_term (fun e => rdist (fst e) (snd e)) (polygon_edges h) (x, y)); auto. intros e. apply sqrt_pos. }
    destruct (Sep x y (Inc x Ix) (Inc y Iy) Nxy) as [_ D2].
    assert (L2 : (/ 67108864 <= rdist x y)%R).
    { unfold rdist. rewrite <- (sqrt_square (/ 67108864)) by lra. apply sqrt_le_1_alt. unfold epsR in D2. lra. }
    change (perimeter3 []) with 0%R in Pr. rewrite Rminus_0_l, Rabs_Ropp, Rabs_pos_eq in Pr by lra. unfold tolR in Pr. lra. }
  change (@map rv (vec XR) fv []) with (@nil (vec XR)) in NV. revert NV. unfold Validate. cbn [tVectors tConvexHull tTriangles tHalfedges].
  change (validate_halfedges []) with (Ok true). cbn [rbind negb]. rewrite Eh. cbn [rbind].
  change (@nil (vec XR)) with (map fv []). rewrite !polygonArea_shoelace, !polygonPerimeter_spec. cbn [rbind]. rewrite (tri_area_fv pts (map fv []) [] [] 0 eq_refl ltac:(intros ? [])). cbn [rbind].
  repeat match goal with |- context [if ?b then _ else _] => destruct b end; auto; intros Q; exfalso; apply Q; reflexivity.
Qed.
Print Assumptions C84_collinear_rejected.

(** ** non-vacuity: the square with its centre, a repeated point and one near an edge *)
Definition ex_sorted : list rv := [RV 0 0 3; RV 0 4 3; RV 1 3 3; RV 2 2 3; RV 4 0 3; RV 4 0 3; RV 4 4 3].
Lemma sorted_fv l : StronglySorted (fun a b => ~ lexlt b a) l -> StronglySorted (fun a b => lessXY b a = false) (map fv l).
Proof.
  intros G. induction G as [|x l Hs IH Hf]; [constructor|]. simpl. constructor; auto.
  rewrite Forall_forall in *. intros y Hy. apply in_map_iff in Hy. destruct Hy as (z & <- & Hz).
  destruct (lessXY (fv z) (fv x)) eqn:E; auto. apply lessXY_fv in E. exfalso. apply (Hf z Hz E).
Qed.
Example C83_C84_nonvacuous : exists t, input_ok isort ex_pts /\ returns isort ex_pts t false /\ separated ex_pts /\
  sorts_xy (fun _ => map fv ex_sorted) ex_pts /\ tTriangles t <> [] /\ Validate (fun _ => map fv ex_sorted) t = Ok true.
Proof.
  destruct C16_24_nonvacuous as (t & Ret & NT & _). exists t. destruct input_nonvacuous as (H & _).
  assert (Sep : separated ex_pts).
  { intros a b Ha Hb Hne. simpl in Ha, Hb.
    repeat (destruct Ha as [<-|Ha]); try destruct Ha;
    repeat (destruct Hb as [<-|Hb]); try destruct Hb; try congruence;
    (split; [intros [E1 E2]; simpl in *; lra|unfold rdist2, rdot, rsub, epsR; simpl; lra]). }
  assert (So : sorts_xy (fun _ => map fv ex_sorted) ex_pts).
  { split.
    - apply Permutation_map. unfold ex_pts, ex_sorted. constructor.
      transitivity [RV 0 4 3; RV 4 0 3; RV 4 4 3; RV 2 2 3; RV 4 0 3; RV 1 3 3]; [constructor|]. constructor.
      transitivity (RV 1 3 3 :: [RV 4 0 3; RV 4 4 3; RV 2 2 3; RV 4 0 3]); [symmetry; apply (Permutation_cons_append [RV 4 0 3; RV 4 4 3; RV 2 2 3; RV 4 0 3])|].
      constructor. symmetry. apply (Permutation_cons_app [RV 4 0 3; RV 4 4 3] [RV 4 0 3]). constructor.
      apply perm_swap.
    - apply sorted_fv. unfold ex_sorted. repeat constructor; unfold lexlt; simpl; lra. }
  do 5 (split; [assumption|]). apply (C84_validate_accepts isort _ ex_pts t H Ret); auto. discriminate.
Qed.
