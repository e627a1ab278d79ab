(** Property theorems C16-C24: what Triangulate returns on points of one horizontal plane, in exact
    arithmetic, for every correct sort. *)
From Coq Require Import ZArith Lia List Bool Reals Lra Permutation Sorted.
From Verif Require Import Base Arith GoLoop M_r3 M_tri2 M_triangulator Spec_r3 Spec_plane Spec_halfedge Spec_delaunay XRvec P_tri2
  P_halfedge P_tstate P_ring P_insert P_seed P_init P_flipterm P_triang P_result.
Import ListNotations.
Open Scope Z_scope.

(** The common hypotheses: a sort that sorts, one plane, not exactly one point, a slice length. *)
Definition input_ok (srt : (Z -> Z -> bool) -> list Z -> list Z) (pts : list rv) : Prop :=
  good_sort srt /\ planar pts /\ length pts <> 1%nat /\ Z.of_nat (length pts) < 2 ^ 63.
(** [returns srt pts t err]: Triangulate returns t and err (true: not nil) *)
Definition returns srt (pts : list rv) (t : Triangulation XR) (err : bool) : Prop :=
  Triangulate srt (map fv pts) = Ok (t, err).

Lemma master srt pts : input_ok srt pts -> exists t err, returns srt pts t err /\ tVectors t = map fv pts /\
  ((length pts = 0%nat \/ on_a_line pts) /\ (err = true <-> (2 <= length pts)%nat) /\
     tTriangles t = [] /\ tHalfedges t = [] /\ tConvexHull t = []
   \/ ~ on_a_line pts /\ err = false /\ exists s V R i0 i1 i2 I,
      rest pts i0 i1 i2 (hsize pts) s V R /\ tTriangles t = T_ s /\ tHalfedges t = H_ s /\ tConvexHull t = map (fun i => fv (PP pts i)) I /\
      boundary (T_ s) (H_ s) I /\ length I = length R /\ (forall v, In v I -> In v V) /\
      (forall u v, In (u, v) (polygon_edges I) <-> In (v, u) (polygon_edges R)) /\
      forall i, 0 <= i < Ln pts -> exists v, In v V /\ (rdist2 (PP pts i) (PP pts v) < epsR)%R).
Proof.
  intros (GS & Pl & L1 & Big). unfold returns, Triangulate.
  destruct (triangulate_planar srt pts GS Pl L1 Big) as [(-> & E)|[(N2 & OL & E)|(NL & s & V & R & i0 & i1 & i2 & E & RS & Cov)]].
  - rewrite E. do 2 eexists. split; [reflexivity|]. split; [reflexivity|]. left. split; [auto|]. split; [split; [discriminate|simpl; lia]|]. auto.
  - rewrite E. do 2 eexists. split; [reflexivity|]. split; [reflexivity|]. left. split; [auto|]. split; [split; auto; intros _; lia|]. auto.
  - rewrite E. cbn [rbind].
    rewrite hull_cut.
    destruct (res_hull pts i0 i1 i2 (hsize pts) s V R RS (map fv pts) (map_length _ _)) as (I & EH & Bd & LI & IV & IE). rewrite EH.
    rewrite (map_ext _ _ (vat_PP pts)). cbn [rbind].
    do 2 eexists. split; [reflexivity|]. split; [reflexivity|]. right. split; [exact NL|]. split; [reflexivity|].
    exists s, V, R, i0, i1, i2, I. repeat (split; [solve [auto|reflexivity]|]). auto.
Qed.
(** the result is unique, so a statement about some result is a statement about the result *)
Lemma returns_fun srt pts t err t' err' : returns srt pts t err -> returns srt pts t' err' -> t = t' /\ err = err'.
Proof. unfold returns. intros H H'. rewrite H in H'. injection H' as <- <-. auto. Qed.
Ltac result H t err :=
  let t' := fresh "t'" in let err' := fresh "err'" in let Rt := fresh "Rt" in let E1 := fresh "E1" in let E2 := fresh "E2" in
  match goal with Ret : returns ?srt ?pts t err |- _ =>
    destruct (master srt pts H) as (t' & err' & Rt & TP & D); destruct (returns_fun _ _ _ _ _ _ Ret Rt) as [E1 E2];
    subst t' err'; clear Rt
  end.

(** ** C16 *)
Theorem C16_returns srt pts : input_ok srt pts -> exists t err, returns srt pts t err /\ tVectors t = map fv pts.
Proof. intros H. destruct (master srt pts H) as (t & err & Rt & TP & _). eauto. Qed.
Print Assumptions C16_returns.

(** ** C17 *)
Theorem C17_error_iff_collinear srt pts t err : input_ok srt pts -> returns srt pts t err -> (2 <= length pts)%nat ->
  (err = true <-> on_a_line pts) /\ (err = true -> tTriangles t = [] /\ tConvexHull t = []) /\ (err = false -> tTriangles t <> []).
Proof.
  intros H Ret N2. result H t err. destruct D as [(O & Er & T0 & H0 & C0)|(NL & -> & s & V & R & i0 & i1 & i2 & I & RS & ET & EH & EC & Bd & LI & IV & IE & Cov)].
  - destruct O as [O|O]; [lia|]. assert (err = true) as -> by (apply Er; auto). repeat split; auto; discriminate.
  - split; [|split]; [split; [discriminate|contradiction]|discriminate|]. intros _ E. rewrite ET in E.
    pose proof (len_T pts i0 i1 i2 _ s V R RS) as LT. rewrite E in LT. simpl in LT.
    destruct (Cov 0 ltac:(lia)) as (v & Hv & _). apply (In_T pts i0 i1 i2 _ s V R RS) in Hv. rewrite E in Hv. exact Hv.
Qed.
Print Assumptions C17_error_iff_collinear.

(** ** C18 *)
Lemma paired_nil : paired [] [].
Proof. constructor; [reflexivity|exists 0%nat; reflexivity| |]; simpl; intros e He; lia. Qed.
Theorem C18_paired srt pts t err : input_ok srt pts -> returns srt pts t err -> paired (tTriangles t) (tHalfedges t).
Proof.
  intros H Ret. result H t err. destruct D as [(O & Er & T0 & H0 & C0)|(NL & -> & s & V & R & i0 & i1 & i2 & I & RS & ET & EH & EC & Bd & LI & IV & IE & Cov)].
  - rewrite T0, H0. apply paired_nil.
  - rewrite ET, EH. apply (res_paired pts i0 i1 i2 _ s V R RS).
Qed.
Print Assumptions C18_paired.

(** ** C19 *)
Theorem C19_well_formed srt pts t err : input_ok srt pts -> returns srt pts t err ->
  length (tHalfedges t) = length (tTriangles t) /\ (exists k, length (tTriangles t) = (3 * k)%nat) /\
  (forall v, In v (tTriangles t) -> 0 <= v < Z.of_nat (length pts)) /\
  (forall c, In c (triples (tTriangles t)) -> (0 < area3 pts c)%R) /\
  (forall u v, In u (tTriangles t) -> In v (tTriangles t) -> samexy (point pts u) (point pts v) -> u = v).
Proof.
  intros H Ret. result H t err. destruct D as [(O & Er & T0 & H0 & C0)|(NL & -> & s & V & R & i0 & i1 & i2 & I & RS & ET & EH & EC & Bd & LI & IV & IE & Cov)].
  - rewrite T0, H0. split; [reflexivity|]. split; [exists 0%nat; reflexivity|]. split; [intros v []|]. split; [intros c []|intros u v []].
  - rewrite ET, EH. split; [apply (len_H pts i0 i1 i2 _ s V R RS)|]. split; [apply (pr_whole _ _ (res_paired pts i0 i1 i2 _ s V R RS))|].
    split; [apply (res_range pts i0 i1 i2 _ s V R RS)|]. split; [apply (res_oriented pts i0 i1 i2 _ s V R RS)|].
    intros u v Hu Hv. rewrite !point_PP by (apply (res_range pts i0 i1 i2 _ s V R RS); auto).
    apply (In_T pts i0 i1 i2 _ s V R RS) in Hu, Hv. apply (r_dist _ _ _ _ _ _ _ _ RS); auto.
Qed.
Print Assumptions C19_well_formed.

(** ** C20 *)
Theorem C20_delaunay srt pts t err : input_ok srt pts -> returns srt pts t err -> delaunay pts (tTriangles t).
Proof.
  intros H Ret. result H t err. destruct D as [(O & Er & T0 & H0 & C0)|(NL & -> & s & V & R & i0 & i1 & i2 & I & RS & ET & EH & EC & Bd & LI & IV & IE & Cov)].
  - rewrite T0. intros a b c [].
  - rewrite ET. apply (res_delaunay pts i0 i1 i2 _ s V R RS).
Qed.
Print Assumptions C20_delaunay.

(** ** C21 *)
Theorem C21_hull srt pts t err : input_ok srt pts -> returns srt pts t err -> exists I,
  tConvexHull t = map (fun i => fv (point pts i)) I /\ boundary (tTriangles t) (tHalfedges t) I /\
  encloses (map (point pts) I) (map (point pts) (tTriangles t)) /\ (forall v, In v I -> In v (tTriangles t)).
Proof.
  intros H Ret. result H t err. destruct D as [(O & Er & T0 & H0 & C0)|(NL & -> & s & V & R & i0 & i1 & i2 & I & RS & ET & EH & EC & Bd & LI & IV & IE & Cov)].
  - rewrite T0, H0, C0. exists []. split; [reflexivity|]. split; [|split; [intros e []|intros v []]].
    split; [constructor|]. intros u v. split; [intros []|]. intros (e & He & _). simpl in He. lia.
  - rewrite ET, EH, EC. exists I. split.
    { apply map_ext_in. intros v Hv. rewrite point_PP; auto. apply (r_range _ _ _ _ _ _ _ _ RS); auto. }
    split; [auto|]. split; [apply (hull_encloses pts i0 i1 i2 _ s V R RS); auto|].
    intros v Hv. apply (In_T pts i0 i1 i2 _ s V R RS); auto.
Qed.
Print Assumptions C21_hull.

(** ** C22 *)
Theorem C22_no_point_lost srt pts t : input_ok srt pts -> returns srt pts t false ->
  forall i, 0 <= i < Z.of_nat (length pts) -> exists v, In v (tTriangles t) /\ (rdist2 (point pts i) (point pts v) < epsR)%R.
Proof.
  intros H Ret. result H t false. destruct D as [(O & Er & T0 & H0 & C0)|(NL & _ & s & V & R & i0 & i1 & i2 & I & RS & ET & EH & EC & Bd & LI & IV & IE & Cov)].
  - intros i Hi. destruct Er as [_ Er]. destruct (le_lt_dec 2 (length pts)) as [Q|Q]; [specialize (Er Q); discriminate|].
    destruct H as (_ & _ & L1 & _). lia.
  - intros i Hi. destruct (Cov i Hi) as (v & Hv & D). exists v. split; [rewrite ET; apply (In_T pts i0 i1 i2 _ s V R RS); auto|].
    rewrite !point_PP; auto; [apply (r_range _ _ _ _ _ _ _ _ RS); auto|lia].
Qed.
Print Assumptions C22_no_point_lost.
(** with no two points closer than that, every point is a vertex *)
Theorem C22_every_point srt pts t : input_ok srt pts -> returns srt pts t false ->
  (forall i j, 0 <= i < j -> j < Z.of_nat (length pts) -> (epsR <= rdist2 (point pts i) (point pts j))%R) ->
  forall i, 0 <= i < Z.of_nat (length pts) -> In i (tTriangles t).
Proof.
  intros H Ret Sep i Hi. destruct (C22_no_point_lost srt pts t H Ret i Hi) as (v & Hv & D).
  destruct (C19_well_formed srt pts t false H Ret) as (_ & _ & Rg & _). pose proof (Rg v Hv).
  destruct (Z.lt_total i v) as [Q|[->|Q]]; auto; exfalso.
  - pose proof (Sep i v ltac:(lia) ltac:(lia)). lra.
  - pose proof (Sep v i ltac:(lia) ltac:(lia)). assert (rdist2 (point pts i) (point pts v) = rdist2 (point pts v) (point pts i)) by (unfold rdist2, rdot, rsub; cbn [rx ry rz]; ring). lra.
Qed.
Print Assumptions C22_every_point.

(** ** C23 *)
Theorem C23_counts srt pts t : input_ok srt pts -> returns srt pts t false -> pts <> [] ->
  Z.of_nat (length (triples (tTriangles t))) =
    2 * Z.of_nat (length (nodup Z.eq_dec (tTriangles t))) - 2 - Z.of_nat (length (tConvexHull t)) /\
  Z.of_nat (length (triples (tTriangles t))) <= 2 * Z.of_nat (length pts) - 5.
Proof.
  intros H Ret NE. result H t false. destruct D as [(O & Er & T0 & H0 & C0)|(NL & _ & s & V & R & i0 & i1 & i2 & I & RS & ET & EH & EC & Bd & LI & IV & IE & Cov)].
  - destruct Er as [_ Er]. destruct (le_lt_dec 2 (length pts)) as [Q|Q]; [specialize (Er Q); discriminate|].
    destruct H as (_ & _ & L1 & _). destruct pts; [contradiction|]. simpl in *. lia.
  - rewrite ET, EC, map_length, LI. apply (res_count pts i0 i1 i2 _ s V R RS).
Qed.
Print Assumptions C23_counts.

(** ** C24 *)
Theorem C24_areas srt pts t err : input_ok srt pts -> returns srt pts t err -> exists I,
  tConvexHull t = map (fun i => fv (point pts i)) I /\
  Spec_plane.Rsum (map (area3 pts) (triples (tTriangles t))) = shoelace (map (point pts) I).
Proof.
  intros H Ret. result H t err. destruct D as [(O & Er & T0 & H0 & C0)|(NL & -> & s & V & R & i0 & i1 & i2 & I & RS & ET & EH & EC & Bd & LI & IV & IE & Cov)].
  - rewrite T0, C0. exists []. split; [reflexivity|]. unfold shoelace. simpl. lra.
  - rewrite ET, EC. exists I. split.
    { apply map_ext_in. intros v Hv. rewrite point_PP; auto. apply (r_range _ _ _ _ _ _ _ _ RS); auto. }
    apply (res_area pts i0 i1 i2 _ s V R RS); auto. apply Bd.
Qed.
Print Assumptions C24_areas.

(** ** non-vacuity: a square with its centre, a repeated point and one nearby *)
Definition ex_pts : list rv := [RV 0 0 3; RV 4 0 3; RV 0 4 3; RV 4 4 3; RV 2 2 3; RV 4 0 3; RV 1 3 3].
Example input_nonvacuous : input_ok isort ex_pts /\ ~ on_a_line ex_pts /\
  input_ok isort [RV 0 0 0; RV 1 1 0; RV 3 3 0] /\ on_a_line [RV 0 0 0; RV 1 1 0; RV 3 3 0].
Proof.
  split; [|split; [|split]].
  - split; [exact isort_good|]. split; [|split; [discriminate|simpl; lia]].
    intros a b Ha Hb. cbn in Ha, Hb. decompose [or] Ha; decompose [or] Hb; subst; try contradiction; reflexivity.
  - intros (nx & ny & k & NZ & O). pose proof (O (RV 0 0 3) ltac:(cbn; auto)) as A. pose proof (O (RV 4 0 3) ltac:(cbn; auto)) as B.
    pose proof (O (RV 0 4 3) ltac:(cbn; auto)) as C. cbn in A, B, C. lra.
  - split; [exact isort_good|]. split; [|split; [discriminate|simpl; lia]].
    intros a b Ha Hb. cbn in Ha, Hb. decompose [or] Ha; decompose [or] Hb; subst; try contradiction; reflexivity.
  - exists 1%R, (-1)%R, 0%R. split; [lra|]. intros p Hp. cbn in Hp. decompose [or] Hp; subst; try contradiction; cbn; lra.
Qed.
Example C16_24_nonvacuous : exists t, returns isort ex_pts t false /\ tTriangles t <> [] /\ tConvexHull t <> [].
Proof.
  destruct input_nonvacuous as (H & NL & _). destruct (C16_returns isort ex_pts H) as (t & err & Ret & _).
  destruct (C17_error_iff_collinear isort ex_pts t err H Ret ltac:(simpl; lia)) as (E & _ & NT).
  destruct err; [exfalso; apply NL, E; auto|]. exists t. split; auto. split; auto. intros E0.
  destruct (C21_hull isort ex_pts t false H Ret) as (I & EI & _).
  destruct (C24_areas isort ex_pts t false H Ret) as (J & EJ & A). rewrite E0 in EJ. destruct J; [|discriminate].
  destruct (C19_well_formed isort ex_pts t false H Ret) as (_ & (k & K) & _ & P & _).
  assert (Pos : forall l, (forall c, In c l -> (0 < area3 ex_pts c)%R) -> l <> [] -> (0 < Spec_plane.Rsum (map (area3 ex_pts) l))%R).
  { induction l as [|c l IH]; intros Q N; [contradiction|]. cbn [map Spec_plane.Rsum]. assert (0 < area3 ex_pts c)%R by (apply Q; simpl; auto).
    destruct l as [|c' l]; [simpl in *; lra|]. assert (0 < Spec_plane.Rsum (map (area3 ex_pts) (c' :: l)))%R by (apply IH; [intros; apply Q; simpl; auto|discriminate]). lra. }
  assert (NE : triples (tTriangles t) <> []).
  { specialize (NT eq_refl). intros Q. pose proof (triples_length _ _ K) as W. rewrite Q in W. simpl in W. subst k. destruct (tTriangles t); [contradiction|discriminate]. }
  pose proof (Pos _ P NE) as Q. rewrite A in Q. unfold shoelace in Q. simpl in Q. lra.
Qed.
