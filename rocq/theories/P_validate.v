(** Validate in exact arithmetic, and the hull of a triangulation as the hull of its points. *)
From Coq Require Import ZArith QArith Qreals Lia List Bool Reals Lra Permutation Sorted.
From Verif Require Import Base Arith M_r3 M_tri2 Spec_r3 Spec_plane Spec_halfedge Spec_delaunay XRvec P_tri2 P_polygon P_hull P_ring P_hullsame P_result.
Import ListNotations.
Open Scope R_scope.

(** every half-edge with a twin is the twin of its twin *)
Definition twins (H : list Z) : Prop :=
  forall k h, nth_error H k = Some h -> h <> (-1)%Z -> (0 <= h)%Z /\ nth_error H (Z.to_nat h) = Some (Z.of_nat k).

Lemma validate_loop_complete (hs : list Z) (l : list Z) :
  forall i, (exists pre, hs = pre ++ l /\ i = Z.of_nat (length pre)) ->
  (forall k h, nth_error l k = Some h -> h <> (-1)%Z -> zget hs h = Ok (i + Z.of_nat k)%Z) ->
  range_loop i l true (fun i1 i2 ok =>
    if negb ok then Ok false
    else
      rbind (zget hs i1) (fun h1 =>
      if negb (i1 =? -1)%Z && negb (h1 =? i2)%Z then Ok false
      else if negb (i2 =? -1)%Z then
        rbind (zget hs i2) (fun h2 =>
        if negb (h2 =? i1)%Z then Ok false else Ok true)
      else Ok true)) = Ok true.
Proof.
  induction l as [|x l IH]; intros i (pre & Hp & Hi) H; [reflexivity|]. cbn [range_loop negb].
  assert (Hx : zget hs i = Ok x).
  { subst i. rewrite zget_nat, Hp, nth_error_app2, Nat.sub_diag by lia. reflexivity. }
  rewrite Hx. cbn [rbind]. rewrite Z.eqb_refl. cbn [negb]. rewrite andb_false_r.
  assert (Hnext : exists pre0, hs = pre0 ++ l /\ (i + 1)%Z = Z.of_nat (length pre0)).
  { exists (pre ++ [x]). rewrite <- app_assoc. split; auto. rewrite app_length; simpl; lia. }
  assert (Hl : forall k h, nth_error l k = Some h -> h <> (-1)%Z -> zget hs h = Ok (i + 1 + Z.of_nat k)%Z).
  { intros k h Hk Hh. rewrite (H (S k) h Hk Hh). f_equal. lia. }
  destruct (Z.eqb_spec x (-1)) as [Ex|Ex]; cbn [negb rbind].
  - apply IH; auto.
  - rewrite (H 0%nat x eq_refl Ex). cbn [rbind]. replace (i + Z.of_nat 0)%Z with i by lia. rewrite Z.eqb_refl. cbn [negb rbind]. apply IH; auto.
Qed.
Lemma validate_halfedges_iff H : validate_halfedges H = Ok true <-> twins H.
Proof.
  unfold validate_halfedges, twins. split.
  - intros E k h Hk Hh. apply (validate_loop_sound H H 0 true) in E; [|exists []; split; reflexivity].
    destruct E as [_ E]. specialize (E k h Hk Hh). apply zget_ok in E. simpl in E. exact E.
  - intros T. apply validate_loop_complete; [exists []; split; reflexivity|]. intros k h Hk Hh. apply zget_ok. apply T; auto.
Qed.

Definition in_range {X} (pts : list X) (T : list Z) : Prop := forall v, In v T -> (0 <= v < Z.of_nat (length pts))%Z.
Lemma zget_point pts v : (0 <= v < Z.of_nat (length pts))%Z -> zget (map fv pts) v = Ok (fv (point pts v)).
Proof.
  intros H. apply zget_ok. split; [lia|]. rewrite nth_error_map. unfold point. rewrite (nth_error_nth' pts (RV 0 0 0)) by lia. reflexivity.
Qed.
Lemma tri_area_loop_fv pts : forall k T x, length T = (3 * k)%nat -> in_range pts T ->
  tri_area_loop (map fv pts) T (Fin x) = Ok (Fin (x + 2 * Rsum (map (area3 pts) (triples T)))).
Proof.
  induction k as [|k IH]; intros T x E Rg.
  - destruct T; [|discriminate]. cbn. do 2 f_equal. lra.
  - destruct T as [|a [|b [|c T]]]; simpl in E; try lia. cbn [tri_area_loop].
    rewrite !zget_point by (apply Rg; simpl; auto). cbn [rbind]. rewrite area_fv. cbn [fadd XR xadd].
    rewrite IH; [|lia|intros v Hv; apply Rg; simpl; auto]. cbn [triples map Rsum area3]. do 2 f_equal. lra.
Qed.
Lemma tri_area_fv pts h T H k : length T = (3 * k)%nat -> in_range pts T ->
  tri_area (mkTriangulation (map fv pts) h T H) = Ok (Fin (Rsum (map (area3 pts) (triples T)))).
Proof.
  intros E Rg. unfold tri_area. cbn [tVectors tTriangles]. change (fofZ XR 0) with (Fin 0). rewrite (tri_area_loop_fv pts k) by auto. cbn [rbind].
  cbn [fdiv fofZ XR xdiv]. destruct (Reqb_spec 2 0); [lra|]. do 2 f_equal. field.
Qed.
Definition tolR : R := 1 / 1000000000.
Lemma tol_fin : fofQ XR (1 # 1000000000) = Fin tolR.
Proof. reflexivity. Qed.

Lemma far_bool a b : flt XR (fofQ XR (1 # 1000000000)) (fabs XR (fsub XR (Fin a) (Fin b))) = Rltb tolR (Rabs (a - b)).
Proof. rewrite tol_fin. reflexivity. Qed.
Theorem validate_exact srt pts h h2 T H k : length T = (3 * k)%nat -> in_range pts T ->
  ConvexHull srt (map fv pts) = Ok (map fv h2) ->
  (Validate srt (mkTriangulation (map fv pts) (map fv h) T H) = Ok true <->
   twins H /\ Rabs (shoelace h - shoelace h2) <= tolR /\
   Rabs (shoelace h - Rsum (map (area3 pts) (triples T))) <= tolR /\
   Rabs (perimeter3 h - perimeter3 h2) <= tolR).
Proof.
  intros E Rg EH. unfold Validate. cbn [tHalfedges tVectors tConvexHull].
  destruct (validate_halfedges H) as [ok| |] eqn:EV; cbn [rbind].
  2,3: split; [discriminate|]; intros (Tw & _); apply validate_halfedges_iff in Tw; congruence.
  destruct ok; cbn [negb].
  2:{ split; [discriminate|]. intros (Tw & _); apply validate_halfedges_iff in Tw; congruence. }
  rewrite EH. cbn [rbind]. rewrite !polygonArea_shoelace, !polygonPerimeter_spec. cbn [rbind].
  rewrite (tri_area_fv pts (map fv h) T H k) by auto. cbn [rbind]. rewrite !far_bool.
  apply validate_halfedges_iff in EV.
  destruct (Rltb_spec tolR (Rabs (shoelace h - shoelace h2))); cbn [orb]; [split; [discriminate|intros; lra]|].
  destruct (Rltb_spec tolR (Rabs (shoelace h - Rsum (map (area3 pts) (triples T))))); cbn [orb]; [split; [discriminate|intros; lra]|].
  destruct (Rltb_spec tolR (Rabs (perimeter3 h - perimeter3 h2))); split; try discriminate; try (intros; lra); auto.
Qed.

(** the hull of the points is the walk along supporting edges *)
Lemma shoelace_rot l1 l2 : shoelace (l1 ++ l2) = shoelace (l2 ++ l1).
Proof. rewrite !shoelace_psum, close_rot_app. reflexivity. Qed.
Lemma perimeter_rot l1 l2 : perimeter3 (l1 ++ l2) = perimeter3 (l2 ++ l1).
Proof. destruct (polygon_perimeter_laws l1 l2) as (A & _ & C & _). destruct (polygon_perimeter_laws (l2 ++ l1) []) as (B & _).
  rewrite !polygonPerimeter_spec in C. congruence.
Qed.
Lemma ConvexHull_walk srt vs h :
  sorts lessXY (map fv vs) (srt (map fv vs)) -> separated vs ->
  (exists a b c, In a vs /\ In b vs /\ In c vs /\ ccw a b c <> 0) ->
  NoDup h -> h <> [] -> (forall e, In e (polygon_edges h) -> hedge vs (fst e) (snd e)) ->
  exists h1 h2, h = h1 ++ h2 /\ ConvexHull srt (map fv vs) = Ok (map fv (h2 ++ h1)).
Proof.
  intros Hsort Hsep (p & q & r & Hp & Hq & Hr & NC) ND NE HE.
  destruct (sorts_fv _ _ Hsort) as (ss & Hss & Hperm & Hsorted).
  assert (Hsep' : separated ss).
  { intros a b Ha Hb. apply Hsep; (eapply Permutation_in; [apply Permutation_sym, Hperm|auto]). }
  destruct (farR_sorted ss Hsep' Hsorted) as [S1 S2].
  set (l := farR None ss) in *.
  assert (Hin : forall x, In x l <-> In x vs).
  { intros x. rewrite S2. split; intros W; [apply (Permutation_in _ (Permutation_sym Hperm) W)|apply (Permutation_in _ Hperm W)]. }
  assert (Hpq : p <> q) by (intros ->; apply NC; unfold ccw; ring).
  assert (Hlen : (2 <= length l)%nat).
  { apply Hin in Hp. apply Hin in Hq. destruct l as [|x [|y l']]; simpl in *; try lia; intuition congruence. }
  destruct (hullR_edges l S1 Hlen) as (a & t & Eh & Na & Min & Ia & Ed).
  assert (Tr : forall u v, hedge vs u v <-> hedge l u v).
  { intros u v. unfold hedge. split; intros (A & B & C & D & F); (split; [apply Hin; auto|split; [apply Hin; auto|split; [auto|split]]]);
      intros q0 Hq0; [apply D|apply F|apply D|apply F]; apply Hin; auto. }
  destruct (same_walk l) with (h := h) (a := a) (l := t) as (h1 & h2 & E1 & E2); auto.
  - intros x y Hx Hy Sxy. destruct (rv_eq_dec x y) as [|N]; auto. exfalso.
    destruct (Hsep x y) as [Q _]; auto; apply Hin; auto.
  - exists p, q, r. repeat split; auto; apply Hin; auto.
  - intros e He. apply Tr, HE; auto.
  - exists h1, h2. split; auto. rewrite <- E2, <- Eh. apply ConvexHull_fv. exact Hss.
Qed.
