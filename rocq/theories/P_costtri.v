(** The number of in-circle tests of Triangulate (property C176). *)
From Coq Require Import ZArith Lia List Bool Reals Lra Permutation FunctionalExtensionality Sorting.Sorted.
From Verif Require Import Base Arith GoLoop M_r3 M_tri2 M_triangulator M_cost Spec_r3 Spec_plane Spec_halfedge Spec_delaunay XRvec P_tri2 P_polygon P_delgeom
  P_halfedge P_ring P_flip P_leg P_tstate P_legmodel P_addtri P_ringops P_insstep P_chain P_delaunay P_hullfar P_seed P_init P_flipterm P_triang P_insert P_cost.
Import ListNotations.
Open Scope Z_scope.

(** ** legalize: two tests for every triangle that joins the star of the apex *)
Section Legalize.
Context {A : Arith}.
Variable vs : list (vec A).
Notation badA := (badA vs).
Notation verts := (verts vs).
Hypothesis bad_self : forall p b c, badA p b c p = false.
Lemma legalizeN_ok R : forall fuel s a, wfs s R ->
  mesh (trianglesLen s) (TT s) (HH s) -> verts s -> 0 <= a < trianglesLen s ->
  (nstar (TT s (pv a)) (trianglesLen s) (TT s) < fuel)%nat ->
  exists s' r c, legalizeN vs fuel s a = Ok (s', r, c) /\
    (c + 2 * nstar (TT s (pv a)) (trianglesLen s) (TT s') <= 1 + 2 * nstar (TT s (pv a)) (trianglesLen s) (TT s))%nat /\
    lframe s s' /\ mesh (trianglesLen s) (TT s') (HH s') /\ verts s' /\
    (forall e, has (TT s (pv a)) (TT s) e -> has (TT s (pv a)) (TT s') e) /\
    (forall e, has (TT s (pv a)) (TT s) e -> e <> a -> TT s' e = TT s e).
Proof.
  induction fuel as [|fuel IH]; intros s a W M V Ha Hf; [lia|].
  set (L := trianglesLen s) in *. pose proof (m_L3 _ _ _ M) as L3.
  pose proof (pv_range L a L3 Ha) as Rar. pose proof (nx_range L a L3 Ha) as Ral.
  assert (LT : L <= Ln (triangles s)) by apply (w_len _ _ W).
  assert (LH : L <= Ln (halfedges s)) by (rewrite (w_len2 _ _ W); auto).
  cbn [legalizeN]. rewrite (zget_getz (-1) (halfedges s)) by lia. cbn [rbind]. cbv zeta.
  change (getz (-1) (halfedges s) a) with (HH s a).
  rewrite (rem_pv a), (rem_nx a) by lia.
  destruct (Z.ltb_spec (HH s a) 0) as [Hneg|Hb].
  { exists s, (pv a), 0%nat. split; [reflexivity|]. split; [lia|].
    split; [apply lframe_refl|]. split; [exact M|]. split; [exact V|]. split; auto. }
  destruct (flip_b _ _ _ a M Ha Hb) as (Rb & Ib & E1 & E2).
  rewrite (rem_pv (HH s a)), (rem_nx (HH s a)) by lia.
  set (b := HH s a) in *.
  pose proof (pv_range L b L3 Rb) as Rbl. pose proof (nx_range L b L3 Rb) as Rbr.
  rewrite !(zget_getz 0 (triangles s)) by lia. cbn [rbind].
  change (getz 0 (triangles s)) with (TT s).
  pose (d := mkvec (fofZ A 0) (fofZ A 0) (fofZ A 0)).
  rewrite (zget_getz d vs (TT s (pv a))) by (apply V; auto). cbn [rbind].
  rewrite (zget_getz d vs (TT s a)) by (apply V; auto). cbn [rbind].
  rewrite (zget_getz d vs (TT s (nx a))) by (apply V; auto). cbn [rbind].
  rewrite (zget_getz d vs (TT s (pv b))) by (apply V; auto). cbn [rbind].
  change (inCircle _ _ _ _) with (badA (TT s (pv a)) (TT s a) (TT s (nx a)) (TT s (pv b))).
  destruct (badA (TT s (pv a)) (TT s a) (TT s (nx a)) (TT s (pv b))) eqn:Eb.
  2: { exists s, (pv a), 1%nat. split; [reflexivity|]. split; [lia|].
       split; [apply lframe_refl|]. split; [exact M|]. split; [exact V|]. split; auto. }
  assert (p01 : TT s (pv a) <> TT s (pv b)).
  { intros E. rewrite <- E, bad_self in Eb. discriminate. }
  set (p := TT s (pv a)) in *.
  rewrite zset_setz by lia. cbn [rbind]. rewrite zset_setz by (rewrite setz_length; lia). cbn [rbind].
  set (s1 := withTriangles _ s).
  assert (T1 : TT s1 = flipT (TT s) a b).
  { unfold TT, s1. cbn [triangles withTriangles]. rewrite getz_setz by (rewrite setz_length; lia).
    rewrite getz_setz by lia. reflexivity. }
  assert (H1 : HH s1 = HH s) by reflexivity.
  assert (N1 : NT s1 = NT s) by reflexivity.
  assert (F1 : lframe s s1).
  { constructor; try reflexivity; [unfold s1; simpl; rewrite !setz_length; auto|].
    intros k. unfold NT. change (NN s1 k) with (NN s k). destruct (NN s k); reflexivity. }
  clearbody s1.
  pose proof (lframe_wfs _ _ R F1 W) as W1.
  rewrite (zget_getz (-1)) by (rewrite (lf_hl _ _ F1); lia). cbn [rbind].
  change (getz (-1) (halfedges s1)) with (HH s1). rewrite H1.
  (* fixHull *)
  assert (FX : exists s2, (if HH s (pv b) =? -1 then rbind (deref (hull s1)) (fun h => fixHull (S (length (nodes s1))) s1 h h (pv b) a)
                            else Ok s1) = Ok s2 /\ lframe s1 s2 /\ triangles s2 = triangles s1 /\ halfedges s2 = halfedges s1 /\
                            FixN R (HH s) (NT s) (pv b) a (NT s2)).
  { destruct (Z.eqb_spec (HH s (pv b)) (-1)) as [Em|Em].
    - destruct (w_hull _ _ W1) as (h & Eh & Hin). rewrite Eh. cbn [deref rbind].
      destruct (rotate_to R h Hin) as (R' & P1 & P2).
      pose proof (ring_rot _ _ _ _ P1 P2 (w_ring _ _ W1)) as RG.
      destruct (fixHull_ok s1 h R' RG (pv b) a) as (Nn & s2 & E & C & _). exists s2. split; [exact E|].
      assert (RR : forall v, In v (h :: R') <-> In v R).
      { intros v. split; intros Hv; [apply (Permutation_in _ (Permutation_sym P1))|apply (Permutation_in _ P1)]; auto. }
      destruct C as [(v & Hv & Ev & ->)|(Hno & ->)].
      + assert (Rv : 0 <= v < Ln (nodes s1)) by (apply (rg_range _ _ _ RG); auto).
        repeat split; auto.
        * apply len_updS.
        * intros k. unfold NT. rewrite NN_updS by auto. unfold updg.
          destruct (Z.eqb_spec k v) as [->|]; [reflexivity|destruct (NN s1 k); reflexivity].
        * intros _. left. exists v. repeat split; [apply RR; auto|rewrite <- N1; auto|].
          rewrite NT_updS_T by auto. rewrite N1. reflexivity.
        * intros; contradiction.
      + split; [apply lframe_refl|]. repeat split; auto.
        intros _. right. split; auto. intros v Hv. rewrite <- N1. apply Hno. apply RR; auto.
    - exists s1. split; [reflexivity|]. split; [apply lframe_refl|]. split; auto. split; auto. split; [intros; contradiction|auto]. }
  destruct FX as (s2 & EF & F2 & Tr2 & Hf2 & FN). rewrite EF. clear EF. cbn [rbind].
  assert (T2 : TT s2 = flipT (TT s) a b) by (rewrite <- T1; unfold TT; rewrite Tr2; reflexivity).
  assert (H2 : HH s2 = HH s) by (rewrite <- H1; unfold HH; rewrite Hf2; reflexivity).
  pose proof (lframe_trans _ _ _ F1 F2) as F12. clear F1 F2 Tr2 Hf2 T1 H1 N1 W1 s1.
  assert (Lh2 : Ln (halfedges s2) = Ln (halfedges s)) by (rewrite (lf_hl _ _ F12); auto).
  rewrite (zget_getz (-1)) by lia. cbn [rbind]. change (getz (-1) (halfedges s2)) with (HH s2). rewrite H2.
  assert (Cb : HH s (pv b) < L).
  { destruct (m_pair _ _ _ M (pv b) Rbl) as [Q|(Q & _)]; lia. }
  rewrite link_ok by lia. cbn [rbind].
  set (s3 := linkS s2 a (HH s (pv b))).
  assert (H3 : HH s3 = flink (HH s) a (HH s (pv b))).
  { unfold s3. rewrite HH_linkS by lia. rewrite H2. reflexivity. }
  assert (Lh3 : Ln (halfedges s3) = Ln (halfedges s)) by (unfold s3; rewrite len_linkS; auto).
  rewrite (zget_getz (-1)) by lia. cbn [rbind]. change (getz (-1) (halfedges s3)) with (HH s3). rewrite H3.
  destruct (flip_six _ _ _ a M Ha Hb p01) as (S1 & S2 & S3 & S4 & S5 & S6 & S7 & S8 & S9 & S10 & S11 & S12 & S13 & S14 & S15).
  assert (Ear : flink (HH s) a (HH s (pv b)) (pv a) = HH s (pv a)).
  { unfold flink. destruct (Z.leb_spec 0 (HH s (pv b))) as [Q|Q].
    - rewrite !upd_other; auto.
      destruct (flip_c _ _ _ a M Ha Hb p01) as [W0|(_ & _ & _ & _ & W0 & _)]; fold b in W0; [zl|].
      intros E. apply W0. rewrite <- E. apply same_tri_pv.
    - rewrite upd_other; auto. }
  rewrite Ear.
  assert (Da : HH s (pv a) < L).
  { destruct (m_pair _ _ _ M (pv a) Rar) as [Q|(Q & _)]; zl. }
  rewrite link_ok by zl. cbn [rbind].
  set (s4 := linkS s3 b (HH s (pv a))).
  assert (H4 : HH s4 = flink (flink (HH s) a (HH s (pv b))) b (HH s (pv a))).
  { unfold s4. rewrite HH_linkS by zl. rewrite H3. reflexivity. }
  assert (Lh4 : Ln (halfedges s4) = Ln (halfedges s)) by (unfold s4; rewrite len_linkS; auto).
  rewrite link_ok by zl. cbn [rbind].
  set (s5 := linkS s4 (pv a) (pv b)).
  assert (H5 : HH s5 = flipH (HH s) a b).
  { unfold s5. rewrite HH_linkS by zl. rewrite H4. unfold flipH. rewrite Ear. reflexivity. }
  assert (T5 : TT s5 = flipT (TT s) a b) by (rewrite <- T2; reflexivity).
  assert (N5 : NT s5 = NT s2) by reflexivity.
  assert (F5 : lframe s s5).
  { apply (lframe_trans _ _ _ F12). constructor; try reflexivity.
    - unfold s5, s4, s3. rewrite !len_linkS. reflexivity.
    - intros k. unfold NT. change (NN s5 k) with (NN s2 k). destruct (NN s2 k); reflexivity. }
  clearbody s5. clear s3 H3 Lh3 s4 H4 Lh4.
  pose proof (flip_mesh _ _ _ a M Ha Hb p01) as M5. fold b in M5.
  destruct (flip_tris _ _ _ a M Ha Hb p01) as (X1 & X2 & X3 & X4 & X5 & X6). fold b in X1, X2, X3, X4, X5, X6.
  destruct (flipT_eqs _ _ _ a M Ha Hb p01) as (_ & _ & TF). fold b in TF.
  assert (NH : ~ has p (TT s) b).
  { destruct (mesh_distinct _ _ _ a M Ha) as (Q1 & Q2 & Q3). unfold has. rewrite E1, E2.
    fold p in Q2, Q3. intuition congruence. }
  assert (HM : forall e, has p (TT s) e -> has p (TT s5) e).
  { rewrite T5. intros e He.
    destruct (Z.eq_dec (a / 3) (e / 3)) as [Q|Q].
    { apply (has_same_tri p _ a e); [apply same_tri_div; auto|]. right. right. exact X3. }
    destruct (Z.eq_dec (b / 3) (e / 3)) as [Q'|Q'].
    { apply (has_same_tri p _ b e); [apply same_tri_div; auto|]. left. exact X4. }
    destruct (flip_other_tri _ _ _ a M Ha Hb p01 e) as (U1 & U2 & U3); [rewrite same_tri_div; auto..|].
    fold b in U1, U2, U3. unfold has in *. rewrite U1, U2, U3. auto. }
  assert (HB5 : has p (TT s5) b) by (left; rewrite T5; exact X4).
  assert (TK : forall e, has p (TT s) e -> e <> a -> TT s5 e = TT s e).
  { intros e He Ne. rewrite T5. apply TF; auto. intros ->. auto. }
  assert (V5 : verts s5).
  { intros e He. rewrite (lf_len _ _ F5) in He. rewrite T5.
    destruct (Z.eq_dec e a) as [->|Na]. { rewrite X1. apply V; auto. }
    destruct (Z.eq_dec e b) as [->|Nb]. { rewrite X4. apply V; auto. }
    rewrite TF; auto. }
  pose proof (lframe_wfs _ _ R F5 W) as W5.
  assert (P5 : TT s5 (pv a) = p) by (rewrite T5; exact X3).
  assert (ND : (nstar p L (TT s5) < nstar p L (TT s))%nat) by (apply (nstar_lt p L _ _ b); auto).
  destruct (IH s5 a) as (s6 & r2 & c1 & EL1 & CB1 & F6 & M6 & V6 & HM6 & TK6); auto.
  { rewrite (lf_len _ _ F5). fold L. rewrite T5, H5. exact M5. }
  { rewrite (lf_len _ _ F5). exact Ha. }
  { rewrite (lf_len _ _ F5), P5. fold L. clear - ND Hf. lia. }
  rewrite P5 in HM6, TK6, CB1. rewrite (lf_len _ _ F5) in CB1. fold L in CB1. rewrite (lf_len _ _ F5) in M6. fold L in M6.
  rewrite EL1. cbn [rbind].
  pose proof (lframe_trans _ _ _ F5 F6) as F56.
  pose proof (lframe_wfs _ _ R F56 W) as W6.
  assert (P6 : TT s6 (pv (nx b)) = p).
  { rewrite pv_nx, TK6; auto. rewrite T5; exact X4. }
  destruct (IH s6 (nx b)) as (s7 & r & c2 & EL2 & CB2 & F7 & M7 & V7 & HM7 & TK7); auto.
  { rewrite (lf_len _ _ F56). fold L. exact M6. }
  { rewrite (lf_len _ _ F56). exact Rbr. }
  { rewrite (lf_len _ _ F56), P6. fold L. pose proof (nstar_le p L _ _ HM6) as NLE. clear - NLE ND Hf. lia. }
  rewrite P6 in HM7, TK7, CB2. rewrite (lf_len _ _ F56) in CB2. fold L in CB2. rewrite (lf_len _ _ F56) in M7. fold L in M7.
  exists s7, r, (S (c1 + c2)). split; [rewrite EL2; reflexivity|]. split; [clear - CB1 CB2 ND; lia|].
  split; [apply (lframe_trans _ _ _ F56 F7)|]. split; [exact M7|]. split; [exact V7|]. split.
  - intros e He. apply HM7, HM6, HM. exact He.
  - intros e He Ne. rewrite TK7; auto; [rewrite TK6; auto|].
    intros ->. apply NH. rewrite <- has_nx. exact He.
Qed.
Lemma legalizeN_pos fuel s a s' r c : legalizeN vs fuel s a = Ok (s', r, c) -> 0 <= HH s a -> (1 <= c)%nat.
Proof.
  destruct fuel as [|fuel]; cbn [legalizeN]; [discriminate|]. destruct (zget (halfedges s) a) as [b| |] eqn:Eb; cbn [rbind]; try discriminate.
  cbv zeta. intros E Hb. assert (HH s a = b) as Q.
  { unfold HH. unfold zget in Eb. unfold getz. destruct (a <? 0); [discriminate|]. destruct (nth_error (halfedges s) (Z.to_nat a)) eqn:N; [|discriminate].
    injection Eb as <-. apply nth_error_nth. exact N. }
  rewrite Q in Hb. destruct (Z.ltb_spec b 0); [lia|].
  repeat match type of E with rbind (zget ?l ?i) _ = _ => destruct (zget l i); cbn [rbind] in E; try discriminate end.
  destruct (inCircle _ _ _ _); [|injection E as _ _ <-; lia].
  repeat match type of E with rbind ?m _ = _ => lazymatch m with legalizeN _ _ _ _ => fail | _ => destruct m; cbn [rbind] in E; try discriminate end end.
  destruct (legalizeN _ _ _ _) as [((?, ?), ?)| |]; cbn [rbind] in E; try discriminate.
  destruct (legalizeN _ _ _ _) as [((?, ?), ?)| |]; cbn [rbind] in E; try discriminate. injection E as _ _ <-. lia.
Qed.
Lemma leg_cost R s a s' r : wfs s R -> mesh (trianglesLen s) (TT s) (HH s) -> verts s -> 0 <= a < trianglesLen s ->
  legalize vs (legalizeFuel s) s a = Ok (s', r) ->
  exists c, legalizeN vs (legalizeFuel s) s a = Ok (s', r, c) /\ trianglesLen s' = trianglesLen s /\ (0 <= HH s a -> (1 <= c)%nat) /\
    (c + 2 * nstar (TT s (pv a)) (trianglesLen s) (TT s') <= 1 + 2 * nstar (TT s (pv a)) (trianglesLen s) (TT s))%nat.
Proof.
  intros W M V Ha E. destruct (legalizeN_ok R (legalizeFuel s) s a W M V Ha) as (s1 & r1 & c & E1 & B & F & _).
  { unfold legalizeFuel. pose proof (nstar_bound (TT s (pv a)) (trianglesLen s) (TT s) (m_L _ _ _ M)).
    pose proof (w_len _ _ W). lia. }
  rewrite legalize_erase, E1 in E. cbn [rbind] in E. injection E as <- <-. exists c. split; [exact E1|]. split; [apply (lf_len _ _ F)|]. split; [apply (legalizeN_pos _ _ _ _ _ _ E1)|exact B].
Qed.
End Legalize.

(** ** what the node operations leave alone *)
Lemma updN_T s k f s' : updN s k f = Ok s' -> TT s' = TT s /\ trianglesLen s' = trianglesLen s.
Proof.
  unfold updN. destruct (zget _ _); cbn [rbind]; try discriminate. destruct (zset _ _ _); cbn [rbind]; try discriminate.
  intros [= <-]. split; reflexivity.
Qed.
Ltac peel H := repeat match type of H with
  | rbind (updN ?s ?k ?f) _ = Ok _ => let E := fresh "E" in destruct (updN s k f) eqn:E; cbn [rbind] in H; try discriminate; apply updN_T in E
  | rbind ?m _ = Ok _ => destruct m; cbn [rbind] in H; try discriminate end.
Lemma remove_T s k s' r : remove s k = Ok (s', r) -> TT s' = TT s /\ trianglesLen s' = trianglesLen s.
Proof. unfold remove. intros H. peel H. injection H as <- _. split; intuition congruence. Qed.
Lemma newNode_T s i e s' : newNode s i (Some e) = Ok s' -> TT s' = TT s /\ trianglesLen s' = trianglesLen s.
Proof. unfold newNode. intros H. peel H. apply updN_T in H. split; intuition congruence. Qed.
Lemma hashEdge_T {A : Arith} vs ctr s e s' : @hashEdge A vs ctr s e = Ok s' -> TT s' = TT s /\ trianglesLen s' = trianglesLen s.
Proof. unfold hashEdge. intros H. peel H. injection H as <-. split; reflexivity. Qed.
(** adding a triangle at p adds none without p *)
Lemma nstar_add p L T H x y : mesh L T H -> (nstar p (L + 3) (addT T L x p y) <= nstar p L T)%nat.
Proof.
  intros M. pose proof (m_L _ _ _ M) as L0. pose proof (m_L3 _ _ _ M) as L3. unfold nstar.
  assert (E : tris (L + 3) = tris L ++ [L]).
  { unfold tris. replace ((L + 3) / 3) with (L / 3 + 1) by (rewrite <- (Z.mul_1_l 3) at 2; rewrite Z.div_add by lia; reflexivity).
    assert (0 <= L / 3) by (apply Z.div_pos; lia). rewrite Z2Nat.inj_add by lia. rewrite seq_app, map_app. f_equal. change (Z.to_nat 1) with 1%nat. cbn [seq map]. f_equal.
    pose proof (Z.div_mod L 3). lia. }
  rewrite E, filter_app, app_length. cbn [filter].
  destruct (has_dec p (addT T L x p y) L) as [Q|Q].
  - cbn [length]. rewrite Nat.add_0_r. apply filter_le. intros e He.
    assert (Re : 0 <= e < L).
    { unfold tris in He. apply in_map_iff in He. destruct He as (k & <- & Hk). apply in_seq in Hk. pose proof (Z.div_mod L 3). lia. }
    destruct (addT_old L T H x p y M e Re) as (O1 & O2 & O3).
    destruct (has_dec p (addT T L x p y) e) as [|N1]; [discriminate|]. destruct (has_dec p T e) as [Y|]; auto. exfalso. apply N1. unfold has in *. rewrite O1, O2, O3. exact Y.
  - exfalso. apply Q. right. left. destruct (add_slots L T H M) as (Q1 & _). rewrite Q1. apply addT_new.
Qed.
Lemma nstar_third p L T H : mesh L T H -> 3 * Z.of_nat (nstar p L T) <= L.
Proof.
  intros M. pose proof (m_L _ _ _ M) as L0. unfold nstar.
  assert (forall (l : list Z) f, (length (filter f l) <= length l)%nat) as G.
  { induction l as [|x l IH]; intros f; simpl; [lia|]. specialize (IH f). destruct (f x); simpl; lia. }
  specialize (G (tris L) (fun e => if has_dec p T e then false else true)).
  unfold tris at 2 in G. rewrite map_length, seq_length in G.
  pose proof (Z.div_mod L 3). pose proof (Z.mod_pos_bound L 3). assert (0 <= L / 3) by (apply Z.div_pos; lia). lia.
Qed.

(** the triangle of the apex itself is not counted *)
Lemma nstar_apex L T H a : mesh L T H -> 0 <= a < L -> 3 * Z.of_nat (nstar (T (pv a)) L T) <= L - 3.
Proof.
  intros M Ha. pose proof (m_L _ _ _ M) as L0. unfold nstar.
  set (g := fun e => if has_dec (T (pv a)) T e then false else true).
  assert (Q : (length (filter g (tris L)) < length (filter (fun _ => true) (tris L)))%nat).
  { apply (filter_lt _ _ _ (3 * (a / 3))); auto; [apply tris_In; auto; apply (m_L3 _ _ _ M)|].
    unfold g. destruct (has_dec (T (pv a)) T (3 * (a / 3))) as [|Q]; auto. exfalso. apply Q.
    apply (has_same_tri _ T a (3 * (a / 3))); [|right; right; reflexivity].
    rewrite same_tri_div. symmetry. rewrite <- (Z.add_0_r (3 * (a / 3))). apply div3_eq; lia. }
  assert (E : filter (fun _ : Z => true) (tris L) = tris L) by (clear; induction (tris L) as [|x l IH]; [reflexivity|cbn [filter]; rewrite IH; reflexivity]).
  rewrite E in Q. unfold tris at 2 in Q. rewrite map_length, seq_length in Q.
  pose proof (Z.div_mod L 3). pose proof (Z.mod_pos_bound L 3). assert (0 <= L / 3) by (apply Z.div_pos; lia). lia.
Qed.
Lemma legalize_cost (A : Arith) zn (vs : list (vec A)) s R a : null_like A zn ->
  0 <= trianglesLen s <= Ln (triangles s) -> length (halfedges s) = length (triangles s) ->
  paired (live s (triangles s)) (live s (halfedges s)) ->
  (forall v, In v (live s (triangles s)) -> 0 <= v < Ln vs) ->
  hull_ring s R -> 0 <= a < trianglesLen s ->
  exists s' r c, legalizeN vs (legalizeFuel s) s a = Ok (s', r, c) /\ 3 * (Z.of_nat c + 1) <= 2 * trianglesLen s.
Proof.
  intros Z [L0 L1] L2 P V HR Ha. apply hull_ring_ring in HR. destruct HR as [RG HU].
  assert (W : wfs s R) by (constructor; auto).
  apply paired_mesh in P; auto.
  assert (VS : verts vs s).
  { intros e He. apply V. unfold live, TT, getz. destruct (Z.ltb_spec e 0); [lia|].
    rewrite <- (nth_firstn_lt 0 (triangles s) (Z.to_nat e) (Z.to_nat (trianglesLen s))) by lia. apply nth_In. rewrite firstn_length. lia. }
  destruct (legalizeN_ok vs (bad_self_zn A zn vs Z) R (legalizeFuel s) s a) as (s' & r & c & E & B & _); auto.
  { unfold legalizeFuel. pose proof (nstar_bound (TT s (pv a)) (trianglesLen s) (TT s) L0). lia. }
  exists s', r, c. split; auto. pose proof (nstar_apex _ _ _ a P Ha). lia.
Qed.

Section Insert.
Context {FA : Arith}.
Variables (vs : list (vec FA)) (pts : list rv).
Hypothesis EX : exact_preds vs pts.
Notation n := (Ln pts).
Notation PP := (PP pts).
Variables (i0 i1 i2 : Z) (ctr : vec FA).
Hypothesis Hseed : forall v, 0 <= v < n -> (0 <= incirc (PP i0) (PP i1) (PP i2) (PP v))%R.
Hypothesis Hseed_or : (0 < ar (PP i0) (PP i1) (PP i2))%R.
Variable hs : Z.
Hypothesis Hhs : 0 < hs.
Hypothesis HKEY : forall v, 0 <= v < n -> 0 <= hashKey ctr hs (vat vs v) < hs.
Notation rest := (rest pts i0 i1 i2 hs).
Section One.
Variables (p : Z) (V0 R0 : list Z) (s0 : tri).
Hypothesis RS : rest s0 V0 R0.
Hypothesis Rp : 0 <= p < n.
Hypothesis Np : ~ In p V0.
Notation vis := (vis PP p).
Notation chain := (chain PP p R0).
Notation ins := (ins pts i0 i1 i2 p V0 R0 s0).
Notation i_wfs := (i_wfs pts i0 i1 i2 p V0 R0 s0).
Notation i_g := (i_g pts i0 i1 i2 p V0 R0 s0).
Notation i_leg := (i_leg pts i0 i1 i2 p V0 R0 s0).
Notation i_full := (i_full pts i0 i1 i2 p V0 R0 s0).
Notation i_chain := (i_chain pts i0 i1 i2 p V0 R0 s0).
Notation i_count := (i_count pts i0 i1 i2 p V0 R0 s0).
Notation i_cap := (i_cap pts i0 i1 i2 p V0 R0 s0).
Notation i_pos := (i_pos pts i0 i1 i2 p V0 R0 s0).
Notation i_nodes := (i_nodes pts i0 i1 i2 p V0 R0 s0).
Notation ins_node := (ins_node pts i0 i1 i2 p V0 R0 s0).
Notation ins_nd := (ins_nd pts i0 i1 i2 p V0 R0 s0).
Notation len_chain := (len_chain pts i0 i1 i2 hs p V0 R0 s0 RS).
Notation cap_bound := (cap_bound pts i0 i1 i2 hs p V0 R0 s0 RS Rp Np).
Notation add_ok := (add_ok pts i0 i1 i2 hs p V0 R0 s0 RS Np).
Notation pos_ne := (pos_ne pts p).
Notation r_wfs := (r_wfs pts i0 i1 i2 hs).
Notation r_mesh := (r_mesh pts i0 i1 i2 hs).
Notation r_full := (r_full pts i0 i1 i2 hs).
Notation r_count := (r_count pts i0 i1 i2 hs).
Notation r_cap := (r_cap pts i0 i1 i2 hs).
Notation r_nodes := (r_nodes pts i0 i1 i2 hs).
Notation r_hlen := (r_hlen pts i0 i1 i2 hs).
Notation r_live := (r_live pts i0 i1 i2 hs).
Notation r_RV := (r_RV pts i0 i1 i2 hs).
Notation flt_vis := (flt_vis vs pts EX p Rp).
Notation areaN_ok := (areaN_ok vs pts EX).
Notation fwd_ok := (fwd_ok vs pts EX i0 i1 i2 Hseed hs p V0 R0 s0 RS Rp Np).
Notation back_ok := (back_ok vs pts EX i0 i1 i2 Hseed hs p V0 R0 s0 RS Rp Np).
Notation first_ok := (first_ok vs pts EX i0 i1 i2 Hseed hs p V0 R0 s0 RS Rp Np).
Notation findStart_ok := (findStart_ok pts i0 i1 i2 hs Hhs V0 R0 s0 RS).
Notation findVisible_ok := (findVisible_ok vs pts EX i0 i1 i2 hs p V0 R0 s0 RS Rp).
Notation finish_ok := (finish_ok vs pts EX i0 i1 i2 ctr Hseed_or hs Hhs HKEY p V0 R0 s0 RS Np).

(* the number of triangles without p *)
Definition star (s : tri) : nat := nstar p (trianglesLen s) (TT s).
Lemma add_cost s x y l0 l1 l2 s1 R1 s2 r :
  ginv PP p V0 (trianglesLen s) (TT s) (HH s) -> legal_except PP p (trianglesLen s) (TT s) (HH s) (fun _ => False) ->
  trianglesLen s + 3 <= Ln (triangles s) -> length (halfedges s) = length (triangles s) ->
  In (x, y) (polygon_edges R0) -> vis x y ->
  l0 = -1 \/ joins (trianglesLen s) (TT s) (HH s) l0 p x -> l1 = -1 \/ joins (trianglesLen s) (TT s) (HH s) l1 y p ->
  joins (trianglesLen s) (TT s) (HH s) l2 x y ->
  addTriangle s x p y l0 l1 l2 = Ok (s1, trianglesLen s) ->
  forall s1', wfs s1' R1 -> TT s1' = TT s1 /\ trianglesLen s1' = trianglesLen s1 -> HH s1' = HH s1 ->
  legalize vs (legalizeFuel s1') s1' (trianglesLen s + 2) = Ok (s2, r) ->
  exists c, legalizeN vs (legalizeFuel s1') s1' (trianglesLen s + 2) = Ok (s2, r, c) /\
    (c + 2 * star s2 <= 1 + 2 * star s)%nat /\ trianglesLen s2 = trianglesLen s + 3 /\ (1 <= c)%nat.
Proof.
  intros G LE Cap Lh E Vis J0 J1 J2 EA s1' W (T1 & L1) H1 EL.
  pose proof (g_mesh _ _ _ _ _ _ G) as M. pose proof (m_L _ _ _ M) as L0.
  destruct (add_ok s x y l0 l1 l2 G LE Cap Lh E Vis J0 J1 J2) as (s1b & A0 & AT & AH & AL & AN & AHu & AHa & ATl & AHl & AG & ALE).
  assert (s1b = s1) by congruence. subst s1b. clear A0.
  assert (M1 : mesh (trianglesLen s1') (TT s1') (HH s1')) by (rewrite L1, T1, H1, AL; apply (g_mesh _ _ _ _ _ _ AG)).
  assert (V1 : verts vs s1').
  { intros e He. rewrite L1, AL in He. rewrite T1, (Ln_vs vs pts EX). destruct (g_vert _ _ _ _ _ _ AG e He) as [->|Q]; auto. apply (r_range pts i0 i1 i2 hs _ _ _ RS); auto. }
  destruct (leg_cost vs (bad_self_PP vs pts EX) R1 s1' (trianglesLen s + 2) s2 r W M1 V1) as (c & Ec & Lc & Pc & Bc); auto.
  { rewrite L1, AL. lia. }
  exists c. split; [exact Ec|]. split; [|split; [congruence|]].
  2:{ apply Pc. rewrite H1, AH. unfold addH, flink at 1. destruct J2 as ((J2a & J2b) & _). destruct (Z.leb_spec 0 l2); [|lia].
      rewrite upd_other by lia. rewrite upd_same. lia. }
  unfold star. rewrite Lc, L1, AL.
  assert (P1 : TT s1' (pv (trianglesLen s + 2)) = p).
  { destruct (add_slots (trianglesLen s) (TT s) (HH s) M) as (_ & _ & _ & _ & _ & ->). rewrite T1, AT. apply addT_new. }
  rewrite P1, L1, AL, T1, AT in Bc. pose proof (nstar_add p _ _ _ x y M). lia.
Qed.
(** ** one step of each walk, and the first triangle *)
Lemma wfs_add s x y l0 l1 l2 s1 R :
  ginv PP p V0 (trianglesLen s) (TT s) (HH s) -> legal_except PP p (trianglesLen s) (TT s) (HH s) (fun _ => False) ->
  trianglesLen s + 3 <= Ln (triangles s) -> In (x, y) (polygon_edges R0) -> vis x y ->
  l0 = -1 \/ joins (trianglesLen s) (TT s) (HH s) l0 p x -> l1 = -1 \/ joins (trianglesLen s) (TT s) (HH s) l1 y p ->
  joins (trianglesLen s) (TT s) (HH s) l2 x y -> wfs s R ->
  addTriangle s x p y l0 l1 l2 = Ok (s1, trianglesLen s) -> wfs s1 R.
Proof.
  intros G LE Cap E Vis J0 J1 J2 W EA.
  destruct (add_ok s x y l0 l1 l2 G LE Cap (w_len2 _ _ W) E Vis J0 J1 J2) as (s1b & A0 & AT & AH & AL & AN & AHu & AHa & ATl & AHl & AG & ALE).
  assert (s1b = s1) by congruence. subst s1b.
  assert (NN1 : NN s1 = NN s) by (unfold NN; rewrite AN; reflexivity).
  constructor.
    - rewrite AL, ATl. lia.
    - rewrite ATl, AHl. apply (w_len2 _ _ W).
    - rewrite AN, NN1. apply (w_ring _ _ W).
    - rewrite AHu. apply (w_hull _ _ W).
Qed.
Lemma fwd_cost s q q' C : ins s (q :: q' :: C) -> vis q q' ->
  exists s1 s2 s3 s4 r c,
    addTriangle s q p q' (NT s p) (-1) (NT s q) = Ok (s1, trianglesLen s) /\
    legalizeN vs (legalizeFuel s1) s1 (trianglesLen s + 2) = Ok (s2, r, c) /\
    updN s2 p (setT r) = Ok s3 /\ remove s3 q = Ok (s4, p) /\
    next_of (withHull (Some p) s4) q = Ok q' /\ ins (withHull (Some p) s4) (q' :: C) /\
    (c + 2 * star (withHull (Some p) s4) <= 1 + 2 * star s)%nat /\ trianglesLen (withHull (Some p) s4) = trianglesLen s + 3 /\ (1 <= c)%nat.
Proof.
  intros I Vis. destruct (fwd_ok s q q' C I Vis) as (s1 & s2 & s3 & s4 & r & E1 & E2 & E3 & E4 & E5 & I'). set (L := trianglesLen s). pose proof (i_wfs _ _ I) as W. pose proof (i_g _ _ I) as G. pose proof (i_leg _ _ I) as LE.
  pose proof (g_mesh _ _ _ _ _ _ G) as M. pose proof (m_L _ _ _ M) as L0. pose proof (ins_nd _ _ I) as ND.
  pose proof (i_full _ _ I) as F. pose proof (i_chain _ _ I) as CH. fold L in G, LE, M, L0, F.
  assert (E : In (q, q') (polygon_edges R0)) by (apply (c_pairs _ _ _ _ CH); left; auto).
  pose proof (chain_fwd _ _ _ _ _ _ CH Vis) as CH'. pose proof (len_chain _ CH') as LC.
  assert (Epq : In (p, q) (polygon_edges (p :: q :: q' :: C))) by (left; auto).
  assert (Eqq : In (q, q') (polygon_edges (p :: q :: q' :: C))) by (right; left; auto).
  pose proof (hfull_joins _ _ _ _ _ _ _ F Epq) as J0. pose proof (hfull_joins _ _ _ _ _ _ _ F Eqq) as J2.
  pose proof cap_bound as CB. pose proof (i_count _ _ I) as Cnt. pose proof (i_cap _ _ I) as Cap. pose proof (i_pos _ _ I) as Pos.
  fold L in Cnt, Pos. unfold Zlen in Cnt, CB. cbn [length] in Cnt, LC.
  assert (Npq : p <> q) by (intros ->; apply (proj1 (NoDup_cons_iff _ _) ND); left; auto).
  assert (Npq' : p <> q') by (intros ->; apply (proj1 (NoDup_cons_iff _ _) ND); right; left; auto).
  assert (Hc : trianglesLen s + 3 <= Ln (triangles s)) by (fold L; lia).
  pose proof (wfs_add s q q' _ _ _ s1 _ G LE Hc E Vis (or_intror J0) (or_introl eq_refl) J2 W E1) as W1.
  destruct (add_cost s q q' _ _ _ s1 _ s2 r G LE Hc (w_len2 _ _ W) E Vis (or_intror J0) (or_introl eq_refl) J2 E1 s1 W1 (conj eq_refl eq_refl) eq_refl E2) as (c & Ec & Bc & Lc & Pc).
  exists s1, s2, s3, s4, r, c. do 6 (split; [assumption|]). destruct (updN_T _ _ _ _ E3) as (Ta & La). destruct (remove_T _ _ _ _ E4) as (Tb & Lb).
  assert (T4 : TT (withHull (Some p) s4) = TT s2) by (change (TT (withHull (Some p) s4)) with (TT s4); congruence).
  assert (L4 : trianglesLen (withHull (Some p) s4) = trianglesLen s2) by (cbn [withHull trianglesLen]; congruence).
  unfold star in *. rewrite T4, L4. auto.
Qed.
Lemma back_cost s C q' q : ins s (C ++ [q'; q]) -> vis q' q ->
  exists s1 s2 s3 s4 r c,
    addTriangle s q' p q (-1) (NT s q) (NT s q') = Ok (s1, trianglesLen s) /\
    legalizeN vs (legalizeFuel s1) s1 (trianglesLen s + 2) = Ok (s2, r, c) /\ prev_of s2 q = Ok q' /\
    updN s2 q' (setT (trianglesLen s)) = Ok s3 /\ remove s3 q = Ok (s4, q') /\
    prev_of (withHull (Some q') s4) q = Ok q' /\ ins (withHull (Some q') s4) (C ++ [q']) /\
    (c + 2 * star (withHull (Some q') s4) <= 1 + 2 * star s)%nat /\ trianglesLen (withHull (Some q') s4) = trianglesLen s + 3 /\ (1 <= c)%nat.
Proof.
  intros I Vis. destruct (back_ok s C q' q I Vis) as (s1 & s2 & s3 & s4 & r & E1 & E2 & E2' & E3 & E4 & E5 & I'). set (L := trianglesLen s). pose proof (i_wfs _ _ I) as W. pose proof (i_g _ _ I) as G. pose proof (i_leg _ _ I) as LE.
  pose proof (g_mesh _ _ _ _ _ _ G) as M. pose proof (m_L _ _ _ M) as L0. pose proof (ins_nd _ _ I) as ND.
  pose proof (i_full _ _ I) as F. pose proof (i_chain _ _ I) as CH. fold L in G, LE, M, L0, F.
  assert (E : In (q', q) (polygon_edges R0)).
  { apply (c_pairs _ _ _ _ CH). rewrite pairs_snoc. apply in_or_app. right. left; auto. }
  pose proof (chain_back _ _ _ _ _ _ CH Vis) as CH'. pose proof (len_chain _ CH') as LC.
  set (R1 := p :: C ++ [q'; q]) in *.
  assert (Eqq : In (q', q) (polygon_edges R1)) by (unfold R1; rewrite pe_back; apply in_or_app; right; left; auto).
  assert (Eqp : In (q, p) (polygon_edges R1)) by (unfold R1; rewrite pe_back; apply in_or_app; right; right; left; auto).
  pose proof (hfull_joins _ _ _ _ _ _ _ F Eqp) as J1. pose proof (hfull_joins _ _ _ _ _ _ _ F Eqq) as J2.
  pose proof cap_bound as CB. pose proof (i_count _ _ I) as Cnt. pose proof (i_cap _ _ I) as Cap. pose proof (i_pos _ _ I) as Pos.
  fold L in Cnt, Pos. unfold Zlen in Cnt, CB. rewrite app_length in Cnt, LC. cbn [length] in Cnt, LC.
  assert (Iq : In q (C ++ [q'; q])) by (apply in_or_app; right; right; left; auto).
  assert (Iq' : In q' (C ++ [q'; q])) by (apply in_or_app; right; left; auto).
  assert (Npq : p <> q) by (intros ->; apply (proj1 (NoDup_cons_iff _ _) ND); auto).
  assert (Npq' : p <> q') by (intros ->; apply (proj1 (NoDup_cons_iff _ _) ND); auto).
  pose proof (pos_ne _ _ Vis) as Nqq.
  assert (Hc : trianglesLen s + 3 <= Ln (triangles s)) by (fold L; lia).
  pose proof (wfs_add s q' q _ _ _ s1 _ G LE Hc E Vis (or_introl eq_refl) (or_intror J1) J2 W E1) as W1.
  destruct (add_cost s q' q _ _ _ s1 _ s2 r G LE Hc (w_len2 _ _ W) E Vis (or_introl eq_refl) (or_intror J1) J2 E1 s1 W1 (conj eq_refl eq_refl) eq_refl E2) as (c & Ec & Bc & Lc & Pc).
  exists s1, s2, s3, s4, r, c. do 7 (split; [assumption|]). destruct (updN_T _ _ _ _ E3) as (Ta & La). destruct (remove_T _ _ _ _ E4) as (Tb & Lb).
  assert (T4 : TT (withHull (Some q') s4) = TT s2) by (change (TT (withHull (Some q') s4)) with (TT s4); congruence).
  assert (L4 : trianglesLen (withHull (Some q') s4) = trianglesLen s2) by (cbn [withHull trianglesLen]; congruence).
  unfold star in *. rewrite T4, L4. auto.
Qed.
Lemma first_cost e ne : In (e, ne) (polygon_edges R0) -> vis e ne ->
  exists s1 s2 s3 s4 s5 r C c,
    addTriangle s0 e p ne (-1) (-1) (NT s0 e) = Ok (s1, trianglesLen s0) /\
    updN s1 e (setT (trianglesLen s0)) = Ok s2 /\ newNode s2 p (Some e) = Ok s3 /\
    legalizeN vs (legalizeFuel s3) s3 (trianglesLen s0 + 2) = Ok (s4, r, c) /\ updN s4 p (setT r) = Ok s5 /\
    ins s5 (ne :: C ++ [e]) /\
    (forall u, In (u, e) (polygon_edges R0) -> In (u, e) (pairs (ne :: C ++ [e]))) /\
    (c + 2 * star s5 <= 1 + 2 * star s0)%nat /\ trianglesLen s5 = trianglesLen s0 + 3 /\ (1 <= c)%nat.
Proof.
  intros E Vis. destruct (first_ok e ne E Vis) as (t1 & t2 & t3 & s4 & s5 & r & C & B1 & B2 & B3 & B4 & B5 & B6 & B7). set (L := trianglesLen s0). pose proof (r_wfs _ _ _ RS) as W. destruct (rest_ginv pts i0 i1 i2 hs p V0 R0 s0 RS Np) as [G LE].
  pose proof (pos_ne _ _ Vis) as Ne. pose proof (r_mesh _ _ _ RS) as M. pose proof (m_L _ _ _ M) as L0. pose proof (ND0 pts i0 i1 i2 hs V0 R0 s0 RS) as ND.
  (* rotate the ring *)
  assert (RT : exists rest, Permutation R0 (e :: ne :: rest) /\ Permutation (polygon_edges R0) (polygon_edges (e :: ne :: rest))).
  { destruct (pe_In _ _ _ E) as [Ie _]. destruct (rotate_to R0 e Ie) as (l & P1 & P2).
    apply (Permutation_in _ P2) in E. destruct (pe_head e l) as (y & Hy & Q).
    assert (y = ne) as ->.
    { apply (pe_succ_unique (e :: l) e); auto. apply (Permutation_NoDup P1); auto. }
    destruct Q as [[-> ->]|(l' & ->)]; [contradiction|]. exists l'. auto. }
  destruct RT as (rs & P1 & P2). set (Rr := e :: ne :: rs) in *.
  assert (ND' : NoDup Rr) by (apply (Permutation_NoDup P1); auto).
  assert (IR : forall v, In v Rr <-> In v R0).
  { intros v; split; apply Permutation_in; auto. apply Permutation_sym; auto. }
  assert (IE : forall u v, In (u, v) (polygon_edges Rr) <-> In (u, v) (polygon_edges R0)).
  { intros u v; split; apply Permutation_in; auto. apply Permutation_sym; auto. }
  pose proof (r_full _ _ _ RS) as F.
  assert (F' : hfull Rr L (TT s0) (HH s0) (NT s0)).
  { constructor.
    - intros v w Q. apply (f_ok _ _ _ _ _ F). apply IE. auto.
    - intros f Hf Q. destruct (f_cov _ _ _ _ _ F f Hf Q) as (v & Hv & Ev). exists v. split; auto. apply IR; auto. }
  assert (NpR : ~ In p Rr) by (intros Q; apply Np, (r_RV _ _ _ RS), IR; auto).
  (* addTriangle *)
  pose proof (hfull_joins _ _ _ _ _ _ _ F E) as J2.
  pose proof cap_bound as CB. pose proof (r_count _ _ _ RS) as Cnt. pose proof (r_cap _ _ _ RS) as Cap.
  assert (LR : 2 <= Zlen R0).
  { unfold Zlen. rewrite (Permutation_length P1). unfold Rr. simpl. lia. }
  destruct (add_ok s0 e ne (-1) (-1) (NT s0 e) G LE) as (s1 & A0 & AT & AH & AL & AN & AHu & AHa & ATl & AHl & AG & ALE); auto.
  { fold L in Cnt. fold L. lia. }
  { apply (w_len2 _ _ W). }
  (* updN e *)
  pose proof (w_ring _ _ W) as RG.
  assert (Re : 0 <= e < Ln (nodes s1)).
  { rewrite AN. apply (rg_range _ _ _ RG). apply IR. left; auto. }
  assert (NN1 : NN s1 = NN s0) by (unfold NN; rewrite AN; reflexivity).
  set (s2 := updS s1 e (setT L)).
  assert (N2 : NT s2 = upd (NT s0) e L).
  { unfold s2. rewrite NT_updS_T by auto. unfold NT. rewrite NN1. reflexivity. }
  assert (NN2 : forall k, nI (NN s2 k) = nI (NN s0 k) /\ nNext (NN s2 k) = nNext (NN s0 k) /\ nPrev (NN s2 k) = nPrev (NN s0 k)).
  { intros k. unfold s2. rewrite NN_updS by auto. unfold updg. rewrite NN1. destruct (Z.eqb_spec k e) as [->|]; auto. }
  assert (Ln2 : length (nodes s2) = length (nodes s0)) by (unfold s2; rewrite len_updS, AN; auto).
  assert (RG2 : ring (Ln (nodes s2)) (NN s2) Rr).
  { rewrite Ln2. apply (ring_ext _ (NN s0)); [intros v _; apply NN2|]. apply (ring_rot _ _ _ _ P1 P2 RG). }
  (* newNode *)
  assert (Rpn : 0 <= p < Ln (nodes s2)) by (rewrite Ln2, (r_nodes _ _ _ RS); auto).
  destruct (newNode_ok s2 p e ne rs RG2 Rpn NpR) as (s3 & NW & NF & RG3 & NT3 & NI3 & NO3).
  assert (T3 : TT s3 = TT s1) by (unfold TT; rewrite (nf_t _ _ NF); reflexivity).
  assert (H3 : HH s3 = HH s1) by (unfold HH; rewrite (nf_h _ _ NF); reflexivity).
  assert (L3 : trianglesLen s3 = L + 3) by (rewrite (nf_l _ _ NF); exact AL).
  assert (N3 : NT s3 = upd (NT s0) e L) by (apply functional_extensionality; intros k; rewrite NT3, N2; reflexivity).
  set (R3 := p :: ne :: rs ++ [e]).
  assert (PR3 : Permutation (e :: p :: ne :: rs) R3 /\ Permutation (polygon_edges (e :: p :: ne :: rs)) (polygon_edges R3)).
  { split; [apply (Permutation_app_comm [e] (p :: ne :: rs))|apply (pe_rot [e] (p :: ne :: rs))]. }
  destruct PR3 as [PR3 PE3].
  assert (W3 : wfs s3 R3).
  { constructor.
    - rewrite L3, (nf_t _ _ NF). change (triangles s2) with (triangles s1). rewrite ATl. fold L in Cnt. lia.
    - rewrite (nf_t _ _ NF), (nf_h _ _ NF). change (triangles s2) with (triangles s1). change (halfedges s2) with (halfedges s1).
      rewrite ATl, AHl. apply (w_len2 _ _ W).
    - apply (ring_rot _ _ _ _ PR3 PE3 RG3).
    - destruct (w_hull _ _ W) as (h & Eh & Hh). exists h. split; [rewrite (nf_hu _ _ NF); change (hull s2) with (hull s1); congruence|].
      apply (Permutation_in _ PR3). apply IR in Hh. destruct Hh as [<-|Hh]; [left; auto|right; right; auto]. }
  assert (t1 = s1) by congruence. subst t1.
  assert (t2 = s2). { rewrite updN_ok in B2 by auto. injection B2 as <-. reflexivity. } subst t2.
  assert (t3 = s3) by congruence. subst t3.
  destruct (add_cost s0 e ne _ _ _ s1 R3 s4 r G LE ltac:(fold L in Cnt; lia) (w_len2 _ _ W) E Vis (or_introl eq_refl) (or_introl eq_refl) J2 A0 s3 W3 (conj T3 (eq_trans L3 (eq_sym AL))) H3 B4) as (c & Ec & Bc & Lc & Pc).
  exists s1, s2, s3, s4, s5, r, C, c. do 7 (split; [assumption|]). destruct (updN_T _ _ _ _ B5) as (Ta & La). unfold star in *. rewrite Ta, La. auto.
Qed.
Definition cost (s : tri) (c : nat) (s' : tri) : Prop :=
  3 * (Z.of_nat c + 2 * Z.of_nat (star s')) + trianglesLen s <= 6 * Z.of_nat (star s) + trianglesLen s' /\
  trianglesLen s' <= trianglesLen s + 3 * Z.of_nat c.
Lemma walkForwardN_ok : forall C fuel s q, ins s (q :: C) -> (length C < fuel)%nat ->
  exists s' m C' k, walkForwardN vs fuel s (vat vs p) p q = Ok (s', k) /\ cost s k s' /\ ins s' (m :: C') /\
    (forall y C'', C' = y :: C'' -> ~ vis m y) /\ exists pre, q :: C = pre ++ m :: C'.
Proof.
  induction C as [|q' C IH]; intros fuel s q I Hf.
  { exfalso. pose proof (len_chain _ (i_chain _ _ I)) as Q. simpl in Q. lia. }
  destruct fuel as [|fuel]; [lia|]. cbn [walkForwardN]. cbn [length] in Hf.
  pose proof (w_ring _ _ (i_wfs _ _ I)) as RG.
  assert (Eqq : In (q, q') (polygon_edges (p :: q :: q' :: C))) by (right; left; auto).
  assert (Epq : In (p, q) (polygon_edges (p :: q :: q' :: C))) by (left; auto).
  rewrite (next_of_ok s _ _ _ RG Eqq). cbn [rbind].
  destruct (ins_node s _ q I) as (Q1 & Q2 & Q3); [right; left; auto|].
  destruct (ins_node s _ q' I) as (Q4 & Q5 & Q6); [right; right; left; auto|].
  destruct (ins_node s _ p I) as (Q7 & Q8 & Q9); [left; auto|].
  rewrite areaN_ok by auto. cbn [rbind].
  destruct (flt FA (area (vat vs p) (vat vs q) (vat vs q')) (fofZ FA 0)) eqn:B.
  - apply flt_vis in B; [|auto..].
    rewrite !getN_ok by auto. cbn [rbind]. rewrite (rg_prev _ _ _ RG _ _ Epq). cbn [deref rbind].
    rewrite getN_ok by auto. cbn [rbind]. rewrite Q2, Q5.
    destruct (fwd_cost s q q' C I B) as (s1 & s2 & s3 & s4 & r & c1 & E1 & E2 & E3 & E4 & E5 & I' & Bc & Lc & Pc).
    change (nT (NN s p)) with (NT s p). change (nT (NN s q)) with (NT s q).
    rewrite E1. cbn [rbind]. rewrite E2. cbn [rbind]. rewrite E3. cbn [rbind]. rewrite E4. cbn [rbind]. cbv zeta. rewrite E5. cbn [rbind].
    destruct (IH fuel _ _ I') as (s' & m & C' & k & F1 & Fk & F2 & F3 & pre & F4); [lia|].
    exists s', m, C', (c1 + k)%nat. rewrite F1. split; [reflexivity|]. split; [unfold cost in *; lia|]. split; auto. split; auto. exists (q :: pre). rewrite F4. reflexivity.
  - exists s, q, (q' :: C), 0%nat. split; auto. split; [unfold cost; lia|]. split; auto. split; [|exists []; reflexivity].
    intros y C'' [= <- <-] V. apply flt_vis in V; [congruence|auto..].
Qed.

Lemma walkBackwardN_ok : forall k C fuel s q, length C = k -> ins s (C ++ [q]) -> (length C < fuel)%nat ->
  exists s' m C' c, walkBackwardN vs fuel s (vat vs p) p q = Ok (s', c) /\ cost s c s' /\ ins s' (C' ++ [m]) /\
    (forall y C'', C' = C'' ++ [y] -> ~ vis y m) /\ exists post, C ++ [q] = C' ++ m :: post.
Proof.
  induction k as [|k IH]; intros C fuel s q Hk I Hf.
  { exfalso. pose proof (len_chain _ (i_chain _ _ I)) as Q. rewrite app_length in Q. simpl in Q. lia. }
  destruct fuel as [|fuel]; [lia|]. cbn [walkBackwardN].
  destruct (exists_last (l := C)) as (C0 & q' & ->). { intros ->. discriminate. }
  rewrite app_length in Hk, Hf. cbn [length] in Hk, Hf. rewrite <- app_assoc in I. simpl in I.
  pose proof (w_ring _ _ (i_wfs _ _ I)) as RG.
  assert (Eqq : In (q', q) (polygon_edges (p :: C0 ++ [q'; q]))) by (rewrite pe_back; apply in_or_app; right; left; auto).
  rewrite (prev_of_ok s _ _ _ RG Eqq). cbn [rbind].
  destruct (ins_node s _ q I) as (Q1 & Q2 & Q3); [right; apply in_or_app; right; right; left; auto|].
  destruct (ins_node s _ q' I) as (Q4 & Q5 & Q6); [right; apply in_or_app; right; left; auto|].
  rewrite areaN_ok by auto. cbn [rbind].
  destruct (flt FA (area (vat vs p) (vat vs q') (vat vs q)) (fofZ FA 0)) eqn:B.
  - apply flt_vis in B; [|auto..].
    rewrite !getN_ok by auto. cbn [rbind]. rewrite Q2, Q5.
    destruct (back_cost s C0 q' q I B) as (s1 & s2 & s3 & s4 & r & c1 & E1 & E2 & E2' & E3 & E4 & E5 & I' & Bc & Lc & Pc).
    change (nT (NN s q')) with (NT s q'). change (nT (NN s q)) with (NT s q).
    rewrite E1. cbn [rbind]. rewrite E2. cbn [rbind]. rewrite E2'. cbn [rbind]. rewrite E3. cbn [rbind]. rewrite E4. cbn [rbind]. cbv zeta. rewrite E5. cbn [rbind].
    destruct (IH C0 fuel _ q' (ltac:(lia)) I') as (s' & m & C' & c & F1 & Fk & F2 & F3 & post & F4); [lia|].
    exists s', m, C', (c1 + c)%nat. rewrite F1. split; [reflexivity|]. split; [unfold cost in *; lia|]. split; auto. split; auto. exists (post ++ [q]). rewrite F4, <- app_assoc. reflexivity.
  - exists s, q, (C0 ++ [q']), 0%nat. split; auto. split; [unfold cost; lia|]. split; [rewrite <- app_assoc; exact I|]. split; [|exists []; reflexivity].
    intros y C'' E V. apply app_inj_tail in E. destruct E as [_ <-]. apply flt_vis in V; [congruence|auto..].
Qed.

Lemma finish_cost s s' (c : nat) :
  rbind (hashEdge vs ctr s p) (fun s => rbind (prev_of s p) (fun pr => hashEdge vs ctr s pr)) = Ok s' ->
  rbind (hashEdge vs ctr s p) (fun s => rbind (prev_of s p) (fun pr => rbind (hashEdge vs ctr s pr) (fun s => Ok (s, c)))) = Ok (s', c) /\
  trianglesLen s' = trianglesLen s.
Proof.
  destruct (hashEdge vs ctr s p) as [s1| |] eqn:E1; cbn [rbind]; try discriminate.
  destruct (prev_of s1 p) as [pr| |]; cbn [rbind]; try discriminate. intros E2. rewrite E2. split; [reflexivity|].
  apply hashEdge_T in E1. apply hashEdge_T in E2. intuition congruence.
Qed.
Theorem insertPointN_ok :
  (insertPointN vs ctr s0 p (vat vs p) = Ok (s0, 0%nat) /\ forall u v, In (u, v) (polygon_edges R0) -> ~ vis u v) \/
  (exists s' C k, insertPointN vs ctr s0 p (vat vs p) = Ok (s', k) /\ 3 * Z.of_nat k <= trianglesLen s0 + trianglesLen s' /\ trianglesLen s' <= trianglesLen s0 + 3 * Z.of_nat k /\ rest s' (p :: V0) (p :: C) /\
     exists u v, In (u, v) (polygon_edges R0) /\ vis u v).
Proof.
  unfold insertPointN. rewrite (r_hlen _ _ _ RS).
  destruct (HKEY p Rp) as [K1 K2].
  set (key := hashKey ctr hs (vat vs p)) in *. cbv zeta.
  destruct (r_live _ _ _ RS) as (k & Hk & Ik). destruct (In_zget pts _ _ Hk) as (j & Rj & Ej). rewrite (r_hlen _ _ _ RS) in Rj.
  destruct (findStart_ok j k Rj Ej Ik (length (hash s0)) key None) as (k' & E1 & Ik'); auto.
  { pose proof (Z.mod_pos_bound (j - key) hs). pose proof (r_hlen _ _ _ RS). lia. }
  rewrite E1. cbn [rbind deref].
  pose proof (w_ring _ _ (r_wfs _ _ _ RS)) as RG.
  destruct (pe_pred R0 k' Ik') as (st & Est). rewrite (prev_of_ok s0 _ _ _ RG Est). cbn [rbind].
  destruct (pe_In _ _ _ Est) as [Ist _].
  destruct (rotate_to R0 st Ist) as (l & P1 & P2).
  assert (Len : (length R0 <= length pts)%nat).
  { apply NoDup_range_length; [apply (ND0 pts i0 i1 i2 hs V0 R0 s0 RS)|]. intros v Hv. rewrite <- (r_nodes _ _ _ RS). apply (rg_range _ _ _ RG); auto. }
  pose proof (r_nodes _ _ _ RS) as LN.
  assert (Len' : (length (st :: l) <= length (nodes s0))%nat).
  { rewrite <- (Permutation_length P1). lia. }
  cbn [length] in Len'.
  destruct (findVisible_ok st l P1 P2 l [] st (S (length (nodes s0)))) as [(x & y & E2 & Exy & V & W)|[E2 NV]]; [reflexivity|lia|intros u v []| |].
  2:{ left. rewrite E2. cbn [rbind]. auto. }
  pose proof (nstar_third p _ _ _ (r_mesh _ _ _ RS)) as N3.
  right. rewrite E2. cbn [rbind].
  destruct (pe_In _ _ _ Exy) as [Ix Iy].
  rewrite getN_ok by (apply (rg_range _ _ _ RG); auto). cbn [rbind]. rewrite (rg_next _ _ _ RG _ _ Exy). cbn [deref rbind].
  rewrite getN_ok by (apply (rg_range _ _ _ RG); auto). cbn [rbind].
  rewrite (rg_i _ _ _ RG _ Ix), (rg_i _ _ _ RG _ Iy). change (nT (NN s0 x)) with (NT s0 x).
  destruct (first_cost x y Exy V) as (s1 & s2 & s3 & s4 & s5 & r & C & c0 & A1 & A2 & A3 & A4 & A5 & I & LP & Bc & Lc & Pc).
  rewrite A1. cbn [rbind]. rewrite A2. cbn [rbind]. rewrite A3. cbn [rbind]. rewrite A4. cbn [rbind]. rewrite A5. cbn [rbind].
  assert (Epy : In (p, y) (polygon_edges (p :: y :: C ++ [x]))) by (left; auto).
  rewrite (next_of_ok s5 _ _ _ (w_ring _ _ (i_wfs _ _ I)) Epy). cbn [rbind].
  assert (LB : forall s D, ins s D -> (length D < S (length (nodes s)))%nat).
  { intros s D I'. pose proof (w_ring _ _ (i_wfs _ _ I')) as RG'.
    assert (Q : (length (p :: D) <= length pts)%nat).
    { apply NoDup_range_length; [apply (rg_nd _ _ _ RG')|]. intros v Hv. rewrite <- (i_nodes _ _ I'). apply (rg_range _ _ _ RG'); auto. }
    pose proof (i_nodes _ _ I'). cbn [length] in Q. lia. }
  destruct (walkForwardN_ok (C ++ [x]) (S (length (nodes s5))) s5 y I) as (s6 & m & C6 & c1 & B1 & KK1 & I6 & F6 & pre & X6).
  { pose proof (LB _ _ I). cbn [length] in H. lia. }
  rewrite B1. cbn [rbind].
  assert (Fin1 : forall m' z C', m :: C6 = m' :: z :: C' -> ~ vis m' z).
  { intros m' z C' [= <- Q]. apply (F6 z C'); auto. }
  destruct (Z.eqb_spec x st) as [Ex|Nx].
  - (* walk back *)
    destruct (exists_last (l := m :: C6)) as (D & q & ED); [discriminate|].
    rewrite ED in I6.
    assert (Eqp : In (q, p) (polygon_edges (p :: D ++ [q]))).
    { rewrite pe_snoc. apply in_or_app. right. left. auto. }
    rewrite (prev_of_ok s6 _ _ _ (w_ring _ _ (i_wfs _ _ I6)) Eqp). cbn [rbind].
    destruct (walkBackwardN_ok (length D) D (S (length (nodes s6))) s6 q eq_refl I6) as (s7 & m7 & C7 & c2 & B7 & K7 & I7 & F7 & post & X7).
    { pose proof (LB _ _ I6). rewrite app_length in H. cbn [length] in H. lia. }
    rewrite B7. cbn [rbind].
    destruct (finish_ok s7 (C7 ++ [m7]) x y I7 Exy V) as (s8 & E8 & R8).
    + intros m' z C' Q.
      assert (exists C'', m :: C6 = m' :: z :: C'') as (C'' & Q'').
      { rewrite ED, X7. destruct C7 as [|a [|b C7]]; simpl in Q; [discriminate| |]; injection Q as -> -> _; eexists; reflexivity. }
      apply (Fin1 m' z C''); auto.
    + intros l0 z C' Q. assert (C7 ++ [m7] = (C' ++ [z]) ++ [l0]) as Q' by (rewrite <- app_assoc; exact Q).
      apply app_inj_tail in Q'. destruct Q' as [-> ->]. apply (F7 z C'); auto.
    + exists s8, (C7 ++ [m7]), (c0 + c1 + c2)%nat. destruct (finish_cost _ _ (c0 + c1 + c2)%nat E8) as (-> & L8). split; [reflexivity|]. split; [unfold cost, star in *; rewrite L8; lia|]. split; [unfold cost, star in *; rewrite L8; lia|]. split; auto. exists x, y. auto.
  - cbn [rbind].
    destruct (finish_ok s6 (m :: C6) x y I6 Exy V Fin1) as (s8 & E8 & R8).
    + destruct W as [W|W]; [contradiction|].
      (* the last pair of the chain ends in x *)
      intros l0 z C' Q. rewrite Q in X6.
      assert (l0 = x /\ In (z, l0) (pairs (y :: C ++ [x]))) as [-> Q2].
      { split.
        - assert (pre ++ C' ++ [z; l0] = (pre ++ C' ++ [z]) ++ [l0]) as Q3 by (rewrite <- !app_assoc; reflexivity).
          rewrite Q3 in X6. change (y :: C ++ [x]) with ((y :: C) ++ [x]) in X6. apply app_inj_tail in X6. symmetry. apply X6.
        - rewrite X6. apply in_pairs. exists (pre ++ C'), []. rewrite <- app_assoc. reflexivity. }
      apply W. apply (c_pairs _ _ _ _ (i_chain _ _ I)). exact Q2.
    + exists s8, (m :: C6), (c0 + c1 + 0)%nat. destruct (finish_cost _ _ (c0 + c1 + 0)%nat E8) as (-> & L8). split; [reflexivity|]. split; [unfold cost, star in *; rewrite L8; lia|]. split; [unfold cost, star in *; rewrite L8; lia|]. split; auto. exists x, y. auto.
Qed.
End One.
End Insert.

Section Loop.
Context {FA : Arith}.
Variables (vs : list (vec FA)) (pts : list rv).
Hypothesis EX : exact_preds vs pts.
Notation n := (Ln pts).
Notation PP := (PP pts).
Variables (i0 i1 i2 : Z) (ctr : vec FA) (o : rv).
Hypothesis Hpl : planar pts.
Hypothesis Hseed : forall v, 0 <= v < n -> (0 <= incirc (PP i0) (PP i1) (PP i2) (PP v))%R.
Hypothesis Hseed_or : (0 < ar (PP i0) (PP i1) (PP i2))%R.
Variable hs : Z.
Hypothesis Hhs : 0 < hs.
Hypothesis HKEY : forall v, 0 <= v < n -> 0 <= hashKey ctr hs (vat vs v) < hs.
Hypothesis Hnear0 : forall i, 0 <= i < n -> flt FA (SquaredDistance (vat vs i) (mkvec infinity infinity (fofZ FA 0))) eps = false.
Hypothesis Hnear : forall i j, 0 <= i < n -> 0 <= j < n ->
  flt FA (SquaredDistance (vat vs i) (vat vs j)) eps = true -> (rdist2 (PP i) (PP j) < epsR)%R.
Notation rest := (rest pts i0 i1 i2 hs).
Notation D v := (dist2xy (PP v) o).
(* [u] may be inserted before [v] *)
Notation before := (before pts o).
Notation last_point := (last_point vs pts).
Notation samexy_same := (samexy_same pts Hpl).
Notation no_edge_coincides := (no_edge_coincides pts i0 i1 i2 o Hseed_or hs).
Notation rest_seeds := (rest_seeds pts i0 i1 i2 hs).
Notation rest_len := (rest_len pts i0 i1 i2 hs).
Definition Phi (V : list Z) : Z := 2 * Zlen V * (Zlen V - 4).
Lemma rest_tri s V R : rest s V R -> trianglesLen s <= 3 * (2 * Zlen V - 4).
Proof. intros RS. pose proof (rest_len _ _ _ RS). pose proof (r_count _ _ _ _ _ _ _ _ RS). unfold Zlen in *. lia. Qed.
Lemma insertAllN_ok : forall ids pp s V R, rest s V R -> NoDup ids -> (forall i, In i ids -> 0 <= i < n) ->
  (forall i, In i ids -> In i V -> i = i0 \/ i = i1 \/ i = i2) ->
  StronglySorted before ids -> (forall v i, In v V -> In i ids -> before v i) ->
  last_point pp V ->
  exists s' V' R' k, insertAllN vs ctr i0 i1 i2 ids pp s = Ok (s', k) /\ Z.of_nat k <= Phi V' - Phi V /\ trianglesLen s' <= trianglesLen s + 3 * Z.of_nat k /\ rest s' V' R' /\
    (forall v, In v V -> In v V') /\ forall i, In i ids -> exists v, In v V' /\ (rdist2 (PP i) (PP v) < epsR)%R.
Proof.
  assert (E0 : (0 < epsR)%R) by (pose proof epsR_pos; lra).
  induction ids as [|i ids IH]; intros pp s V R RS ND Rg Ov ST Far LP.
  { exists s, V, R, 0%nat. cbn [insertAllN]. split; auto. split; [lia|]. split; [lia|]. split; auto. split; auto. intros i []. }
  apply NoDup_cons_iff in ND. destruct ND as [Ni ND]. apply StronglySorted_inv in ST. destruct ST as [ST Fi]. rewrite Forall_forall in Fi.
  cbn [insertAllN]. assert (Ri : 0 <= i < n) by (apply Rg; simpl; auto). rewrite (zget_vat vs pts EX) by auto. cbn [rbind].
  assert (Rg' : forall j, In j ids -> 0 <= j < n) by (intros; apply Rg; right; auto).
  assert (Ov' : forall j, In j ids -> In j V -> j = i0 \/ j = i1 \/ j = i2) by (intros; apply Ov; [right|]; auto).
  assert (Far' : forall v j, In v V -> In j ids -> before v j) by (intros; apply Far; [|right]; auto).
  destruct (flt FA (SquaredDistance (vat vs i) pp) eps) eqn:Near.
  - (* near-duplicate *)
    destruct (IH pp s V R RS ND Rg' Ov' ST Far' LP) as (s' & V' & R' & k' & E & Bk & Tk & RS' & Sub & Cov).
    exists s', V', R', k'. split; auto. split; auto. split; auto. split; auto. split; auto. intros j [<-|Hj]; auto.
    destruct LP as [->|(k & v & Rk & -> & Iv & Sk)]; [rewrite Hnear0 in Near by auto; discriminate|].
    exists v. split; auto. apply Hnear in Near; auto.
    rewrite <- (samexy_same k v); auto. apply (r_range _ _ _ _ _ _ _ _ RS); auto.
  - assert (LPi : forall W v, In v W -> samexy (PP i) (PP v) -> last_point (vat vs i) W).
    { intros W v Hv Sv. right. exists i, v. auto. }
    assert (Refl : samexy (PP i) (PP i)) by (split; auto).
    destruct ((i =? i0) || (i =? i1) || (i =? i2)) eqn:Sd.
    + assert (Iv : In i V).
      { destruct (rest_seeds _ _ _ RS) as (I0 & I1 & I2).
        apply orb_true_iff in Sd. rewrite orb_true_iff in Sd. destruct Sd as [[Q|Q]|Q]; apply Z.eqb_eq in Q; subst i; auto. }
      destruct (IH (vat vs i) s V R RS ND Rg' Ov' ST Far' (LPi V i Iv Refl)) as (s' & V' & R' & k' & E & Bk & Tk & RS' & Sub & Cov).
      exists s', V', R', k'. split; auto. split; auto. split; auto. split; auto. split; auto. intros j [<-|Hj]; auto.
      exists i. split; auto. rewrite rdist2_refl. auto.
    + apply orb_false_iff in Sd. rewrite orb_false_iff in Sd. destruct Sd as [[Q0 Q1] Q2].
      apply Z.eqb_neq in Q0. apply Z.eqb_neq in Q1. apply Z.eqb_neq in Q2.
      assert (NV : ~ In i V). { intros Q. destruct (Ov i) as [|[|]]; simpl; auto. }
      destruct (insertPointN_ok vs pts EX i0 i1 i2 ctr Hseed Hseed_or hs Hhs HKEY i V R s RS Ri NV) as [[E Nvis]|(s1 & C & k1 & E & B1 & T1 & RS1 & _)];
        rewrite E; cbn [rbind].
      * destruct (no_edge_coincides s V R i RS Ri) as (v & Iv & Sv); auto.
        { intros v Hv. apply Far; simpl; auto. }
        destruct (IH (vat vs i) s V R RS ND Rg' Ov' ST Far' (LPi V v Iv Sv)) as (s' & V' & R' & k' & E' & Bk & Tk & RS' & Sub & Cov).
        exists s', V', R', (0 + k')%nat. rewrite E'. split; auto. split; [lia|]. split; [lia|]. split; auto. split; auto. intros j [<-|Hj]; auto.
        exists v. split; auto. rewrite (samexy_same i v); auto. rewrite rdist2_refl; auto. apply (r_range _ _ _ _ _ _ _ _ RS); auto.
      * destruct (IH (vat vs i) s1 (i :: V) (i :: C) RS1 ND Rg') as (s' & V' & R' & k' & E' & Bk & Tk & RS' & Sub & Cov); auto.
        { intros j Hj [<-|Hv]; [contradiction|auto]. }
        { intros v j [<-|Hv] Hj; auto. }
        { apply (LPi _ i); simpl; auto. }
        exists s', V', R', (k1 + k')%nat. rewrite E'. split; auto. split; [pose proof (rest_tri _ _ _ RS); pose proof (rest_tri _ _ _ RS1); unfold Phi, Zlen in *; cbn [length] in *; clear - Bk B1 H H0; lia|]. split; [lia|]. split; auto. split; [intros; apply Sub; simpl; auto|]. intros j [<-|Hj]; auto.
        exists i. split; [apply Sub; simpl; auto|]. rewrite rdist2_refl. auto.
Qed.
End Loop.

Lemma triangulateN_eq {FA : Arith} srt (vs : list (vec FA)) : vs <> [] -> triangulateN srt vs =
      let! (x0, y0, x1, y1) := bounds vs in
      let m := mkvec (fdiv FA (fadd FA x0 x1) (fofZ FA 2)) (fdiv FA (fadd FA y0 y1) (fofZ FA 2)) (fofZ FA 0) in
      let i0 := seed0 vs m in
      let! v0 := zget vs i0 in
      let i1 := seed1 vs i0 v0 in
      let! v1 := zget vs i1 in
      let '(i2, minRadius) := seed2 vs i0 i1 v0 v1 in
      if feq FA minRadius infinity then Ok (emptyTri, true, 0%nat)
      else
        let! v2 := zget vs i2 in
        let '(i1, i2) := if flt FA (area v0 v1 v2) (fofZ FA 0) then (i2, i1) else (i1, i2) in
        let! v1 := zget vs i1 in
        let! v2 := zget vs i2 in
        let center := circumcenter v0 v1 v2 in
        let sq := map (fun p => SquaredDistance p center) vs in
        let ids := srt (lessId vs sq) (allIds (length vs)) in
        let! s := initTri vs center i0 i1 i2 in
        let! (s, c) := insertAllN vs center i0 i1 i2 ids (mkvec infinity infinity (fofZ FA 0)) s in
        Ok (cut s, false, c).
Proof. destruct vs as [|a l]; [contradiction|]. reflexivity. Qed.

Section Run.
Context {FA : Arith}.
Variables (vs : list (vec FA)) (pts : list rv).
Hypothesis EX : exact_preds vs pts.
Notation n := (Ln pts).
Notation PP := (PP pts).
Variables (i0 i1 i2 : Z) (ctr : vec FA) (o : rv).
Hypothesis Hpl : planar pts.
Hypothesis Hseed : forall v, 0 <= v < n -> (0 <= incirc (PP i0) (PP i1) (PP i2) (PP v))%R.
Hypothesis Hseed_or : (0 < ar (PP i0) (PP i1) (PP i2))%R.
Hypothesis R0 : 0 <= i0 < n.
Hypothesis R1 : 0 <= i1 < n.
Hypothesis R2 : 0 <= i2 < n.
Notation hs := (ftoZ FA (fceil FA (fsqrt FA (fofZ FA n)))).
Hypothesis Hhs : 0 < hs.
Hypothesis HKEY : forall v, 0 <= v < n -> 0 <= hashKey ctr hs (vat vs v) < hs.
Hypothesis Hnear0 : forall i, 0 <= i < n -> flt FA (SquaredDistance (vat vs i) (mkvec infinity infinity (fofZ FA 0))) eps = false.
Hypothesis Hnear : forall i j, 0 <= i < n -> 0 <= j < n ->
  flt FA (SquaredDistance (vat vs i) (vat vs j)) eps = true -> (rdist2 (PP i) (PP j) < epsR)%R.
Variable ids : list Z.
Hypothesis Hnd : NoDup ids.
Hypothesis Hids : forall a, In a ids <-> 0 <= a < n.
Hypothesis Hst : StronglySorted (before pts o) ids.
Hypothesis Hfirst : forall j i, In j [i0; i1; i2] -> 0 <= i < n -> before pts o j i.

Lemma Phi_top s V R k : rest pts i0 i1 i2 hs s V R -> Z.of_nat k <= Phi V - Phi [i0; i1; i2] -> Z.of_nat k <= 2 * (n - 1) * (n - 3).
Proof.
  intros RS B. assert (NV : (length V <= length pts)%nat).
  { apply NoDup_range_length; [apply (r_nd _ _ _ _ _ _ _ _ RS)|apply (r_range _ _ _ _ _ _ _ _ RS)]. }
  pose proof (rest_tri pts i0 i1 i2 hs s V R RS) as T. pose proof (r_pos _ _ _ _ _ _ _ _ RS) as P.
  unfold Phi, Zlen in *. change (Z.of_nat (length [i0; i1; i2])) with 3 in B.
  set (v := Z.of_nat (length V)) in *. assert (v <= n) by (unfold v; lia). assert (3 <= v) by lia. nia.
Qed.
Theorem runN_ok : exists s V R k,
  (let! s := initTri vs ctr i0 i1 i2 in
   let! (s, c) := insertAllN vs ctr i0 i1 i2 ids (mkvec infinity infinity (fofZ FA 0)) s in
   Ok (cut s, false, c)) = Ok (cut s, false, k) /\ Z.of_nat k <= 2 * (n - 1) * (n - 3) /\ trianglesLen s <= 3 * (Z.of_nat k + 1) /\
  rest pts i0 i1 i2 hs s V R /\
  forall i, 0 <= i < n -> exists v, In v V /\ (rdist2 (PP i) (PP v) < epsR)%R.
Proof.
  destruct (initTri_ok vs pts EX i0 i1 i2 ctr Hseed Hseed_or R0 R1 R2 Hhs HKEY) as (s & Ei & RS). rewrite Ei. cbn [rbind].
  destruct (insertAllN_ok vs pts EX i0 i1 i2 ctr o Hpl Hseed Hseed_or hs Hhs HKEY Hnear0 Hnear ids
    (mkvec infinity infinity (fofZ FA 0)) s [i0; i1; i2] [i0; i1; i2]) as (s' & V' & R' & k & Ea & Bk & Tk & RS' & _ & Cov); auto.
  - intros i Hi. apply Hids; auto.
  - intros i _ [<-|[<-|[<-|[]]]]; auto.
  - intros v i Hv Hi. apply Hfirst; auto. apply Hids; auto.
  - left. reflexivity.
  - exists s', V', R', k. rewrite Ea. cbn [rbind]. split; auto. split; [apply (Phi_top s' V' R'); auto|]. split; [pose proof (r_count _ _ _ _ _ _ _ _ RS) as Rc; change (Zlen [i0; i1; i2]) with 3 in Rc; lia|]. split; auto. intros i Hi. apply Cov. apply Hids; auto.
Qed.
End Run.

Theorem triangulateN_planar srt pts : good_sort srt -> planar pts -> length pts <> 1%nat -> Ln pts < 2 ^ 63 ->
  (pts = [] /\ triangulateN srt (map fv pts) = Ok (emptyTri, false, 0%nat)) \/
  (2 <= Ln pts /\ on_a_line pts /\ triangulateN srt (map fv pts) = Ok (emptyTri, true, 0%nat)) \/
  (~ on_a_line pts /\ exists s V R i0 i1 i2 k, triangulateN srt (map fv pts) = Ok (cut s, false, k) /\ Z.of_nat k <= 2 * (Ln pts - 1) * (Ln pts - 3) /\ trianglesLen s <= 3 * (Z.of_nat k + 1) /\
     rest pts i0 i1 i2 (hsize pts) s V R /\
     forall i, 0 <= i < Ln pts -> exists v, In v V /\ (rdist2 (PP pts i) (PP pts v) < epsR)%R).
Proof.
  intros GS Pl L1 Big. destruct (Nat.eq_dec (length pts) 0) as [E|NE].
  { left. destruct pts; [|discriminate]. split; reflexivity. }
  right. assert (N2 : 2 <= Ln pts) by lia.
  rewrite triangulateN_eq by (intros Q; apply NE; destruct pts; [reflexivity|discriminate]). cbv zeta. set (n := Ln pts) in *.
  unfold bounds. rewrite !zget_vs by lia. cbn [rbind]. destruct (fold_left _ _ _) as [[[x0 y0] x1] y1].
  set (m := @mkvec XR _ _ _). pose proof (seed0_range pts N2 m) as R0. rewrite (zget_vs pts (seed0 _ m)) by auto. cbn [rbind].
  set (i0 := seed0 (map fv pts) m) in *. destruct (seed1_spec pts Pl N2 i0 R0) as [R1 _]. rewrite (zget_vs pts (seed1 _ _ _)) by auto. cbn [rbind].
  destruct (seed2 _ _ _ _ _) as [i2 r] eqn:E2.
  destruct (seeds_ok pts Pl N2 m _ i2 r eq_refl E2) as (_ & _ & D).
  set (i1 := seed1 (map fv pts) i0 (fv (PP pts i0))) in *.
  destruct D as [[-> Line]|(Ef & R2 & Ar & Emp)].
  { left. cbn. auto. }
  change (ar (PP pts i0) (PP pts i1) (PP pts i2) <> 0%R) in Ar.
  change (forall v, 0 <= v < n -> (0 <= ar (PP pts i0) (PP pts i1) (PP pts i2) * incirc (PP pts i0) (PP pts i1) (PP pts i2) (PP pts v))%R) in Emp.
  right. assert (NL : ~ on_a_line pts).
  { intros Ln. apply Ar. apply (line_ar pts _ _ _ Ln); apply PP_In; auto. }
  split; auto. rewrite Ef. rewrite (zget_vs pts i2) by auto. cbn [rbind].
  rewrite area_fv.
  (* the general case for a positively oriented seed *)
  assert (Gen : forall j1 j2, 0 <= j1 < n -> 0 <= j2 < n -> (0 < ar (PP pts i0) (PP pts j1) (PP pts j2))%R ->
    (forall v, 0 <= v < n -> (0 <= incirc (PP pts i0) (PP pts j1) (PP pts j2) (PP pts v))%R) ->
    exists s V R a0 a1 a2 k,
     (let! v1 := zget (map fv pts) j1 in
      let! v2 := zget (map fv pts) j2 in
      let! s := initTri (map fv pts) (circumcenter (fv (PP pts i0)) v1 v2) i0 j1 j2 in
      let! (s, c) := insertAllN (map fv pts) (circumcenter (fv (PP pts i0)) v1 v2) i0 j1 j2
         (srt (lessId (map fv pts) (map (fun p => SquaredDistance p (circumcenter (fv (PP pts i0)) v1 v2)) (map fv pts))) (allIds (length (map fv pts))))
         (mkvec infinity infinity (fofZ XR 0)) s in
      Ok (cut s, false, c)) = Ok (cut s, false, k) /\ Z.of_nat k <= 2 * (n - 1) * (n - 3) /\ trianglesLen s <= 3 * (Z.of_nat k + 1) /\
     rest pts a0 a1 a2 (hsize pts) s V R /\
     forall i, 0 <= i < n -> exists v, In v V /\ (rdist2 (PP pts i) (PP pts v) < epsR)%R).
  { intros j1 j2 Rj1 Rj2 Or Hs. rewrite !zget_vs by auto. cbn [rbind].
    assert (Nc : ccw (PP pts i0) (PP pts j1) (PP pts j2) <> 0%R) by (unfold ar in Or; lra).
    rewrite circumcenter_fv by auto. set (ctr := rcircumcenter (PP pts i0) (PP pts j1) (PP pts j2)).
    pose proof (rcircumcenter_circle _ _ _ Nc) as Ci. fold ctr in Ci.
    set (r2 := dist2xy (PP pts i0) ctr) in *.
    assert (Rp : (0 < r2)%R).
    { destruct (sq2_nonneg (PP pts i0) ctr) as [|Q]; [auto|]. exfalso. fold r2 in Q. unfold sq2 in Q. fold r2 in Q. 
      destruct Ci as (C1 & C2 & C3). rewrite <- Q in *. apply sq2_zero in C1. apply sq2_zero in C2. 
      destruct C1 as [A1 A2]. destruct C2 as [B1 B2]. apply Nc. unfold ccw. rewrite A1, A2, B1, B2. ring. }
    assert (Out : forall v, 0 <= v < n -> (r2 <= dist2xy (PP pts v) ctr)%R).
    { intros v Hv. specialize (Hs v Hv). rewrite (incirc_identity _ _ _ _ _ _ Ci) in Hs. unfold ar in Or.
      destruct (Rle_lt_dec r2 (dist2xy (PP pts v) ctr)) as [|Q]; auto. exfalso.
      assert (0 < (- ccw (PP pts i0) (PP pts j1) (PP pts j2)) * (r2 - dist2xy (PP pts v) ctr))%R by (apply Rmult_lt_0_compat; lra). lra. }
    assert (Hctr : forall v, 0 <= v < n -> ~ samexy ctr (PP pts v)).
    { intros v Hv [Q1 Q2]. specialize (Out v Hv). unfold dist2xy in Out. rewrite Q1, Q2 in Out. lra. }
    pose proof (sorted_ids pts ctr srt GS) as SI. cbv zeta in SI.
    set (ids := srt _ _) in *. destruct SI as (ND & Iids & ST).
    pose proof (hsize_range pts i0 R0 Big) as HR.
    assert (B : forall a b, 0 <= a < n -> 0 <= b < n -> (dist2xy (PP pts a) ctr <= dist2xy (PP pts b) ctr)%R -> before pts ctr a b).
    { intros a b Ha Hb Q. unfold before. destruct (sq2_nonneg (PP pts a) (PP pts b)) as [G|G]; unfold sq2 in G; [right; lra|left].
      symmetry in G. apply sq2_zero in G. destruct G. split; auto. }
    destruct (runN_ok (map fv pts) pts (exact_XR pts) i0 j1 j2 (fv ctr) ctr) with (ids := ids) as (s & V & R & k & E & Bk & Tk & RS & Cov); auto.
    - rewrite (hsize_eq pts i0 R0 Big). lia.
    - rewrite (hsize_eq pts i0 R0 Big). intros v Hv. rewrite vat_PP. apply hashKey_range; auto.
    - intros i Hi. rewrite vat_PP. reflexivity.
    - intros i j Hi Hj Near. rewrite !vat_PP, SquaredDistance_fv, eps_fin in Near. cbn in Near. apply Rltb_true in Near. exact Near.
    - assert (Ii : forall a, In a ids -> 0 <= a < n) by (intros a; apply Iids). clearbody ids. clearbody ctr. clear -ST Ii Pl B. induction ST as [|x l ST IH F]; constructor.
      + apply IH. intros; apply Ii; right; auto.
      + rewrite Forall_forall in *. intros y Hy. specialize (F y Hy).
        assert (E : rz (PP pts x) = rz (PP pts y)) by (apply Pl; apply PP_In; apply Ii; simpl; auto).
        apply B; [apply Ii; simpl; auto|apply Ii; simpl; auto|].
        unfold rdist2, rdot, rsub in F; simpl in F. unfold dist2xy. rewrite E in F. lra.
    - intros v i Hv Hi. specialize (Out i Hi). destruct Ci as (C1 & C2 & C3).
      destruct Hv as [<-|[<-|[<-|[]]]]; apply B; auto; lra.
    - exists s, V, R, i0, j1, j2, k. rewrite (hsize_eq pts i0 R0 Big) in RS. split; auto. }
  cbn [flt XR xltb fofZ]. destruct (Rltb (- ccw (PP pts i0) (PP pts i1) (PP pts i2)) 0) eqn:B.
  - apply Rltb_true in B.
    assert (B' : (ar (PP pts i0) (PP pts i1) (PP pts i2) < 0)%R) by (unfold ar; lra). apply Gen; auto.
    + rewrite ar_swap23. lra.
    + intros v Hv. specialize (Emp v Hv).
      assert (E : incirc (PP pts i0) (PP pts i2) (PP pts i1) (PP pts v) = (- incirc (PP pts i0) (PP pts i1) (PP pts i2) (PP pts v))%R)
        by (unfold incirc; ring).
      rewrite E. apply (Rmult_le_reg_l (- ar (PP pts i0) (PP pts i1) (PP pts i2))); lra.
  - assert (B' : (0 < ar (PP pts i0) (PP pts i1) (PP pts i2))%R).
    { unfold Rltb in B. destruct Rlt_dec; [discriminate|]. unfold ar in *. lra. }
    apply Gen; auto. intros v Hv. specialize (Emp v Hv).
    apply (Rmult_le_reg_l (ar (PP pts i0) (PP pts i1) (PP pts i2))); lra.
Qed.

