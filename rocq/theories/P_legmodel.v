(** legalize of the model returns and follows the relation [Leg], from every consistent mesh. *)
From Coq Require Import ZArith Lia List Bool FunctionalExtensionality Permutation.
From Verif Require Import Base Arith GoLoop M_r3 M_tri2 M_triangulator Spec_plane P_polygon P_ring P_halfedge
  P_flip P_leg P_tstate.
Import ListNotations.
Open Scope Z_scope.

(** the search of fixHull *)
Lemma fixHull_ok s h R : ring (Ln (nodes s)) (NN s) (h :: R) -> forall bl a,
  exists N1 s', fixHull (S (length (nodes s))) s h h bl a = Ok s' /\
    ((exists v, In v (h :: R) /\ NT s v = bl /\ s' = updS s v (setT a)) \/
     ((forall v, In v (h :: R) -> NT s v <> bl) /\ s' = s)) /\ N1 = NT s'.
Proof.
  intros RG bl a.
  assert (G : forall rest done e fuel, h :: R = done ++ e :: rest -> (length rest < fuel)%nat ->
    (forall v, In v done -> NT s v <> bl) ->
    exists s', fixHull fuel s h e bl a = Ok s' /\
    ((exists v, In v (h :: R) /\ NT s v = bl /\ s' = updS s v (setT a)) \/
     ((forall v, In v (h :: R) -> NT s v <> bl) /\ s' = s))).
  { induction rest as [|e' rest IH]; intros done e fuel E Hf Hd; destruct fuel as [|fuel]; try (simpl in Hf; lia).
    - assert (In e (h :: R)) by (rewrite E; apply in_or_app; right; left; auto).
      simpl fixHull. rewrite getN_ok by (apply (rg_range _ _ _ RG); auto). simpl rbind. cbv beta.
      change (nT (NN s e)) with (NT s e).
      destruct (Z.eqb_spec (NT s e) bl) as [Eb|Eb].
      + rewrite updN_ok by (apply (rg_range _ _ _ RG); auto). eexists. split; [reflexivity|]. left. eauto.
      + assert (NX : nNext (NN s e) = Some h).
        { apply (rg_next _ _ _ RG). rewrite pe_pairs.
          change (h :: R ++ [h]) with ((h :: R) ++ [h]). rewrite E, <- app_assoc. simpl app.
          rewrite pairs_snoc. apply in_or_app. right. left. auto. }
        rewrite NX. simpl. rewrite Z.eqb_refl. exists s. split; auto. right. split; auto.
        intros v Hv. change (In v (h :: R)) in Hv. rewrite E in Hv. apply in_app_or in Hv. destruct Hv as [Hv|[<-|[]]]; auto.
    - assert (In e (h :: R)) by (rewrite E; apply in_or_app; right; left; auto).
      simpl fixHull. rewrite getN_ok by (apply (rg_range _ _ _ RG); auto). simpl rbind. cbv beta.
      change (nT (NN s e)) with (NT s e).
      destruct (Z.eqb_spec (NT s e) bl) as [Eb|Eb].
      + rewrite updN_ok by (apply (rg_range _ _ _ RG); auto). eexists. split; [reflexivity|]. left. eauto.
      + assert (NX : nNext (NN s e) = Some e').
        { apply (rg_next _ _ _ RG). rewrite pe_pairs. apply in_pairs.
          exists done, (rest ++ [h]). change (h :: R ++ [h]) with ((h :: R) ++ [h]). rewrite E, <- app_assoc. reflexivity. }
        rewrite NX. simpl. destruct (Z.eqb_spec e' h) as [Eh|Eh].
        { exfalso. pose proof (rg_nd _ _ _ RG) as ND. rewrite E in ND.
          destruct done as [|d0 done].
          - simpl in E. injection E as <- _. apply NoDup_cons_iff in ND. destruct ND as [ND _]. apply ND. left. auto.
          - simpl in E. injection E as <- _. simpl in ND. apply NoDup_cons_iff in ND. destruct ND as [ND _].
            apply ND. apply in_or_app. right. right. left. auto. }
        apply (IH (done ++ [e]) e' fuel).
        * rewrite <- app_assoc. exact E.
        * simpl in Hf. lia.
        * intros v Hv. apply in_app_or in Hv. destruct Hv as [Hv|[<-|[]]]; auto. }
  destruct (G R [] h (S (length (nodes s))) eq_refl) as (s' & E1 & E2).
  - pose proof (ring_length _ _ _ RG). simpl in *. lia.
  - intros v [].
  - exists (NT s'), s'. auto.
Qed.

(** number of triangles without the vertex p *)
Definition tris (L : Z) : list Z := map (fun k => 3 * Z.of_nat k) (seq 0 (Z.to_nat (L / 3))).
Lemma tris_In L e : 0 <= e < L -> L mod 3 = 0 -> In (3 * (e / 3)) (tris L).
Proof.
  intros He HL. apply in_map_iff. exists (Z.to_nat (e / 3)).
  assert (0 <= e / 3) by (apply Z.div_pos; lia).
  split; [rewrite Z2Nat.id; auto|]. apply in_seq. split; [lia|].
  assert (e / 3 < L / 3); [|lia].
  pose proof (Z.div_mod e 3). pose proof (Z.mod_pos_bound e 3). pose proof (Z.div_mod L 3). lia.
Qed.
Definition nstar (p L : Z) (T : Z -> Z) : nat := length (filter (fun e => if has_dec p T e then false else true) (tris L)).
Lemma filter_le {X} (f g : X -> bool) l : (forall x, In x l -> g x = true -> f x = true) ->
  (length (filter g l) <= length (filter f l))%nat.
Proof.
  induction l as [|x l IH]; intros H; [auto|]. simpl.
  pose proof (IH (fun y Hy => H y (or_intror Hy))). pose proof (H x (or_introl eq_refl)).
  destruct (g x), (f x); simpl; try lia.
Qed.
Lemma filter_lt {X} (f g : X -> bool) l y : (forall x, In x l -> g x = true -> f x = true) ->
  In y l -> f y = true -> g y = false -> (length (filter g l) < length (filter f l))%nat.
Proof.
  induction l as [|x l IH]; intros H Hy Hf Hg; [destruct Hy|].
  pose proof (fun z Hz => H z (or_intror Hz)) as H'.
  destruct Hy as [->|Hy].
  - simpl. rewrite Hf, Hg. simpl. pose proof (filter_le f g l H'). lia.
  - specialize (IH H' Hy Hf Hg). simpl. pose proof (H x (or_introl eq_refl)).
    destruct (g x), (f x); simpl; try lia.
Qed.
Lemma nstar_le p L T T' : (forall e, has p T e -> has p T' e) -> (nstar p L T' <= nstar p L T)%nat.
Proof.
  intros H. apply filter_le. intros e _ He. destruct (has_dec p T' e); [discriminate|].
  destruct (has_dec p T e); auto; exfalso; auto.
Qed.
Lemma nstar_lt p L T T' b : (forall e, has p T e -> has p T' e) -> 0 <= b < L -> L mod 3 = 0 ->
  ~ has p T b -> has p T' b -> (nstar p L T' < nstar p L T)%nat.
Proof.
  intros H Hb HL Hn Hh. apply (filter_lt _ _ _ (3 * (b / 3))).
  - intros e _ He. destruct (has_dec p T' e); [discriminate|].
    destruct (has_dec p T e); auto; exfalso; auto.
  - apply tris_In; auto.
  - destruct (has_dec p T (3 * (b / 3))) as [Q|]; auto. exfalso. apply Hn.
    apply (has_same_tri p T (3 * (b / 3)) b); auto. rewrite same_tri_div. rewrite <- (Z.add_0_r (3 * (b / 3))). apply div3_eq; lia.
  - destruct (has_dec p T' (3 * (b / 3))) as [|Q]; auto. exfalso. apply Q.
    apply (has_same_tri p T' b (3 * (b / 3))); auto. rewrite same_tri_div. symmetry. rewrite <- (Z.add_0_r (3 * (b / 3))). apply div3_eq; lia.
Qed.
Lemma nstar_bound p L T : 0 <= L -> (nstar p L T <= Z.to_nat L)%nat.
Proof.
  intros HL. unfold nstar.
  assert (forall (l : list Z) f, (length (filter f l) <= length l)%nat) as G.
  { induction l as [|x l IH]; intros f; simpl; [lia|]. specialize (IH f). destruct (f x); simpl; lia. }
  pose proof (G (tris L) (fun e => if has_dec p T e then false else true)) as H.
  unfold tris at 2 in H. rewrite map_length, seq_length in H.
  pose proof (Z.div_mod L 3). pose proof (Z.mod_pos_bound L 3). lia.
Qed.

Section Model.
Context {A : Arith}.
Variable vs : list (vec A).
Definition vat (i : Z) : vec A := getz (mkvec (fofZ A 0) (fofZ A 0) (fofZ A 0)) vs i.
Definition badA (a b c v : Z) : bool := inCircle (vat a) (vat b) (vat c) (vat v).
(* the point tested against a triangle it belongs to is never inside *)
Hypothesis bad_self : forall p b c, badA p b c p = false.

Record wfs (s : tri) (R : list Z) : Prop := {
  w_len : trianglesLen s <= Ln (triangles s);
  w_len2 : length (halfedges s) = length (triangles s);
  w_ring : ring (Ln (nodes s)) (NN s) R;
  w_hull : exists h, hull s = Some h /\ In h R }.
Definition verts (s : tri) : Prop := forall e, 0 <= e < trianglesLen s -> 0 <= TT s e < Ln vs.

(* what legalize does not touch *)
Record lframe (s s' : tri) : Prop := {
  lf_len : trianglesLen s' = trianglesLen s;
  lf_tl : length (triangles s') = length (triangles s);
  lf_hl : length (halfedges s') = length (halfedges s);
  lf_hull : hull s' = hull s;
  lf_hash : hash s' = hash s;
  lf_nl : length (nodes s') = length (nodes s);
  lf_node : forall k, NN s' k = setT (NT s' k) (NN s k) }.
Lemma lframe_refl s : lframe s s.
Proof. constructor; auto. intros k. unfold NT. destruct (NN s k); reflexivity. Qed.
Lemma lframe_trans s1 s2 s3 : lframe s1 s2 -> lframe s2 s3 -> lframe s1 s3.
Proof.
  intros [A1 A2 A3 A4 A5 A6 A7] [B1 B2 B3 B4 B5 B6 B7]. constructor; try congruence.
  intros k. rewrite B7, A7. reflexivity.
Qed.
Lemma lframe_wfs s s' R : lframe s s' -> wfs s R -> wfs s' R.
Proof.
  intros [A1 A2 A3 A4 A5 A6 A7] [B1 B2 B3 B4]. constructor; try congruence.
  - rewrite A6. apply (ring_ext _ (NN s)); auto. intros v _. rewrite A7. auto.
  - rewrite A4. exact B4.
Qed.

Lemma legalize_ok R : forall fuel s a, wfs s R ->
  mesh (trianglesLen s) (TT s) (HH s) -> verts s -> 0 <= a < trianglesLen s ->
  (nstar (TT s (pv a)) (trianglesLen s) (TT s) < fuel)%nat ->
  exists s' r, legalize vs fuel s a = Ok (s', r) /\
    Leg badA R (TT s) (HH s) (NT s) a (TT s') (HH s') (NT s') r /\
    lframe s s' /\ mesh (trianglesLen s) (TT s') (HH s') /\ verts s' /\
    (forall e, has (TT s (pv a)) (TT s) e -> has (TT s (pv a)) (TT s') e) /\
    (forall e, has (TT s (pv a)) (TT s) e -> e <> a -> TT s' e = TT s e).
Proof.
  induction fuel as [|fuel IH]; intros s a W M V Ha Hf; [lia|].
  set (L := trianglesLen s) in *. pose proof (m_L3 _ _ _ M) as L3.
  pose proof (pv_range L a L3 Ha) as Rar. pose proof (nx_range L a L3 Ha) as Ral.
  assert (LT : L <= Ln (triangles s)) by apply (w_len _ _ W).
  assert (LH : L <= Ln (halfedges s)) by (rewrite (w_len2 _ _ W); auto).
  cbn [legalize]. rewrite (zget_getz (-1) (halfedges s)) by lia. cbn [rbind]. cbv zeta.
  change (getz (-1) (halfedges s) a) with (HH s a).
  rewrite (rem_pv a), (rem_nx a) by lia.
  destruct (Z.ltb_spec (HH s a) 0) as [Hneg|Hb].
  { exists s, (pv a). split; [reflexivity|]. split; [apply Leg_stop; auto|].
    split; [apply lframe_refl|]. split; [exact M|]. split; [exact V|]. split; auto. }
  destruct (flip_b _ _ _ a M Ha Hb) as (Rb & Ib & E1 & E2).
  rewrite (rem_pv (HH s a)), (rem_nx (HH s a)) by lia.
  set (b := HH s a) in *.
  pose proof (pv_range L b L3 Rb) as Rbl. pose proof (nx_range L b L3 Rb) as Rbr.
  rewrite !(zget_getz 0 (triangles s)) by lia. cbn [rbind].
  change (getz 0 (triangles s)) with (TT s).
  pose (d := mkvec (fofZ A 0) (fofZ A 0) (fofZ A 0)).
  rewrite (zget_getz d vs (TT s (pv a))) by (apply V; auto). cbn [rbind].
  rewrite (zget_getz d vs (TT s a)) by (apply V; auto). cbn [rbind].
  rewrite (zget_getz d vs (TT s (nx a))) by (apply V; auto). cbn [rbind].
  rewrite (zget_getz d vs (TT s (pv b))) by (apply V; auto). cbn [rbind].
  change (inCircle _ _ _ _) with (badA (TT s (pv a)) (TT s a) (TT s (nx a)) (TT s (pv b))).
  destruct (badA (TT s (pv a)) (TT s a) (TT s (nx a)) (TT s (pv b))) eqn:Eb.
  2: { exists s, (pv a). split; [reflexivity|]. split; [apply Leg_stop; auto|].
       split; [apply lframe_refl|]. split; [exact M|]. split; [exact V|]. split; auto. }
  assert (p01 : TT s (pv a) <> TT s (pv b)).
  { intros E. rewrite <- E, bad_self in Eb. discriminate. }
  set (p := TT s (pv a)) in *.
  rewrite zset_setz by lia. cbn [rbind]. rewrite zset_setz by (rewrite setz_length; lia). cbn [rbind].
  set (s1 := withTriangles _ s).
  assert (T1 : TT s1 = flipT (TT s) a b).
  { unfold TT, s1. cbn [triangles withTriangles]. rewrite getz_setz by (rewrite setz_length; lia).
    rewrite getz_setz by lia. reflexivity. }
  assert (H1 : HH s1 = HH s) by reflexivity.
  assert (N1 : NT s1 = NT s) by reflexivity.
  assert (F1 : lframe s s1).
  { constructor; try reflexivity; [unfold s1; simpl; rewrite !setz_length; auto|].
    intros k. unfold NT. change (NN s1 k) with (NN s k). destruct (NN s k); reflexivity. }
  clearbody s1.
  pose proof (lframe_wfs _ _ R F1 W) as W1.
  rewrite (zget_getz (-1)) by (rewrite (lf_hl _ _ F1); lia). cbn [rbind].
  change (getz (-1) (halfedges s1)) with (HH s1). rewrite H1.
  (* fixHull *)
  assert (FX : exists s2, (if HH s (pv b) =? -1 then rbind (deref (hull s1)) (fun h => fixHull (S (length (nodes s1))) s1 h h (pv b) a)
                            else Ok s1) = Ok s2 /\ lframe s1 s2 /\ triangles s2 = triangles s1 /\ halfedges s2 = halfedges s1 /\
                            FixN R (HH s) (NT s) (pv b) a (NT s2)).
  { destruct (Z.eqb_spec (HH s (pv b)) (-1)) as [Em|Em].
    - destruct (w_hull _ _ W1) as (h & Eh & Hin). rewrite Eh. cbn [deref rbind].
      destruct (rotate_to R h Hin) as (R' & P1 & P2).
      pose proof (ring_rot _ _ _ _ P1 P2 (w_ring _ _ W1)) as RG.
      destruct (fixHull_ok s1 h R' RG (pv b) a) as (Nn & s2 & E & C & _). exists s2. split; [exact E|].
      assert (RR : forall v, In v (h :: R') <-> In v R).
      { intros v. split; intros Hv; [apply (Permutation_in _ (Permutation_sym P1))|apply (Permutation_in _ P1)]; auto. }
      destruct C as [(v & Hv & Ev & ->)|(Hno & ->)].
      + assert (Rv : 0 <= v < Ln (nodes s1)) by (apply (rg_range _ _ _ RG); auto).
        repeat split; auto.
        * apply len_updS.
        * intros k. unfold NT. rewrite NN_updS by auto. unfold updg.
          destruct (Z.eqb_spec k v) as [->|]; [reflexivity|destruct (NN s1 k); reflexivity].
        * intros _. left. exists v. repeat split; [apply RR; auto|rewrite <- N1; auto|].
          rewrite NT_updS_T by auto. rewrite N1. reflexivity.
        * intros; contradiction.
      + split; [apply lframe_refl|]. repeat split; auto.
        intros _. right. split; auto. intros v Hv. rewrite <- N1. apply Hno. apply RR; auto.
    - exists s1. split; [reflexivity|]. split; [apply lframe_refl|]. split; auto. split; auto. split; [intros; contradiction|auto]. }
  destruct FX as (s2 & EF & F2 & Tr2 & Hf2 & FN). rewrite EF. clear EF. cbn [rbind].
  assert (T2 : TT s2 = flipT (TT s) a b) by (rewrite <- T1; unfold TT; rewrite Tr2; reflexivity).
  assert (H2 : HH s2 = HH s) by (rewrite <- H1; unfold HH; rewrite Hf2; reflexivity).
  pose proof (lframe_trans _ _ _ F1 F2) as F12. clear F1 F2 Tr2 Hf2 T1 H1 N1 W1 s1.
  assert (Lh2 : Ln (halfedges s2) = Ln (halfedges s)) by (rewrite (lf_hl _ _ F12); auto).
  rewrite (zget_getz (-1)) by lia. cbn [rbind]. change (getz (-1) (halfedges s2)) with (HH s2). rewrite H2.
  assert (Cb : HH s (pv b) < L).
  { destruct (m_pair _ _ _ M (pv b) Rbl) as [Q|(Q & _)]; lia. }
  rewrite link_ok by lia. cbn [rbind].
  set (s3 := linkS s2 a (HH s (pv b))).
  assert (H3 : HH s3 = flink (HH s) a (HH s (pv b))).
  { unfold s3. rewrite HH_linkS by lia. rewrite H2. reflexivity. }
  assert (Lh3 : Ln (halfedges s3) = Ln (halfedges s)) by (unfold s3; rewrite len_linkS; auto).
  rewrite (zget_getz (-1)) by lia. cbn [rbind]. change (getz (-1) (halfedges s3)) with (HH s3). rewrite H3.
  destruct (flip_six _ _ _ a M Ha Hb p01) as (S1 & S2 & S3 & S4 & S5 & S6 & S7 & S8 & S9 & S10 & S11 & S12 & S13 & S14 & S15).
  assert (Ear : flink (HH s) a (HH s (pv b)) (pv a) = HH s (pv a)).
  { unfold flink. destruct (Z.leb_spec 0 (HH s (pv b))) as [Q|Q].
    - rewrite !upd_other; auto.
      destruct (flip_c _ _ _ a M Ha Hb p01) as [W0|(_ & _ & _ & _ & W0 & _)]; fold b in W0; [zl|].
      intros E. apply W0. rewrite <- E. apply same_tri_pv.
    - rewrite upd_other; auto. }
  rewrite Ear.
  assert (Da : HH s (pv a) < L).
  { destruct (m_pair _ _ _ M (pv a) Rar) as [Q|(Q & _)]; zl. }
  rewrite link_ok by zl. cbn [rbind].
  set (s4 := linkS s3 b (HH s (pv a))).
  assert (H4 : HH s4 = flink (flink (HH s) a (HH s (pv b))) b (HH s (pv a))).
  { unfold s4. rewrite HH_linkS by zl. rewrite H3. reflexivity. }
  assert (Lh4 : Ln (halfedges s4) = Ln (halfedges s)) by (unfold s4; rewrite len_linkS; auto).
  rewrite link_ok by zl. cbn [rbind].
  set (s5 := linkS s4 (pv a) (pv b)).
  assert (H5 : HH s5 = flipH (HH s) a b).
  { unfold s5. rewrite HH_linkS by zl. rewrite H4. unfold flipH. rewrite Ear. reflexivity. }
  assert (T5 : TT s5 = flipT (TT s) a b) by (rewrite <- T2; reflexivity).
  assert (N5 : NT s5 = NT s2) by reflexivity.
  assert (F5 : lframe s s5).
  { apply (lframe_trans _ _ _ F12). constructor; try reflexivity.
    - unfold s5, s4, s3. rewrite !len_linkS. reflexivity.
    - intros k. unfold NT. change (NN s5 k) with (NN s2 k). destruct (NN s2 k); reflexivity. }
  clearbody s5. clear s3 H3 Lh3 s4 H4 Lh4.
  pose proof (flip_mesh _ _ _ a M Ha Hb p01) as M5. fold b in M5.
  destruct (flip_tris _ _ _ a M Ha Hb p01) as (X1 & X2 & X3 & X4 & X5 & X6). fold b in X1, X2, X3, X4, X5, X6.
  destruct (flipT_eqs _ _ _ a M Ha Hb p01) as (_ & _ & TF). fold b in TF.
  assert (NH : ~ has p (TT s) b).
  { destruct (mesh_distinct _ _ _ a M Ha) as (Q1 & Q2 & Q3). unfold has. rewrite E1, E2.
    fold p in Q2, Q3. intuition congruence. }
  assert (HM : forall e, has p (TT s) e -> has p (TT s5) e).
  { rewrite T5. intros e He.
    destruct (Z.eq_dec (a / 3) (e / 3)) as [Q|Q].
    { apply (has_same_tri p _ a e); [apply same_tri_div; auto|]. right. right. exact X3. }
    destruct (Z.eq_dec (b / 3) (e / 3)) as [Q'|Q'].
    { apply (has_same_tri p _ b e); [apply same_tri_div; auto|]. left. exact X4. }
    destruct (flip_other_tri _ _ _ a M Ha Hb p01 e) as (U1 & U2 & U3); [rewrite same_tri_div; auto..|].
    fold b in U1, U2, U3. unfold has in *. rewrite U1, U2, U3. auto. }
  assert (HB5 : has p (TT s5) b) by (left; rewrite T5; exact X4).
  assert (TK : forall e, has p (TT s) e -> e <> a -> TT s5 e = TT s e).
  { intros e He Ne. rewrite T5. apply TF; auto. intros ->. auto. }
  assert (V5 : verts s5).
  { intros e He. rewrite (lf_len _ _ F5) in He. rewrite T5.
    destruct (Z.eq_dec e a) as [->|Na]. { rewrite X1. apply V; auto. }
    destruct (Z.eq_dec e b) as [->|Nb]. { rewrite X4. apply V; auto. }
    rewrite TF; auto. }
  pose proof (lframe_wfs _ _ R F5 W) as W5.
  assert (P5 : TT s5 (pv a) = p) by (rewrite T5; exact X3).
  assert (ND : (nstar p L (TT s5) < nstar p L (TT s))%nat) by (apply (nstar_lt p L _ _ b); auto).
  destruct (IH s5 a) as (s6 & r2 & EL1 & LG1 & F6 & M6 & V6 & HM6 & TK6); auto.
  { rewrite (lf_len _ _ F5). fold L. rewrite T5, H5. exact M5. }
  { rewrite (lf_len _ _ F5). exact Ha. }
  { rewrite (lf_len _ _ F5), P5. fold L. zl. }
  rewrite P5 in HM6, TK6. rewrite (lf_len _ _ F5) in M6. fold L in M6.
  rewrite EL1. cbn [rbind].
  pose proof (lframe_trans _ _ _ F5 F6) as F56.
  pose proof (lframe_wfs _ _ R F56 W) as W6.
  assert (P6 : TT s6 (pv (nx b)) = p).
  { rewrite pv_nx, TK6; auto. rewrite T5; exact X4. }
  destruct (IH s6 (nx b)) as (s7 & r & EL2 & LG2 & F7 & M7 & V7 & HM7 & TK7); auto.
  { rewrite (lf_len _ _ F56). fold L. exact M6. }
  { rewrite (lf_len _ _ F56). exact Rbr. }
  { rewrite (lf_len _ _ F56), P6. fold L. pose proof (nstar_le p L _ _ HM6). zl. }
  rewrite P6 in HM7, TK7. rewrite (lf_len _ _ F56) in M7. fold L in M7.
  exists s7, r. split; [exact EL2|]. split.
  { apply (Leg_flip badA R (TT s) (HH s) (NT s) a (NT s5) (TT s6) (HH s6) (NT s6) r2); auto.
    - rewrite N5. exact FN.
    - fold b. rewrite <- T5, <- H5. exact LG1. }
  split; [apply (lframe_trans _ _ _ F56 F7)|]. split; [exact M7|]. split; [exact V7|]. split.
  - intros e He. apply HM7, HM6, HM. exact He.
  - intros e He Ne. rewrite TK7; auto; [rewrite TK6; auto|].
    intros ->. apply NH. rewrite <- has_nx. exact He.
Qed.
End Model.
