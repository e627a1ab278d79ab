(** newNode, remove and addTriangle of the model on consistent states. *)
From Coq Require Import ZArith Lia List Bool FunctionalExtensionality Permutation.
From Verif Require Import Base Arith GoLoop M_r3 M_tri2 M_triangulator Spec_plane P_polygon P_ring P_halfedge
  P_flip P_leg P_tstate P_addtri.
Import ListNotations.
Open Scope Z_scope.

(** addTriangle *)
Lemma addTriangle_ok s x p y l0 l1 l2 :
  0 <= trianglesLen s -> trianglesLen s + 3 <= Ln (triangles s) -> length (halfedges s) = length (triangles s) ->
  l0 < trianglesLen s -> l1 < trianglesLen s -> l2 < trianglesLen s ->
  exists s', addTriangle s x p y l0 l1 l2 = Ok (s', trianglesLen s) /\
    TT s' = addT (TT s) (trianglesLen s) x p y /\ HH s' = addH (HH s) (trianglesLen s) l0 l1 l2 /\
    trianglesLen s' = trianglesLen s + 3 /\ nodes s' = nodes s /\ hull s' = hull s /\ hash s' = hash s /\
    length (triangles s') = length (triangles s) /\ length (halfedges s') = length (halfedges s).
Proof.
  intros H0 H1 H2 B0 B1 B2. unfold addTriangle. set (L := trianglesLen s) in *.
  rewrite zset_setz by lia. cbn [rbind]. rewrite zset_setz by (rewrite setz_length; lia). cbn [rbind].
  rewrite zset_setz by (rewrite !setz_length; lia). cbn [rbind].
  set (s1 := withTriangles _ s).
  assert (E1 : halfedges s1 = halfedges s) by reflexivity.
  rewrite link_ok by (rewrite E1; lia). cbn [rbind].
  rewrite link_ok by (rewrite len_linkS, E1; lia). cbn [rbind].
  rewrite link_ok by (rewrite !len_linkS, E1; lia). cbn [rbind].
  eexists. split; [reflexivity|]. repeat split.
  - unfold TT. cbn [triangles withLen linkS withHalfedges]. unfold s1. cbn [triangles withTriangles].
    rewrite !getz_setz by (rewrite ?setz_length; lia). reflexivity.
  - change (HH (linkS (linkS (linkS s1 L l0) (L + 1) l1) (L + 2) l2) = addH (HH s) L l0 l1 l2).
    rewrite !HH_linkS by (rewrite ?len_linkS, E1; lia). reflexivity.
  - cbn [triangles withLen linkS withHalfedges]. unfold s1. cbn [triangles withTriangles]. rewrite !setz_length. reflexivity.
  - change (length (halfedges (linkS (linkS (linkS s1 L l0) (L + 1) l1) (L + 2) l2)) = length (halfedges s)).
    rewrite !len_linkS. reflexivity.
Qed.

(* fields other than nodes *)
Record nframe (s s' : tri) : Prop := {
  nf_t : triangles s' = triangles s;
  nf_h : halfedges s' = halfedges s;
  nf_l : trianglesLen s' = trianglesLen s;
  nf_hu : hull s' = hull s;
  nf_ha : hash s' = hash s;
  nf_n : length (nodes s') = length (nodes s) }.
Lemma nframe_refl s : nframe s s. Proof. constructor; auto. Qed.
Lemma nframe_upd s0 s k f : nframe s0 s -> nframe s0 (updS s k f).
Proof.
  intros [A B C D E F]. constructor; auto. rewrite len_updS. auto.
Qed.

Ltac updN_step := rewrite updN_ok by (rewrite ?len_updS; assumption); cbn [rbind].

Lemma newNode_ok s i e ne rest :
  ring (Ln (nodes s)) (NN s) (e :: ne :: rest) -> 0 <= i < Ln (nodes s) -> ~ In i (e :: ne :: rest) ->
  exists s', newNode s i (Some e) = Ok s' /\ nframe s s' /\
    ring (Ln (nodes s')) (NN s') (e :: i :: ne :: rest) /\
    (forall k, NT s' k = NT s k) /\ (forall k, k <> i -> nI (NN s' k) = nI (NN s k)) /\
    (forall k, ~ In k (e :: i :: ne :: rest) -> NN s' k = NN s k).
Proof.
  intros RG Ri Ni.
  assert (Re : 0 <= e < Ln (nodes s)) by (apply (rg_range _ _ _ RG); simpl; auto).
  assert (Rne : 0 <= ne < Ln (nodes s)) by (apply (rg_range _ _ _ RG); simpl; auto).
  assert (Nie : i <> e) by (intros ->; apply Ni; simpl; auto).
  assert (Nine : i <> ne) by (intros ->; apply Ni; simpl; auto).
  pose proof (rg_nd _ _ _ RG) as ND.
  assert (Nene : e <> ne).
  { intros E. rewrite E in ND. apply NoDup_cons_iff in ND. destruct ND as [Q _]. apply Q. simpl; auto. }
  assert (PE : polygon_edges (e :: ne :: rest) = (e, ne) :: pairs (ne :: rest ++ [e])) by (rewrite pe_pairs; reflexivity).
  assert (PE' : polygon_edges (e :: i :: ne :: rest) = (e, i) :: (i, ne) :: pairs (ne :: rest ++ [e])) by (rewrite pe_pairs; reflexivity).
  assert (Xe : nNext (NN s e) = Some ne) by (apply (rg_next _ _ _ RG); rewrite PE; simpl; auto).
  unfold newNode. rewrite updN_ok by assumption. cbn [rbind].
  set (s1 := updS s i (setI i)).
  assert (F1 : nframe s s1) by (apply nframe_upd, nframe_refl).
  assert (L1 : length (nodes s1) = length (nodes s)) by apply (nf_n _ _ F1).
  assert (N1 : NN s1 = updg (NN s) i (setI i (NN s i))) by (apply NN_updS; auto).
  clearbody s1.
  rewrite getN_ok by (rewrite L1; auto). cbn [rbind].
  rewrite updN_ok by (rewrite L1; auto). cbn [rbind].
  set (s2 := updS s1 i _).
  assert (F2 : nframe s s2) by (apply nframe_upd, F1).
  assert (L2 : length (nodes s2) = length (nodes s)) by apply (nf_n _ _ F2).
  assert (E1 : NN s1 e = NN s e) by (rewrite N1; apply updg_other; auto).
  assert (N2 : NN s2 = updg (NN s1) i (setNext (Some ne) (NN s1 i))).
  { unfold s2. rewrite NN_updS by (rewrite L1; auto). rewrite E1, Xe. reflexivity. }
  clearbody s2.
  rewrite updN_ok by (rewrite L2; auto). cbn [rbind].
  set (s3 := updS s2 i _).
  assert (F3 : nframe s s3) by (apply nframe_upd, F2).
  assert (L3 : length (nodes s3) = length (nodes s)) by apply (nf_n _ _ F3).
  assert (N3 : NN s3 = updg (NN s2) i (setPrev (Some e) (NN s2 i))) by (apply NN_updS; rewrite L2; auto).
  clearbody s3.
  assert (E3 : NN s3 e = NN s e).
  { rewrite N3, updg_other by auto. rewrite N2, updg_other by auto. exact E1. }
  unfold next_of. rewrite getN_ok by (rewrite L3; auto). cbn [rbind]. rewrite E3, Xe. cbn [deref rbind].
  rewrite updN_ok by (rewrite L3; auto). cbn [rbind].
  set (s4 := updS s3 ne _).
  assert (F4 : nframe s s4) by (apply nframe_upd, F3).
  assert (L4 : length (nodes s4) = length (nodes s)) by apply (nf_n _ _ F4).
  assert (N4 : NN s4 = updg (NN s3) ne (setPrev (Some i) (NN s3 ne))) by (apply NN_updS; rewrite L3; auto).
  clearbody s4.
  rewrite updN_ok by (rewrite L4; auto).
  set (s5 := updS s4 e _).
  assert (F5 : nframe s s5) by (apply nframe_upd, F4).
  assert (L5 : length (nodes s5) = length (nodes s)) by apply (nf_n _ _ F5).
  assert (N5 : NN s5 = updg (NN s4) e (setNext (Some i) (NN s4 e))) by (apply NN_updS; rewrite L4; auto).
  clearbody s5.
  exists s5. split; [reflexivity|]. split; [exact F5|].
  assert (Vi : NN s5 i = mkNode i (nT (NN s i)) (Some e) (Some ne)).
  { rewrite N5, updg_other by auto. rewrite N4, updg_other by auto. rewrite N3, updg_same, N2, updg_same, N1, updg_same. reflexivity. }
  assert (Ve : NN s5 e = setNext (Some i) (NN s e)).
  { rewrite N5, updg_same. rewrite N4, updg_other by auto. rewrite E3. reflexivity. }
  assert (Vne : NN s5 ne = setPrev (Some i) (NN s ne)).
  { rewrite N5, updg_other by auto. rewrite N4, updg_same. f_equal.
    rewrite N3, updg_other by auto. rewrite N2, updg_other by auto. rewrite N1, updg_other by auto. reflexivity. }
  assert (Vo : forall k, k <> i -> k <> e -> k <> ne -> NN s5 k = NN s k).
  { intros k K1 K2 K3. rewrite N5, updg_other by auto. rewrite N4, updg_other by auto.
    rewrite N3, updg_other by auto. rewrite N2, updg_other by auto. rewrite N1, updg_other by auto. reflexivity. }
  assert (VT : forall k, NT s5 k = NT s k).
  { intros k. unfold NT. destruct (Z.eq_dec k i) as [->|K1]; [rewrite Vi; auto|].
    destruct (Z.eq_dec k e) as [->|K2]; [rewrite Ve; auto|].
    destruct (Z.eq_dec k ne) as [->|K3]; [rewrite Vne; auto|]. rewrite Vo; auto. }
  assert (VI : forall k, k <> i -> nI (NN s5 k) = nI (NN s k)).
  { intros k K1.
    destruct (Z.eq_dec k e) as [->|K2]; [rewrite Ve; auto|].
    destruct (Z.eq_dec k ne) as [->|K3]; [rewrite Vne; auto|]. rewrite Vo; auto. }
  assert (VN : forall k, k <> i -> k <> e -> nNext (NN s5 k) = nNext (NN s k)).
  { intros k K1 K2. destruct (Z.eq_dec k ne) as [->|K3]; [rewrite Vne; auto|]. rewrite Vo; auto. }
  assert (VP : forall k, k <> i -> k <> ne -> nPrev (NN s5 k) = nPrev (NN s k)).
  { intros k K1 K2. destruct (Z.eq_dec k e) as [->|K3]; [rewrite Ve; auto|]. rewrite Vo; auto. }
  split; [|split; [exact VT|split; [exact VI|]]].
  2: { intros k Hk. apply Vo; intros ->; apply Hk; simpl; auto. }
  rewrite L5.
  assert (ED : forall v w, In (v, w) (pairs (ne :: rest ++ [e])) -> In (v, w) (polygon_edges (e :: ne :: rest)) /\ v <> i /\ w <> i /\ v <> e /\ w <> ne).
  { intros v w Hvw. assert (I : In (v, w) (polygon_edges (e :: ne :: rest))) by (rewrite PE; right; auto).
    destruct (pe_In _ _ _ I) as [Iv Iw]. split; auto. split; [intros ->; auto|]. split; [intros ->; auto|].
    assert (NP : ~ In (e, ne) (pairs (ne :: rest ++ [e]))).
    { pose proof (pe_fst_NoDup _ ND) as Q. rewrite PE in Q. cbn [map fst] in Q. apply NoDup_cons_iff in Q.
      destruct Q as [Q _]. intros Q2. apply Q. apply in_map_iff. exists (e, ne). auto. }
    split; intros ->.
    - assert (w = ne) by (apply (pe_succ_unique _ e w ne ND); auto; rewrite PE; left; auto). subst. auto.
    - assert (v = e) by (apply (pe_pred_unique _ v e ne ND); auto; rewrite PE; left; auto). subst. auto. }
  constructor.
  - apply NoDup_cons_iff in ND. destruct ND as [ND1 ND2]. apply NoDup_cons_iff. split.
    + intros [Q|Q]; [congruence|auto].
    + apply NoDup_cons_iff. split; auto. intros Q. apply Ni. right. auto.
  - intros v [<-|[<-|Hv]]; auto. apply (rg_range _ _ _ RG). right; auto.
  - intros v Hv. destruct (Z.eq_dec v i) as [->|K]; [rewrite Vi; auto|]. rewrite VI by auto.
    apply (rg_i _ _ _ RG). destruct Hv as [<-|[<-|Hv]]; [left; auto|congruence|right; auto].
  - intros v w. rewrite PE'. intros [E|[E|Hvw]].
    + injection E as <- <-. rewrite Ve. reflexivity.
    + injection E as <- <-. rewrite Vi. reflexivity.
    + destruct (ED v w Hvw) as (Q1 & Q2 & Q3 & Q4 & Q5). rewrite VN by auto. apply (rg_next _ _ _ RG); auto.
  - intros v w. rewrite PE'. intros [E|[E|Hvw]].
    + injection E as <- <-. rewrite Vi. reflexivity.
    + injection E as <- <-. rewrite Vne. reflexivity.
    + destruct (ED v w Hvw) as (Q1 & Q2 & Q3 & Q4 & Q5). rewrite VP by auto. apply (rg_prev _ _ _ RG); auto.
Qed.

Lemma remove_ok s u q w rest :
  ring (Ln (nodes s)) (NN s) (u :: q :: w :: rest) ->
  exists s', remove s q = Ok (s', u) /\ nframe s s' /\
    ring (Ln (nodes s')) (NN s') (u :: w :: rest) /\ next_of s' q = Ok w /\ prev_of s' q = Ok u /\
    (forall k, NT s' k = NT s k) /\ (forall k, k <> q -> nI (NN s' k) = nI (NN s k)) /\ nI (NN s' q) = -1 /\
    (forall k, ~ In k (u :: q :: w :: rest) -> NN s' k = NN s k).
Proof.
  intros RG.
  assert (Ru : 0 <= u < Ln (nodes s)) by (apply (rg_range _ _ _ RG); simpl; auto).
  assert (Rq : 0 <= q < Ln (nodes s)) by (apply (rg_range _ _ _ RG); simpl; auto).
  assert (Rw : 0 <= w < Ln (nodes s)) by (apply (rg_range _ _ _ RG); simpl; auto).
  pose proof (rg_nd _ _ _ RG) as ND.
  assert (Nuq : u <> q /\ u <> w /\ q <> w).
  { apply NoDup_cons_iff in ND. destruct ND as [Q1 Q2]. apply NoDup_cons_iff in Q2. destruct Q2 as [Q2 _].
    repeat split; intros E; subst; simpl in *; tauto. }
  destruct Nuq as (Nuq & Nuw & Nqw).
  assert (PE : polygon_edges (u :: q :: w :: rest) = (u, q) :: (q, w) :: pairs (w :: rest ++ [u])) by (rewrite pe_pairs; reflexivity).
  assert (PE' : polygon_edges (u :: w :: rest) = (u, w) :: pairs (w :: rest ++ [u])) by (rewrite pe_pairs; reflexivity).
  assert (Xq : nNext (NN s q) = Some w) by (apply (rg_next _ _ _ RG); rewrite PE; simpl; auto).
  assert (Yq : nPrev (NN s q) = Some u) by (apply (rg_prev _ _ _ RG); rewrite PE; simpl; auto).
  unfold remove. rewrite getN_ok by auto. cbn [rbind]. rewrite Yq. cbn [deref rbind].
  rewrite updN_ok by auto. cbn [rbind]. rewrite Xq.
  set (s1 := updS s u _).
  assert (F1 : nframe s s1) by (apply nframe_upd, nframe_refl).
  assert (L1 : length (nodes s1) = length (nodes s)) by apply (nf_n _ _ F1).
  assert (N1 : NN s1 = updg (NN s) u (setNext (Some w) (NN s u))) by (apply NN_updS; auto).
  clearbody s1.
  rewrite getN_ok by (rewrite L1; auto). cbn [rbind].
  assert (E1 : NN s1 q = NN s q) by (rewrite N1; apply updg_other; auto).
  rewrite E1, Xq. cbn [deref rbind]. rewrite updN_ok by (rewrite L1; auto). cbn [rbind]. rewrite Yq.
  set (s2 := updS s1 w _).
  assert (F2 : nframe s s2) by (apply nframe_upd, F1).
  assert (L2 : length (nodes s2) = length (nodes s)) by apply (nf_n _ _ F2).
  assert (N2 : NN s2 = updg (NN s1) w (setPrev (Some u) (NN s1 w))) by (apply NN_updS; rewrite L1; auto).
  clearbody s2.
  rewrite updN_ok by (rewrite L2; auto). cbn [rbind].
  set (s3 := updS s2 q _).
  assert (F3 : nframe s s3) by (apply nframe_upd, F2).
  assert (L3 : length (nodes s3) = length (nodes s)) by apply (nf_n _ _ F3).
  assert (N3 : NN s3 = updg (NN s2) q (setI (-1) (NN s2 q))) by (apply NN_updS; rewrite L2; auto).
  clearbody s3.
  assert (Vq : NN s3 q = setI (-1) (NN s q)).
  { rewrite N3, updg_same, N2, updg_other by auto. rewrite E1. reflexivity. }
  assert (Vu : NN s3 u = setNext (Some w) (NN s u)).
  { rewrite N3, updg_other by auto. rewrite N2, updg_other by auto. rewrite N1, updg_same. reflexivity. }
  assert (Vw : NN s3 w = setPrev (Some u) (NN s w)).
  { rewrite N3, updg_other by auto. rewrite N2, updg_same. rewrite N1, updg_other by auto. reflexivity. }
  assert (Vo : forall k, k <> q -> k <> u -> k <> w -> NN s3 k = NN s k).
  { intros k K1 K2 K3. rewrite N3, updg_other by auto. rewrite N2, updg_other by auto. rewrite N1, updg_other by auto. reflexivity. }
  unfold prev_of at 1. rewrite getN_ok by (rewrite L3; auto). cbn [rbind]. rewrite Vq.
  unfold setI at 1. cbn [nPrev]. rewrite Yq. cbn [deref rbind].
  exists s3. split; [reflexivity|]. split; [exact F3|].
  assert (VI : forall k, k <> q -> nI (NN s3 k) = nI (NN s k)).
  { intros k K1.
    destruct (Z.eq_dec k u) as [->|K2]; [rewrite Vu; auto|].
    destruct (Z.eq_dec k w) as [->|K3]; [rewrite Vw; auto|]. rewrite Vo; auto. }
  assert (VN : forall k, k <> u -> nNext (NN s3 k) = nNext (NN s k)).
  { intros k K1. destruct (Z.eq_dec k q) as [->|K2]; [rewrite Vq; auto|].
    destruct (Z.eq_dec k w) as [->|K3]; [rewrite Vw; auto|]. rewrite Vo; auto. }
  assert (VP : forall k, k <> w -> nPrev (NN s3 k) = nPrev (NN s k)).
  { intros k K1. destruct (Z.eq_dec k q) as [->|K2]; [rewrite Vq; auto|].
    destruct (Z.eq_dec k u) as [->|K3]; [rewrite Vu; auto|]. rewrite Vo; auto. }
  rewrite L3.
  split; [|split; [|split; [|split; [|split; [exact VI|split; [rewrite Vq; auto|]]]]]].
  - assert (ED : forall v z, In (v, z) (pairs (w :: rest ++ [u])) -> In (v, z) (polygon_edges (u :: q :: w :: rest)) /\ v <> u /\ z <> w).
    { intros v z Hvz. assert (I : In (v, z) (polygon_edges (u :: q :: w :: rest))) by (rewrite PE; right; right; auto).
      split; auto.
      assert (NP : ~ In (u, q) (pairs (w :: rest ++ [u])) /\ ~ In (q, w) (pairs (w :: rest ++ [u]))).
      { pose proof (pe_fst_NoDup _ ND) as Q. rewrite PE in Q. cbn [map fst] in Q. apply NoDup_cons_iff in Q.
        destruct Q as [Q Q']. apply NoDup_cons_iff in Q'. destruct Q' as [Q' _].
        split; intros Q2; [apply Q; right|apply Q']; apply in_map_iff; eexists; split; eauto; reflexivity. }
      destruct NP as [NP1 NP2].
      split; intros ->.
      - assert (z = q) by (apply (pe_succ_unique _ u z q ND); auto; rewrite PE; left; auto). subst. auto.
      - assert (v = q) by (apply (pe_pred_unique _ v q w ND); auto; rewrite PE; right; left; auto). subst. auto. }
    constructor.
    + apply NoDup_cons_iff in ND. destruct ND as [ND1 ND2]. apply NoDup_cons_iff in ND2. destruct ND2 as [ND2 ND3].
      apply NoDup_cons_iff. split; auto. intros Q. apply ND1. right. auto.
    + intros v [<-|Hv]; auto. apply (rg_range _ _ _ RG). right; right; auto.
    + intros v Hv. rewrite VI.
      * apply (rg_i _ _ _ RG). destruct Hv as [<-|Hv]; [left; auto|right; right; auto].
      * intros ->. apply NoDup_cons_iff in ND. destruct ND as [ND1 ND2]. apply NoDup_cons_iff in ND2. destruct ND2 as [ND2 ND3].
        destruct Hv as [E|Hv]; auto.
    + intros v z. rewrite PE'. intros [E|Hvz].
      * injection E as <- <-. rewrite Vu. reflexivity.
      * destruct (ED v z Hvz) as (Q1 & Q2 & Q3). rewrite VN by auto. apply (rg_next _ _ _ RG); auto.
    + intros v z. rewrite PE'. intros [E|Hvz].
      * injection E as <- <-. rewrite Vw. reflexivity.
      * destruct (ED v z Hvz) as (Q1 & Q2 & Q3). rewrite VP by auto. apply (rg_prev _ _ _ RG); auto.
  - unfold next_of. rewrite getN_ok by (rewrite L3; auto). cbn [rbind]. rewrite VN, Xq by auto. reflexivity.
  - unfold prev_of. rewrite getN_ok by (rewrite L3; auto). cbn [rbind]. rewrite VP, Yq by auto. reflexivity.
  - intros k. unfold NT. destruct (Z.eq_dec k q) as [->|K1]; [rewrite Vq; auto|].
    destruct (Z.eq_dec k u) as [->|K2]; [rewrite Vu; auto|].
    destruct (Z.eq_dec k w) as [->|K3]; [rewrite Vw; auto|]. rewrite Vo; auto.
  - intros k Hk. apply Vo; intros ->; apply Hk; simpl; auto.
Qed.
