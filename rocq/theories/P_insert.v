(** The insertion of one point by the model, on exact planar input. *)
From Coq Require Import ZArith Lia List Bool Reals Lra Permutation FunctionalExtensionality.
From Verif Require Import Base Arith GoLoop M_r3 M_tri2 M_triangulator Spec_r3 Spec_plane XRvec P_tri2 P_polygon P_delgeom
  P_halfedge P_ring P_flip P_leg P_tstate P_legmodel P_addtri P_ringops P_insstep P_chain P_delaunay.
Import ListNotations.
Open Scope Z_scope.

(* legalize changes the slots of ring nodes only *)
Lemma Leg_N bad R T H N a T' H' N' r : Leg bad R T H N a T' H' N' r -> forall k, ~ In k R -> N' k = N k.
Proof.
  induction 1 as [|T H N a N1 T2 H2 N2 r2 T3 H3 N3 r Hb Hbad HF L1 IH1 L2 IH2]; intros k Hk; auto.
  rewrite IH2, IH1 by auto. destruct HF as [F1 F2]. destruct (Z.eq_dec (H (pv (H a))) (-1)) as [E|E].
  - destruct (F1 E) as [(v & Hv & _ & ->)|(_ & ->)]; auto. apply upd_other. intros ->. contradiction.
  - rewrite (F2 E). auto.
Qed.

(** The proofs below need nothing of the arithmetic but this: on the input points the two
    predicates [area] and [inCircle] have the exact sign ([inCircle] on counterclockwise triangles). *)
Definition PP (pts : list rv) (i : Z) : rv := getz rzero pts i.
Record exact_preds {A : Arith} (vs : list (vec A)) (pts : list rv) : Prop := {
  ex_len : length vs = length pts;
  ex_in : forall a b c v, 0 <= a < Ln pts -> 0 <= b < Ln pts -> 0 <= c < Ln pts -> 0 <= v < Ln pts ->
    (0 < ar (PP pts a) (PP pts b) (PP pts c))%R -> badA vs a b c v = Rltb (incirc (PP pts a) (PP pts b) (PP pts c) (PP pts v)) 0;
  ex_self : forall p b c, badA vs p b c p = false;
  ex_lt : forall a b c, 0 <= a < Ln pts -> 0 <= b < Ln pts -> 0 <= c < Ln pts -> flt A (area (vat vs a) (vat vs b) (vat vs c)) (fofZ A 0) = Rltb (ar (PP pts a) (PP pts b) (PP pts c)) 0;
  ex_le : forall a b c, 0 <= a < Ln pts -> 0 <= b < Ln pts -> 0 <= c < Ln pts -> fle A (fofZ A 0) (area (vat vs a) (vat vs b) (vat vs c)) = Rleb 0 (ar (PP pts a) (PP pts b) (PP pts c)) }.
Lemma vat_PP pts i : vat (map fv pts) i = fv (PP pts i).
Proof.
  unfold vat, PP, getz. destruct (i <? 0); [reflexivity|].
  change (@mkvec XR (fofZ XR 0) (fofZ XR 0) (fofZ XR 0)) with (fv rzero). apply map_nth.
Qed.
Lemma exact_XR pts : exact_preds (map fv pts) pts.
Proof.
  constructor.
  - apply map_length.
  - intros. unfold badA. rewrite !vat_PP. apply inCircle_fv.
  - intros. unfold badA. rewrite !vat_PP, inCircle_fv. destruct (incirc_vertex (PP pts p) (PP pts b) (PP pts c)) as (-> & _).
    unfold Rltb. destruct Rlt_dec; auto. lra.
  - intros. rewrite !vat_PP, area_fv. reflexivity.
  - intros. rewrite !vat_PP, area_fv. reflexivity.
Qed.

Lemma zget_vs pts i : 0 <= i < Ln pts -> zget (map fv pts) i = Ok (fv (PP pts i)).
Proof. intros Hi. rewrite <- vat_PP. apply zget_getz. rewrite map_length. auto. Qed.

Section Insert.
Context {FA : Arith}.
Variables (vs : list (vec FA)) (pts : list rv).
Hypothesis EX : exact_preds vs pts.
Notation n := (Ln pts).
Notation PP := (PP pts).
Lemma bad_self_PP p b c : badA vs p b c p = false.
Proof. apply (ex_self _ _ EX). Qed.
Lemma Ln_vs : Ln vs = n. Proof. rewrite (ex_len _ _ EX). reflexivity. Qed.
Lemma zget_vat i : 0 <= i < n -> zget vs i = Ok (vat vs i).
Proof. intros Hi. apply zget_getz. rewrite Ln_vs; auto. Qed.
Lemma areaN_ok s p a b : 0 <= a < Ln (nodes s) -> 0 <= b < Ln (nodes s) -> nI (NN s a) = a -> nI (NN s b) = b ->
  0 <= a < n -> 0 <= b < n -> areaN vs s (vat vs p) a b = Ok (area (vat vs p) (vat vs a) (vat vs b)).
Proof.
  intros Ha Hb Ia Ib Na Nb. unfold areaN. rewrite !getN_ok by auto. cbn [rbind]. rewrite Ia, zget_vat by auto. cbn [rbind].
  rewrite Ib, zget_vat by auto. reflexivity.
Qed.

(** ** legalize on a planar insertion state *)
Lemma legalize_planar p V0 R X tin o s a Q :
  0 <= p < n -> (forall v, In v V0 -> 0 <= v < n) ->
  wfs s R -> ginv PP p V0 (trianglesLen s) (TT s) (HH s) ->
  hinv PP p R X tin o (trianglesLen s) (TT s) (HH s) (NT s) ->
  0 <= a < trianglesLen s -> TT s (pv a) = p -> X p \/ 0 <= HH s (pv a) -> has p (TT s) o \/ o = -1 ->
  legal_except PP p (trianglesLen s) (TT s) (HH s) (fun e => e = a \/ Q e) ->
  exists s' r, legalize vs (legalizeFuel s) s a = Ok (s', r) /\ lframe s s' /\
    leg_post PP p V0 R X tin (trianglesLen s) o (TT s) (HH s) (NT s) a (TT s') (HH s') (NT s') r /\
    legal_except PP p (trianglesLen s) (TT s') (HH s') Q /\
    (forall k, ~ In k R -> NT s' k = NT s k).
Proof.
  intros Rp RV W G HI Ha Ep HX Ho LE. pose proof (g_mesh _ _ _ _ _ _ G) as M.
  assert (VS : verts vs s).
  { intros e He. rewrite Ln_vs. destruct (g_vert _ _ _ _ _ _ G e He) as [->|Q']; auto. }
  destruct (legalize_ok vs bad_self_PP R (legalizeFuel s) s a W M VS Ha) as (s' & r & E & LG & F & _).
  { unfold legalizeFuel. pose proof (nstar_bound (TT s (pv a)) (trianglesLen s) (TT s) (m_L _ _ _ M)).
    pose proof (w_len _ _ W). lia. }
  exists s', r. split; auto. split; auto.
  assert (KN : forall v, known p V0 v -> 0 <= v < n) by (intros v [->|Q']; auto).
  assert (BAD : forall a b c v, known p V0 a -> known p V0 b -> known p V0 c -> known p V0 v -> (0 < ar (PP a) (PP b) (PP c))%R ->
    badA vs a b c v = Rltb (incirc (PP a) (PP b) (PP c) (PP v)) 0) by (intros; apply (ex_in _ _ EX); auto).
  destruct (leg_planar PP p V0 R X tin (trianglesLen s) (badA vs) BAD _ _ _ _ _ _ _ _ LG o G HI Ha Ep HX Ho) as [LP LQ].
  split; auto. split; auto. apply (Leg_N _ _ _ _ _ _ _ _ _ _ LG).
Qed.

(** ** Invariants *)
Variables (i0 i1 i2 : Z) (ctr : vec FA).
Hypothesis Hseed : forall v, 0 <= v < n -> (0 <= incirc (PP i0) (PP i1) (PP i2) (PP v))%R.
Hypothesis Hseed_or : (0 < ar (PP i0) (PP i1) (PP i2))%R.
Variable hs : Z.
Hypothesis Hhs : 0 < hs.
Hypothesis HKEY : forall v, 0 <= v < n -> 0 <= hashKey ctr hs (vat vs v) < hs.

Definition Zlen {X} (l : list X) : Z := Z.of_nat (length l).
Record rest (s : tri) (V R : list Z) : Prop := {
  r_wfs : wfs s R;
  r_mesh : mesh (trianglesLen s) (TT s) (HH s);
  r_or : forall e, 0 <= e < trianglesLen s -> (0 < orient PP (TT s) e)%R;
  r_vert : forall e, 0 <= e < trianglesLen s -> In (TT s e) V;
  r_del : forall e v, 0 <= e < trianglesLen s -> In v V -> (0 <= circ PP (TT s) e v)%R;
  r_full : hfull R (trianglesLen s) (TT s) (HH s) (NT s);
  r_conv : forall u v w, In (u, v) (polygon_edges R) -> In w V -> (0 <= ar (PP w) (PP u) (PP v))%R;
  r_RV : forall v, In v R -> In v V;
  r_nd : NoDup V;
  r_range : forall v, In v V -> 0 <= v < n;
  r_dist : forall u v, In u V -> In v V -> samexy (PP u) (PP v) -> u = v;
  r_nodes : Ln (nodes s) = n;
  r_count : trianglesLen s = 3 * (2 * Zlen V - 2 - Zlen R);
  r_cap : Ln (triangles s) = 3 * (2 * n - 5);
  r_pos : 3 <= trianglesLen s;
  r_seed : TT s 0 = i0 /\ TT s 1 = i1 /\ TT s 2 = i2;
  r_used : forall v, In v V -> exists e, 0 <= e < trianglesLen s /\ TT s e = v;
  r_fresh : forall k, ~ In k V -> NT s k = 0;
  r_hlen : Ln (hash s) = hs;
  r_hash : forall k, In (Some k) (hash s) -> 0 <= k < n /\ (In k R \/ nI (NN s k) = -1);
  r_live : exists k, In (Some k) (hash s) /\ In k R }.

Section One.
Variables (p : Z) (V0 R0 : list Z) (s0 : tri).
Hypothesis RS : rest s0 V0 R0.
Hypothesis Rp : 0 <= p < n.
Hypothesis Np : ~ In p V0.

Notation vis := (vis PP p).
Notation chain := (chain PP p R0).
Lemma RV0 v : In v V0 -> 0 <= v < n. Proof. apply (r_range _ _ _ RS). Qed.
Lemma Rne : R0 <> [].
Proof. destruct (w_hull _ _ (r_wfs _ _ _ RS)) as (h & _ & Hh). intros E. rewrite E in Hh. destruct Hh. Qed.
Lemma ND0 : NoDup R0. Proof. apply (rg_nd _ _ _ (w_ring _ _ (r_wfs _ _ _ RS))). Qed.
Lemma seed_in : In i0 V0 /\ In i1 V0 /\ In i2 V0.
Proof.
  pose proof (r_pos _ _ _ RS). destruct (r_seed _ _ _ RS) as (E0 & E1 & E2).
  repeat split; [rewrite <- E0|rewrite <- E1|rewrite <- E2]; apply (r_vert _ _ _ RS); lia.
Qed.
Lemma Hnc : exists a b c, In a V0 /\ In b V0 /\ In c V0 /\ ar (PP a) (PP b) (PP c) <> 0%R.
Proof. exists i0, i1, i2. destruct seed_in as (A & B & C). repeat split; auto. lra. Qed.
Lemma len_chain C : chain C -> (2 <= length C)%nat.
Proof. apply (chain_len PP p V0 R0 (r_RV _ _ _ RS) ND0 (r_conv _ _ _ RS) Rne). Qed.

Record ins (s : tri) (C : list Z) : Prop := {
  i_wfs : wfs s (p :: C);
  i_g : ginv PP p V0 (trianglesLen s) (TT s) (HH s);
  i_leg : legal_except PP p (trianglesLen s) (TT s) (HH s) (fun _ => False);
  i_full : hfull (p :: C) (trianglesLen s) (TT s) (HH s) (NT s);
  i_chain : chain C;
  i_nodes : Ln (nodes s) = n;
  i_count : trianglesLen s = 3 * (2 * Zlen V0 - 1 - Zlen C);
  i_cap : Ln (triangles s) = 3 * (2 * n - 5);
  i_pos : 3 <= trianglesLen s;
  i_seed : TT s 0 = i0 /\ TT s 1 = i1 /\ TT s 2 = i2;
  i_used : forall v, In v (p :: V0) -> exists e, 0 <= e < trianglesLen s /\ TT s e = v;
  i_fresh : forall k, ~ In k (p :: V0) -> NT s k = 0;
  i_hash : hash s = hash s0;
  i_gone : forall k, In k R0 -> In k C \/ nI (NN s k) = -1;
  i_old : forall k, k <> p -> ~ In k R0 -> nI (NN s k) = nI (NN s0 k) }.

(** ** Adding a triangle over the visible hull edge x y *)
Lemma pos_ne x y : vis x y -> x <> y.
Proof. unfold P_chain.vis. intros Q ->. rewrite ar_baa in Q. lra. Qed.
Lemma add_ok s x y l0 l1 l2 :
  ginv PP p V0 (trianglesLen s) (TT s) (HH s) -> legal_except PP p (trianglesLen s) (TT s) (HH s) (fun _ => False) ->
  trianglesLen s + 3 <= Ln (triangles s) -> length (halfedges s) = length (triangles s) ->
  In (x, y) (polygon_edges R0) -> vis x y ->
  l0 = -1 \/ joins (trianglesLen s) (TT s) (HH s) l0 p x -> l1 = -1 \/ joins (trianglesLen s) (TT s) (HH s) l1 y p ->
  joins (trianglesLen s) (TT s) (HH s) l2 x y ->
  exists s1, addTriangle s x p y l0 l1 l2 = Ok (s1, trianglesLen s) /\
    TT s1 = addT (TT s) (trianglesLen s) x p y /\ HH s1 = addH (HH s) (trianglesLen s) l0 l1 l2 /\
    trianglesLen s1 = trianglesLen s + 3 /\ nodes s1 = nodes s /\ hull s1 = hull s /\ hash s1 = hash s /\
    length (triangles s1) = length (triangles s) /\ length (halfedges s1) = length (halfedges s) /\
    ginv PP p V0 (trianglesLen s + 3) (TT s1) (HH s1) /\
    legal_except PP p (trianglesLen s + 3) (TT s1) (HH s1) (fun e => e = trianglesLen s + 2 \/ False).
Proof.
  intros G LE Cap Lh E Vis J0 J1 J2. pose proof (g_mesh _ _ _ _ _ _ G) as M. pose proof (m_L _ _ _ M) as L0.
  destruct (pe_In _ _ _ E) as [Ix Iy]. apply (r_RV _ _ _ RS) in Ix. apply (r_RV _ _ _ RS) in Iy.
  pose proof (pos_ne _ _ Vis) as Nxy.
  assert (B : forall l u v, l = -1 \/ joins (trianglesLen s) (TT s) (HH s) l u v -> l < trianglesLen s).
  { intros l u v [->|((_ & Q) & _)]; lia. }
  destruct (addTriangle_ok s x p y l0 l1 l2 L0 Cap Lh (B _ _ _ J0) (B _ _ _ J1) (B _ _ _ (or_intror J2)))
    as (s1 & E1 & E2 & E3 & E4 & E5 & E6 & E7 & E8 & E9).
  exists s1. repeat (split; [assumption|]). rewrite E2, E3. split.
  - apply add_ginv; auto. intros v Hv. apply (r_conv _ _ _ RS); auto.
  - apply add_legal with (V0 := V0); auto.
Qed.
Lemma addT_used T L x y : 0 <= L -> forall W, (forall v, In v W -> exists e, 0 <= e < L /\ T e = v) ->
  forall v, In v (p :: W) -> exists e, 0 <= e < L + 3 /\ addT T L x p y e = v.
Proof.
  intros L0 W U v [<-|Hv].
  - exists (L + 1). split; [lia|]. unfold addT, upd. destruct (Z.eqb_spec (L + 1) (L + 2)); [lia|]. rewrite Z.eqb_refl. auto.
  - destruct (U v Hv) as (e & He & Ee). exists e. split; [lia|]. unfold addT, upd.
    destruct (Z.eqb_spec e (L + 2)); [lia|]. destruct (Z.eqb_spec e (L + 1)); [lia|]. destruct (Z.eqb_spec e L); [lia|]. auto.
Qed.
Lemma addT_seed T L x y : 3 <= L -> T 0 = i0 /\ T 1 = i1 /\ T 2 = i2 ->
  addT T L x p y 0 = i0 /\ addT T L x p y 1 = i1 /\ addT T L x p y 2 = i2.
Proof.
  intros HL (E0 & E1 & E2). unfold addT, upd.
  repeat match goal with |- context [?a =? ?b] => destruct (Z.eqb_spec a b); [lia|] end. auto.
Qed.
Lemma seed_circ T : T 0 = i0 /\ T 1 = i1 /\ T 2 = i2 -> ~ has p T 0 /\ (0 <= circ PP T 0 p)%R.
Proof.
  intros (E0 & E1 & E2). destruct seed_in as (I0 & I1 & I2).
  change 1 with (nx 0) in E1. change 2 with (pv 0) in E2. split.
  - intros [Q|[Q|Q]]; apply Np; congruence.
  - unfold circ. rewrite E0, E1, E2. apply Hseed. auto.
Qed.
Lemma leg_seed R X tin L o T H N a T' H' N' r : leg_post PP p V0 R X tin L o T H N a T' H' N' r ->
  T 0 = i0 /\ T 1 = i1 /\ T 2 = i2 -> T' 0 = i0 /\ T' 1 = i1 /\ T' 2 = i2.
Proof.
  intros LP E. destruct (seed_circ T E) as [S1 S2]. destruct (l_keep _ _ _ _ _ _ _ _ _ _ _ _ _ _ _ _ LP 0 S1 S2) as (Q0 & Q1 & Q2).
  change (nx 0) with 1 in Q1. change (pv 0) with 2 in Q2. rewrite Q0, Q1, Q2. exact E.
Qed.

(** ** The first triangle of p *)
Lemma rest_ginv : ginv PP p V0 (trianglesLen s0) (TT s0) (HH s0) /\
  legal_except PP p (trianglesLen s0) (TT s0) (HH s0) (fun _ => False).
Proof.
  pose proof (r_mesh _ _ _ RS) as M. split.
  - constructor; auto.
    + apply (r_or _ _ _ RS).
    + intros e He. right. apply (r_vert _ _ _ RS); auto.
    + intros e He _ v Hv. apply (r_del _ _ _ RS); auto.
    + intros e He _ v Hv _. apply (r_del _ _ _ RS); auto.
  - intros e He Ee. exfalso. apply Np. rewrite <- Ee. apply (r_vert _ _ _ RS). apply pv_range; auto. apply (m_L3 _ _ _ M).
Qed.

Lemma cap_bound : Zlen V0 + 1 <= n.
Proof.
  assert (ND : NoDup (p :: V0)) by (constructor; auto; apply (r_nd _ _ _ RS)).
  assert (B : (length (p :: V0) <= length pts)%nat).
  { apply NoDup_range_length; auto. intros v [<-|Hv]; auto. apply RV0; auto. }
  simpl in B. unfold Zlen. lia.
Qed.

Lemma first_ok e ne : In (e, ne) (polygon_edges R0) -> vis e ne ->
  exists s1 s2 s3 s4 s5 r C,
    addTriangle s0 e p ne (-1) (-1) (NT s0 e) = Ok (s1, trianglesLen s0) /\
    updN s1 e (setT (trianglesLen s0)) = Ok s2 /\ newNode s2 p (Some e) = Ok s3 /\
    legalize vs (legalizeFuel s3) s3 (trianglesLen s0 + 2) = Ok (s4, r) /\ updN s4 p (setT r) = Ok s5 /\
    ins s5 (ne :: C ++ [e]) /\
    (forall u, In (u, e) (polygon_edges R0) -> In (u, e) (pairs (ne :: C ++ [e]))).
Proof.
  intros E Vis. set (L := trianglesLen s0). pose proof (r_wfs _ _ _ RS) as W. destruct rest_ginv as [G LE].
  pose proof (pos_ne _ _ Vis) as Ne. pose proof (r_mesh _ _ _ RS) as M. pose proof (m_L _ _ _ M) as L0. pose proof ND0 as ND.
  (* rotate the ring *)
  assert (RT : exists rest, Permutation R0 (e :: ne :: rest) /\ Permutation (polygon_edges R0) (polygon_edges (e :: ne :: rest))).
  { destruct (pe_In _ _ _ E) as [Ie _]. destruct (rotate_to R0 e Ie) as (l & P1 & P2).
    apply (Permutation_in _ P2) in E. destruct (pe_head e l) as (y & Hy & Q).
    assert (y = ne) as ->.
    { apply (pe_succ_unique (e :: l) e); auto. apply (Permutation_NoDup P1); auto. }
    destruct Q as [[-> ->]|(l' & ->)]; [contradiction|]. exists l'. auto. }
  destruct RT as (rs & P1 & P2). set (Rr := e :: ne :: rs) in *.
  assert (ND' : NoDup Rr) by (apply (Permutation_NoDup P1); auto).
  assert (IR : forall v, In v Rr <-> In v R0).
  { intros v; split; apply Permutation_in; auto. apply Permutation_sym; auto. }
  assert (IE : forall u v, In (u, v) (polygon_edges Rr) <-> In (u, v) (polygon_edges R0)).
  { intros u v; split; apply Permutation_in; auto. apply Permutation_sym; auto. }
  pose proof (r_full _ _ _ RS) as F.
  assert (F' : hfull Rr L (TT s0) (HH s0) (NT s0)).
  { constructor.
    - intros v w Q. apply (f_ok _ _ _ _ _ F). apply IE. auto.
    - intros f Hf Q. destruct (f_cov _ _ _ _ _ F f Hf Q) as (v & Hv & Ev). exists v. split; auto. apply IR; auto. }
  assert (NpR : ~ In p Rr) by (intros Q; apply Np, (r_RV _ _ _ RS), IR; auto).
  (* addTriangle *)
  pose proof (hfull_joins _ _ _ _ _ _ _ F E) as J2.
  pose proof cap_bound as CB. pose proof (r_count _ _ _ RS) as Cnt. pose proof (r_cap _ _ _ RS) as Cap.
  assert (LR : 2 <= Zlen R0).
  { unfold Zlen. rewrite (Permutation_length P1). unfold Rr. simpl. lia. }
  destruct (add_ok s0 e ne (-1) (-1) (NT s0 e) G LE) as (s1 & A0 & AT & AH & AL & AN & AHu & AHa & ATl & AHl & AG & ALE); auto.
  { fold L in Cnt. fold L. lia. }
  { apply (w_len2 _ _ W). }
  (* updN e *)
  pose proof (w_ring _ _ W) as RG.
  assert (Re : 0 <= e < Ln (nodes s1)).
  { rewrite AN. apply (rg_range _ _ _ RG). apply IR. left; auto. }
  assert (NN1 : NN s1 = NN s0) by (unfold NN; rewrite AN; reflexivity).
  set (s2 := updS s1 e (setT L)).
  assert (N2 : NT s2 = upd (NT s0) e L).
  { unfold s2. rewrite NT_updS_T by auto. unfold NT. rewrite NN1. reflexivity. }
  assert (NN2 : forall k, nI (NN s2 k) = nI (NN s0 k) /\ nNext (NN s2 k) = nNext (NN s0 k) /\ nPrev (NN s2 k) = nPrev (NN s0 k)).
  { intros k. unfold s2. rewrite NN_updS by auto. unfold updg. rewrite NN1. destruct (Z.eqb_spec k e) as [->|]; auto. }
  assert (Ln2 : length (nodes s2) = length (nodes s0)) by (unfold s2; rewrite len_updS, AN; auto).
  assert (RG2 : ring (Ln (nodes s2)) (NN s2) Rr).
  { rewrite Ln2. apply (ring_ext _ (NN s0)); [intros v _; apply NN2|]. apply (ring_rot _ _ _ _ P1 P2 RG). }
  (* newNode *)
  assert (Rpn : 0 <= p < Ln (nodes s2)) by (rewrite Ln2, (r_nodes _ _ _ RS); auto).
  destruct (newNode_ok s2 p e ne rs RG2 Rpn NpR) as (s3 & NW & NF & RG3 & NT3 & NI3 & NO3).
  assert (T3 : TT s3 = TT s1) by (unfold TT; rewrite (nf_t _ _ NF); reflexivity).
  assert (H3 : HH s3 = HH s1) by (unfold HH; rewrite (nf_h _ _ NF); reflexivity).
  assert (L3 : trianglesLen s3 = L + 3) by (rewrite (nf_l _ _ NF); exact AL).
  assert (N3 : NT s3 = upd (NT s0) e L) by (apply functional_extensionality; intros k; rewrite NT3, N2; reflexivity).
  set (R3 := p :: ne :: rs ++ [e]).
  assert (PR3 : Permutation (e :: p :: ne :: rs) R3 /\ Permutation (polygon_edges (e :: p :: ne :: rs)) (polygon_edges R3)).
  { split; [apply (Permutation_app_comm [e] (p :: ne :: rs))|apply (pe_rot [e] (p :: ne :: rs))]. }
  destruct PR3 as [PR3 PE3].
  assert (W3 : wfs s3 R3).
  { constructor.
    - rewrite L3, (nf_t _ _ NF). change (triangles s2) with (triangles s1). rewrite ATl. fold L in Cnt. lia.
    - rewrite (nf_t _ _ NF), (nf_h _ _ NF). change (triangles s2) with (triangles s1). change (halfedges s2) with (halfedges s1).
      rewrite ATl, AHl. apply (w_len2 _ _ W).
    - apply (ring_rot _ _ _ _ PR3 PE3 RG3).
    - destruct (w_hull _ _ W) as (h & Eh & Hh). exists h. split; [rewrite (nf_hu _ _ NF); change (hull s2) with (hull s1); congruence|].
      apply (Permutation_in _ PR3). apply IR in Hh. destruct Hh as [<-|Hh]; [left; auto|right; right; auto]. }
  (* legalize *)
  assert (Sl : pv (L + 2) = L + 1 /\ nx L = L + 1 /\ nx (L + 1) = L + 2).
  { destruct (add_slots L (TT s0) (HH s0) M) as (Q1 & Q2 & _ & _ & _ & Q6). auto. }
  destruct Sl as (S1 & S2 & S3).
  assert (T1n : TT s1 L = e /\ TT s1 (L + 1) = p /\ TT s1 (L + 2) = ne) by (rewrite AT; apply addT_new).
  destruct T1n as (Tn0 & Tn1 & Tn2).
  pose proof (seed_circ _ (r_seed _ _ _ RS)) as [SC1 SC2].
  pose proof (r_pos _ _ _ RS) as Pos. fold L in Pos.
  assert (HI3 : hinv PP p R3 (fun v => v = p) (-1) (L + 1) (L + 3) (TT s3) (HH s3) (NT s3)).
  { rewrite T3, H3, N3, AT, AH. fold L. unfold R3. apply step_first; auto.
    - rewrite (r_fresh _ _ _ RS p Np). lia.
    - rewrite (r_fresh _ _ _ RS p Np). auto. }
  destruct (legalize_planar p V0 R3 (fun v => v = p) (-1) (L + 1) s3 (L + 2) (fun _ => False)) as (s4 & r & LG & LF & LP & LE4 & LN); auto.
  { apply RV0. }
  { rewrite L3, T3, H3. exact AG. }
  { rewrite L3. exact HI3. }
  { rewrite L3. lia. }
  { rewrite T3, S1. exact Tn1. }
  { left. left. rewrite T3. exact Tn1. }
  { rewrite L3, T3, H3. exact ALE. }
  rewrite L3 in LP, LE4.
  pose proof (lframe_wfs _ _ R3 LF W3) as W4.
  assert (Ln4 : length (nodes s4) = length (nodes s0)) by (rewrite (lf_nl _ _ LF), (nf_n _ _ NF); auto).
  assert (L4 : trianglesLen s4 = L + 3) by (rewrite (lf_len _ _ LF); auto).
  assert (Rp4 : 0 <= p < Ln (nodes s4)) by (rewrite Ln4, (r_nodes _ _ _ RS); auto).
  destruct (l_r _ _ _ _ _ _ _ _ _ _ _ _ _ _ _ _ LP) as (Rr4 & Tr1 & Tr2 & Hr).
  rewrite T3, Tn2 in Tr2. rewrite H3, S1 in Hr.
  assert (H1v : HH s1 (L + 1) = -1).
  { rewrite AH. fold L. apply addH_eqs with (T := TT s0) (x := e) (p := p) (y := ne); auto. intros Q; apply NpR; left; congruence. intros Q; apply NpR; right; left; congruence. }
  rewrite H1v in Hr.
  set (s5 := updS s4 p (setT r)).
  exists s1, s2, s3, s4, s5, r, rs.
  split; [exact A0|]. split; [apply updN_ok; auto|]. split; [exact NW|]. split; [exact LG|]. split; [apply updN_ok; auto|].
  assert (CHN : chain (ne :: rs ++ [e])).
  { apply chain_init; auto. }
  split.
  2: { intros u Hu. apply IE in Hu. unfold Rr in Hu. rewrite pe_first in Hu. destruct Hu as [Q|Q]; [|exact Q].
       exfalso. injection Q as _ Q. auto. }
  assert (NN5 : forall k, nI (NN s5 k) = nI (NN s3 k) /\ nNext (NN s5 k) = nNext (NN s3 k) /\ nPrev (NN s5 k) = nPrev (NN s3 k)).
  { intros k. unfold s5. rewrite NN_updS by auto. unfold updg. destruct (Z.eqb_spec k p) as [->|]; simpl; rewrite (lf_node _ _ LF); simpl; auto. }
  constructor.
  - destruct W4 as [Wa Wb Wc Wd]. constructor; auto.
    unfold s5 at 1. rewrite len_updS. apply (ring_ext _ (NN s4)); auto.
    intros v _. unfold s5. rewrite NN_updS by auto. unfold updg. destruct (Z.eqb_spec v p) as [->|]; auto.
  - change (trianglesLen s5) with (trianglesLen s4). rewrite L4. exact (l_ginv _ _ _ _ _ _ _ _ _ _ _ _ _ _ _ _ LP).
  - change (trianglesLen s5) with (trianglesLen s4). rewrite L4. exact LE4.
  - change (trianglesLen s5) with (trianglesLen s4). rewrite L4. change (TT s5) with (TT s4). change (HH s5) with (HH s4).
    unfold s5. rewrite NT_updS_T by auto. apply step_first_post with (P := PP); auto.
    + repeat split; auto; lia.
    + pose proof (l_hinv _ _ _ _ _ _ _ _ _ _ _ _ _ _ _ _ LP) as Q. rewrite S1, Z.eqb_refl in Q. exact Q.
  - exact CHN.
  - unfold s5. rewrite len_updS, Ln4. apply (r_nodes _ _ _ RS).
  - change (trianglesLen s5) with (trianglesLen s4). rewrite L4. fold L in Cnt. rewrite Cnt. unfold Zlen.
    rewrite (Permutation_length P1). unfold Rr. cbn [length]. rewrite app_length. cbn [length]. lia.
  - change (triangles s5) with (triangles s4). rewrite (lf_tl _ _ LF), (nf_t _ _ NF). change (triangles s2) with (triangles s1). rewrite ATl. auto.
  - change (trianglesLen s5) with (trianglesLen s4). lia.
  - change (TT s5) with (TT s4). apply (leg_seed _ _ _ _ _ _ _ _ _ _ _ _ _ LP). rewrite T3, AT. apply addT_seed; auto. apply (r_seed _ _ _ RS).
  - change (trianglesLen s5) with (trianglesLen s4). change (TT s5) with (TT s4). rewrite L4. intros v Hv.
    apply (l_used _ _ _ _ _ _ _ _ _ _ _ _ _ _ _ _ LP). rewrite T3, AT. fold L. apply addT_used with (W := V0); auto. apply (r_used _ _ _ RS).
  - intros k Hk. unfold s5. rewrite NT_updS_T by auto. rewrite upd_other by (intros ->; apply Hk; left; auto).
    assert (NkR : ~ In k R0) by (intros Q; apply Hk; right; apply (r_RV _ _ _ RS); auto).
    rewrite LN.
    + rewrite N3, upd_other; [apply (r_fresh _ _ _ RS); intros Q; apply Hk; right; auto|].
      intros ->. apply NkR, IR. left; auto.
    + intros Q. apply (Permutation_in _ (Permutation_sym PR3)) in Q. destruct Q as [Q|[Q|Q]].
      * apply NkR, IR. left; auto.
      * apply Hk. left. auto.
      * apply NkR, IR. right; auto.
  - change (hash s5) with (hash s4). rewrite (lf_hash _ _ LF), (nf_ha _ _ NF). exact AHa.
  - intros k Hk. left. apply IR in Hk. destruct Hk as [<-|[<-|Hk]]; simpl; auto; right; apply in_or_app; simpl; auto.
  - intros k Hk _. destruct (NN5 k) as (-> & _). rewrite NI3 by auto. apply NN2.
Qed.

(** ** Walking forward *)
Lemma ins_nd s C : ins s C -> NoDup (p :: C).
Proof. intros I. apply (rg_nd _ _ _ (w_ring _ _ (i_wfs _ _ I))). Qed.
Lemma wfs_updT s R k v : 0 <= k < Ln (nodes s) -> wfs s R -> wfs (updS s k (setT v)) R.
Proof.
  intros Hk [Wa Wb Wc Wd]. constructor; auto.
  rewrite len_updS. apply (ring_ext _ (NN s)); auto.
  intros w _. rewrite NN_updS by auto. unfold updg. destruct (Z.eqb_spec w k) as [->|]; auto.
Qed.
Lemma fwd_ok s q q' C : ins s (q :: q' :: C) -> vis q q' ->
  exists s1 s2 s3 s4 r,
    addTriangle s q p q' (NT s p) (-1) (NT s q) = Ok (s1, trianglesLen s) /\
    legalize vs (legalizeFuel s1) s1 (trianglesLen s + 2) = Ok (s2, r) /\
    updN s2 p (setT r) = Ok s3 /\ remove s3 q = Ok (s4, p) /\
    next_of (withHull (Some p) s4) q = Ok q' /\ ins (withHull (Some p) s4) (q' :: C).
Proof.
  intros I Vis. set (L := trianglesLen s). pose proof (i_wfs _ _ I) as W. pose proof (i_g _ _ I) as G. pose proof (i_leg _ _ I) as LE.
  pose proof (g_mesh _ _ _ _ _ _ G) as M. pose proof (m_L _ _ _ M) as L0. pose proof (ins_nd _ _ I) as ND.
  pose proof (i_full _ _ I) as F. pose proof (i_chain _ _ I) as CH. fold L in G, LE, M, L0, F.
  assert (E : In (q, q') (polygon_edges R0)) by (apply (c_pairs _ _ _ _ CH); left; auto).
  pose proof (chain_fwd _ _ _ _ _ _ CH Vis) as CH'. pose proof (len_chain _ CH') as LC.
  assert (Epq : In (p, q) (polygon_edges (p :: q :: q' :: C))) by (left; auto).
  assert (Eqq : In (q, q') (polygon_edges (p :: q :: q' :: C))) by (right; left; auto).
  pose proof (hfull_joins _ _ _ _ _ _ _ F Epq) as J0. pose proof (hfull_joins _ _ _ _ _ _ _ F Eqq) as J2.
  pose proof cap_bound as CB. pose proof (i_count _ _ I) as Cnt. pose proof (i_cap _ _ I) as Cap. pose proof (i_pos _ _ I) as Pos.
  fold L in Cnt, Pos. unfold Zlen in Cnt, CB. cbn [length] in Cnt, LC.
  assert (Npq : p <> q) by (intros ->; apply (proj1 (NoDup_cons_iff _ _) ND); left; auto).
  assert (Npq' : p <> q') by (intros ->; apply (proj1 (NoDup_cons_iff _ _) ND); right; left; auto).
  destruct (add_ok s q q' (NT s p) (-1) (NT s q)) as (s1 & A0 & AT & AH & AL & AN & AHu & AHa & ATl & AHl & AG & ALE); auto.
  { fold L. lia. }
  { apply (w_len2 _ _ W). }
  fold L in A0, AT, AH, AL, AG, ALE.
  assert (NN1 : NN s1 = NN s) by (unfold NN; rewrite AN; reflexivity).
  assert (N1 : NT s1 = NT s) by (unfold NT; rewrite NN1; reflexivity).
  set (R1 := p :: q :: q' :: C) in *.
  assert (W1 : wfs s1 R1).
  { constructor.
    - rewrite AL, ATl. lia.
    - rewrite ATl, AHl. apply (w_len2 _ _ W).
    - rewrite AN, NN1. apply (w_ring _ _ W).
    - rewrite AHu. apply (w_hull _ _ W). }
  assert (Sl : pv (L + 2) = L + 1).
  { destruct (add_slots L (TT s) (HH s) M) as (_ & _ & _ & _ & _ & Q6). auto. }
  assert (T1n : TT s1 L = q /\ TT s1 (L + 1) = p /\ TT s1 (L + 2) = q') by (rewrite AT; apply addT_new).
  destruct T1n as (Tn0 & Tn1 & Tn2).
  assert (HI1 : hinv PP p R1 (fun v => v = p \/ v = q) (-1) (L + 1) (L + 3) (TT s1) (HH s1) (NT s1)).
  { rewrite AT, AH, N1. apply step_fwd; auto. }
  destruct (legalize_planar p V0 R1 (fun v => v = p \/ v = q) (-1) (L + 1) s1 (L + 2) (fun _ => False)) as (s2 & r & LG & LF & LP & LE2 & LN); auto.
  { apply RV0. }
  { rewrite AL. exact AG. }
  { rewrite AL. exact HI1. }
  { rewrite AL. lia. }
  { rewrite Sl. exact Tn1. }
  { left. left. exact Tn1. }
  { rewrite AL. exact ALE. }
  rewrite AL in LP, LE2.
  pose proof (lframe_wfs _ _ R1 LF W1) as W2.
  assert (Ln2 : length (nodes s2) = length (nodes s)) by (rewrite (lf_nl _ _ LF), AN; auto).
  assert (L2 : trianglesLen s2 = L + 3) by (rewrite (lf_len _ _ LF); auto).
  assert (Rp2 : 0 <= p < Ln (nodes s2)) by (rewrite Ln2, (i_nodes _ _ I); auto).
  destruct (l_r _ _ _ _ _ _ _ _ _ _ _ _ _ _ _ _ LP) as (Rr2 & Tr1 & Tr2 & Hr).
  rewrite Tn2 in Tr2. rewrite Sl in Hr.
  assert (H1v : HH s1 (L + 1) = -1).
  { rewrite AH. apply addH_eqs with (T := TT s) (x := q) (p := p) (y := q'); auto. intros Q. apply (pos_ne _ _ Vis). congruence. }
  rewrite H1v in Hr.
  set (s3 := updS s2 p (setT r)).
  pose proof (wfs_updT s2 R1 p r Rp2 W2) as W3. fold s3 in W3.
  destruct (remove_ok s3 p q q' C (w_ring _ _ W3)) as (s4 & RM & NF & RG4 & Nx4 & Pr4 & NT4 & NI4 & NIq & NO4).
  exists s1, s2, s3, s4, r. split; [exact A0|]. split; [exact LG|]. split; [apply updN_ok; auto|]. split; [exact RM|].
  split; [exact Nx4|].
  assert (NT4' : NT s4 = upd (NT s2) p r).
  { apply functional_extensionality. intros k. rewrite NT4. unfold s3. rewrite NT_updS_T by auto. reflexivity. }
  assert (NI4' : forall k, k <> q -> nI (NN s4 k) = nI (NN s k)).
  { intros k Hk. rewrite NI4 by auto. unfold s3. rewrite NN_updS by auto. unfold updg.
    assert (Q : nI (NN s2 k) = nI (NN s k)) by (rewrite (lf_node _ _ LF), NN1; reflexivity).
    destruct (Z.eqb_spec k p) as [->|]; auto. }
  assert (T4 : TT s4 = TT s2) by (unfold TT; rewrite (nf_t _ _ NF); reflexivity).
  assert (H4 : HH s4 = HH s2) by (unfold HH; rewrite (nf_h _ _ NF); reflexivity).
  assert (L4 : trianglesLen s4 = L + 3) by (rewrite (nf_l _ _ NF); exact L2).
  set (s5 := withHull (Some p) s4).
  assert (L5 : trianglesLen s5 = L + 3) by exact L4.
  assert (T5 : TT s5 = TT s2) by exact T4. assert (H5 : HH s5 = HH s2) by exact H4.
  assert (N5 : NT s5 = upd (NT s2) p r) by exact NT4'.
  assert (NN5 : NN s5 = NN s4) by reflexivity.
  constructor; rewrite ?L5, ?T5, ?H5, ?N5, ?NN5.
  - constructor.
    + change (triangles s5) with (triangles s4). rewrite L5, (nf_t _ _ NF). change (triangles s3) with (triangles s2). pose proof (w_len _ _ W2). lia.
    + change (triangles s5) with (triangles s4). change (halfedges s5) with (halfedges s4). rewrite (nf_t _ _ NF), (nf_h _ _ NF). apply (w_len2 _ _ W3).
    + exact RG4.
    + exists p. split; [reflexivity|left; auto].
  - exact (l_ginv _ _ _ _ _ _ _ _ _ _ _ _ _ _ _ _ LP).
  - exact LE2.
  - apply step_fwd_post with (P := PP) (q := q); auto.
    + repeat split; auto; lia.
    + pose proof (l_hinv _ _ _ _ _ _ _ _ _ _ _ _ _ _ _ _ LP) as Q. rewrite Sl, Z.eqb_refl in Q. exact Q.
  - exact CH'.
  - change (nodes s5) with (nodes s4). rewrite (nf_n _ _ NF). unfold s3. rewrite len_updS, Ln2. apply (i_nodes _ _ I).
  - unfold Zlen. cbn [length]. lia.
  - change (triangles s5) with (triangles s4). rewrite (nf_t _ _ NF). change (triangles s3) with (triangles s2). rewrite (lf_tl _ _ LF), ATl. auto.
  - lia.
  - apply (leg_seed _ _ _ _ _ _ _ _ _ _ _ _ _ LP). rewrite AT. apply addT_seed; auto. apply (i_seed _ _ I).
  - intros v Hv. apply (l_used _ _ _ _ _ _ _ _ _ _ _ _ _ _ _ _ LP). rewrite AT. apply addT_used with (W := p :: V0); auto.
    + apply (i_used _ _ I).
    + right. auto.
  - intros k Hk. rewrite upd_other by (intros ->; apply Hk; left; auto). rewrite LN.
    + rewrite N1. apply (i_fresh _ _ I). auto.
    + intros [Q|Q]; apply Hk; [left; auto|right]. apply (r_RV _ _ _ RS). apply (c_in _ _ _ _ CH). auto.
  - change (hash s5) with (hash s4). rewrite (nf_ha _ _ NF). change (hash s3) with (hash s2). rewrite (lf_hash _ _ LF), AHa. apply (i_hash _ _ I).
  - intros k Hk. destruct (Z.eq_dec k q) as [->|Nk]; [right; auto|]. rewrite NI4' by auto.
    destruct (i_gone _ _ I k Hk) as [[Q|Q]|Q]; [congruence|left; auto|right; auto].
  - intros k Hk1 Hk2. rewrite NI4'; [apply (i_old _ _ I); auto|]. intros ->. apply Hk2. apply (c_in _ _ _ _ CH). left; auto.
Qed.

(** ** Walking backward *)
Lemma back_ok s C q' q : ins s (C ++ [q'; q]) -> vis q' q ->
  exists s1 s2 s3 s4 r,
    addTriangle s q' p q (-1) (NT s q) (NT s q') = Ok (s1, trianglesLen s) /\
    legalize vs (legalizeFuel s1) s1 (trianglesLen s + 2) = Ok (s2, r) /\ prev_of s2 q = Ok q' /\
    updN s2 q' (setT (trianglesLen s)) = Ok s3 /\ remove s3 q = Ok (s4, q') /\
    prev_of (withHull (Some q') s4) q = Ok q' /\ ins (withHull (Some q') s4) (C ++ [q']).
Proof.
  intros I Vis. set (L := trianglesLen s). pose proof (i_wfs _ _ I) as W. pose proof (i_g _ _ I) as G. pose proof (i_leg _ _ I) as LE.
  pose proof (g_mesh _ _ _ _ _ _ G) as M. pose proof (m_L _ _ _ M) as L0. pose proof (ins_nd _ _ I) as ND.
  pose proof (i_full _ _ I) as F. pose proof (i_chain _ _ I) as CH. fold L in G, LE, M, L0, F.
  assert (E : In (q', q) (polygon_edges R0)).
  { apply (c_pairs _ _ _ _ CH). rewrite pairs_snoc. apply in_or_app. right. left; auto. }
  pose proof (chain_back _ _ _ _ _ _ CH Vis) as CH'. pose proof (len_chain _ CH') as LC.
  set (R1 := p :: C ++ [q'; q]) in *.
  assert (Eqq : In (q', q) (polygon_edges R1)) by (unfold R1; rewrite pe_back; apply in_or_app; right; left; auto).
  assert (Eqp : In (q, p) (polygon_edges R1)) by (unfold R1; rewrite pe_back; apply in_or_app; right; right; left; auto).
  pose proof (hfull_joins _ _ _ _ _ _ _ F Eqp) as J1. pose proof (hfull_joins _ _ _ _ _ _ _ F Eqq) as J2.
  pose proof cap_bound as CB. pose proof (i_count _ _ I) as Cnt. pose proof (i_cap _ _ I) as Cap. pose proof (i_pos _ _ I) as Pos.
  fold L in Cnt, Pos. unfold Zlen in Cnt, CB. rewrite app_length in Cnt, LC. cbn [length] in Cnt, LC.
  assert (Iq : In q (C ++ [q'; q])) by (apply in_or_app; right; right; left; auto).
  assert (Iq' : In q' (C ++ [q'; q])) by (apply in_or_app; right; left; auto).
  assert (Npq : p <> q) by (intros ->; apply (proj1 (NoDup_cons_iff _ _) ND); auto).
  assert (Npq' : p <> q') by (intros ->; apply (proj1 (NoDup_cons_iff _ _) ND); auto).
  pose proof (pos_ne _ _ Vis) as Nqq.
  destruct (add_ok s q' q (-1) (NT s q) (NT s q')) as (s1 & A0 & AT & AH & AL & AN & AHu & AHa & ATl & AHl & AG & ALE); auto.
  { fold L. lia. }
  { apply (w_len2 _ _ W). }
  fold L in A0, AT, AH, AL, AG, ALE.
  assert (NN1 : NN s1 = NN s) by (unfold NN; rewrite AN; reflexivity).
  assert (N1 : NT s1 = NT s) by (unfold NT; rewrite NN1; reflexivity).
  assert (W1 : wfs s1 R1).
  { constructor.
    - rewrite AL, ATl. lia.
    - rewrite ATl, AHl. apply (w_len2 _ _ W).
    - rewrite AN, NN1. apply (w_ring _ _ W).
    - rewrite AHu. apply (w_hull _ _ W). }
  assert (Sl : pv (L + 2) = L + 1 /\ nx L = L + 1).
  { destruct (add_slots L (TT s) (HH s) M) as (Q1 & _ & _ & _ & _ & Q6). auto. }
  destruct Sl as [Sl Sn].
  assert (T1n : TT s1 L = q' /\ TT s1 (L + 1) = p /\ TT s1 (L + 2) = q) by (rewrite AT; apply addT_new).
  destruct T1n as (Tn0 & Tn1 & Tn2).
  assert (HI1 : hinv PP p R1 (fun v => v = q' \/ v = q) L (-1) (L + 3) (TT s1) (HH s1) (NT s1)).
  { rewrite AT, AH, N1. apply step_back; auto. }
  assert (HE : HH s1 L = -1 /\ HH s1 (L + 1) = NT s q).
  { rewrite AH. destruct (addH_eqs L (TT s) (HH s) q' p q (-1) (NT s q) (NT s q')) as (Q1 & Q2 & _); auto. }
  destruct HE as [HE0 HE1].
  destruct (legalize_planar p V0 R1 (fun v => v = q' \/ v = q) L (-1) s1 (L + 2) (fun _ => False)) as (s2 & r & LG & LF & LP & LE2 & LN); auto.
  { apply RV0. }
  { rewrite AL. exact AG. }
  { rewrite AL. exact HI1. }
  { rewrite AL. lia. }
  { rewrite Sl. exact Tn1. }
  { right. rewrite Sl, HE1. apply J1. }
  { rewrite AL. exact ALE. }
  rewrite AL in LP, LE2.
  pose proof (lframe_wfs _ _ R1 LF W1) as W2.
  assert (Ln2 : length (nodes s2) = length (nodes s)) by (rewrite (lf_nl _ _ LF), AN; auto).
  assert (L2 : trianglesLen s2 = L + 3) by (rewrite (lf_len _ _ LF); auto).
  assert (Rq2 : 0 <= q' < Ln (nodes s2)).
  { apply (rg_range _ _ _ (w_ring _ _ W2)). right. auto. }
  set (s3 := updS s2 q' (setT L)).
  pose proof (wfs_updT s2 R1 q' L Rq2 W2) as W3. fold s3 in W3.
  (* the ring from q' on *)
  assert (PR : Permutation R1 (q' :: q :: p :: C) /\ Permutation (polygon_edges R1) (polygon_edges (q' :: q :: p :: C))).
  { split; [apply (Permutation_app_comm (p :: C) [q'; q])|apply (pe_rot (p :: C) [q'; q])]. }
  destruct PR as [PR PE].
  destruct (remove_ok s3 q' q p C (ring_rot _ _ _ _ PR PE (w_ring _ _ W3))) as (s4 & RM & NF & RG4 & Nx4 & Pr4 & NT4 & NI4 & NIq & NO4).
  exists s1, s2, s3, s4, r. split; [exact A0|]. split; [exact LG|].
  split; [apply (prev_of_ok _ R1); auto; apply (w_ring _ _ W2)|]. split; [apply updN_ok; auto|]. split; [exact RM|].
  split; [exact Pr4|].
  assert (NT4' : NT s4 = upd (NT s2) q' L).
  { apply functional_extensionality. intros k. rewrite NT4. unfold s3. rewrite NT_updS_T by auto. reflexivity. }
  assert (NI4' : forall k, k <> q -> nI (NN s4 k) = nI (NN s k)).
  { intros k Hk. rewrite NI4 by auto. unfold s3. rewrite NN_updS by auto. unfold updg.
    assert (Q : nI (NN s2 k) = nI (NN s k)) by (rewrite (lf_node _ _ LF), NN1; reflexivity).
    destruct (Z.eqb_spec k q') as [->|]; auto. }
  assert (T4 : TT s4 = TT s2) by (unfold TT; rewrite (nf_t _ _ NF); reflexivity).
  assert (H4 : HH s4 = HH s2) by (unfold HH; rewrite (nf_h _ _ NF); reflexivity).
  assert (L4 : trianglesLen s4 = L + 3) by (rewrite (nf_l _ _ NF); exact L2).
  assert (HpL : has p (TT s1) L) by (right; left; rewrite Sn; exact Tn1).
  assert (JL : joins (L + 3) (TT s2) (HH s2) L q' p).
  { split; [lia|].
    assert (QT : TT s2 L = q') by (rewrite (l_T _ _ _ _ _ _ _ _ _ _ _ _ _ _ _ _ LP); auto; lia).
    assert (QN : TT s2 (nx L) = p).
    { rewrite Sn, (l_T _ _ _ _ _ _ _ _ _ _ _ _ _ _ _ _ LP); auto; [|lia]. rewrite <- Sn. apply has_nx. auto. }
    split; [|auto]. rewrite (l_H _ _ _ _ _ _ _ _ _ _ _ _ _ _ _ _ LP); auto; lia. }
  set (s5 := withHull (Some q') s4).
  assert (L5 : trianglesLen s5 = L + 3) by exact L4.
  assert (T5 : TT s5 = TT s2) by exact T4. assert (H5 : HH s5 = HH s2) by exact H4.
  assert (N5 : NT s5 = upd (NT s2) q' L) by exact NT4'.
  assert (NN5 : NN s5 = NN s4) by reflexivity.
  constructor; rewrite ?L5, ?T5, ?H5, ?N5, ?NN5.
  - constructor.
    + change (triangles s5) with (triangles s4). rewrite L5, (nf_t _ _ NF). change (triangles s3) with (triangles s2). pose proof (w_len _ _ W2). lia.
    + change (triangles s5) with (triangles s4). change (halfedges s5) with (halfedges s4). rewrite (nf_t _ _ NF), (nf_h _ _ NF). apply (w_len2 _ _ W3).
    + change (nodes s5) with (nodes s4). rewrite NN5. apply (ring_rot _ _ (q' :: p :: C)); auto;
        [apply (Permutation_app_comm [q'] (p :: C))|apply (pe_rot [q'] (p :: C))].
    + exists q'. split; [reflexivity|]. right. apply in_or_app. right. left. auto.
  - exact (l_ginv _ _ _ _ _ _ _ _ _ _ _ _ _ _ _ _ LP).
  - exact LE2.
  - apply step_back_post with (P := PP) (q := q); auto.
    pose proof (l_hinv _ _ _ _ _ _ _ _ _ _ _ _ _ _ _ _ LP) as Q. rewrite Sl in Q.
    destruct (Z.eqb_spec (-1) (L + 1)); [lia|]. exact Q.
  - exact CH'.
  - change (nodes s5) with (nodes s4). rewrite (nf_n _ _ NF). unfold s3. rewrite len_updS, Ln2. apply (i_nodes _ _ I).
  - unfold Zlen. rewrite app_length. cbn [length]. lia.
  - change (triangles s5) with (triangles s4). rewrite (nf_t _ _ NF). change (triangles s3) with (triangles s2). rewrite (lf_tl _ _ LF), ATl. auto.
  - lia.
  - apply (leg_seed _ _ _ _ _ _ _ _ _ _ _ _ _ LP). rewrite AT. apply addT_seed; auto. apply (i_seed _ _ I).
  - intros v Hv. apply (l_used _ _ _ _ _ _ _ _ _ _ _ _ _ _ _ _ LP). rewrite AT. apply addT_used with (W := p :: V0); auto.
    + apply (i_used _ _ I).
    + right. auto.
  - intros k Hk.
    assert (NkR : ~ In k R1).
    { intros [Q|Q]; apply Hk; [left; auto|right]. apply (r_RV _ _ _ RS). apply (c_in _ _ _ _ CH). auto. }
    rewrite upd_other by (intros ->; apply NkR; right; auto). rewrite LN by auto.
    rewrite N1. apply (i_fresh _ _ I). auto.
  - change (hash s5) with (hash s4). rewrite (nf_ha _ _ NF). change (hash s3) with (hash s2). rewrite (lf_hash _ _ LF), AHa. apply (i_hash _ _ I).
  - intros k Hk. destruct (Z.eq_dec k q) as [->|Nk]; [right; auto|]. rewrite NI4' by auto.
    destruct (i_gone _ _ I k Hk) as [Q|Q]; [left|right; auto].
    apply in_app_or in Q. apply in_or_app. destruct Q as [Q|[Q|[Q|[]]]]; [left; auto|right; left; auto|congruence].
  - intros k Hk1 Hk2. rewrite NI4'; [apply (i_old _ _ I); auto|]. intros ->. apply Hk2. apply (c_in _ _ _ _ CH). auto.
Qed.

(** ** The two loops *)
Lemma ins_node s C v : ins s C -> In v (p :: C) -> 0 <= v < Ln (nodes s) /\ nI (NN s v) = v /\ 0 <= v < n.
Proof.
  intros I Hv. pose proof (w_ring _ _ (i_wfs _ _ I)) as RG. split; [apply (rg_range _ _ _ RG); auto|].
  split; [apply (rg_i _ _ _ RG); auto|]. rewrite <- (i_nodes _ _ I). apply (rg_range _ _ _ RG); auto.
Qed.
Lemma flt_vis x y : 0 <= x < n -> 0 <= y < n -> flt FA (area (vat vs p) (vat vs x) (vat vs y)) (fofZ FA 0) = true <-> vis x y.
Proof. intros Rx Ry. unfold P_chain.vis. rewrite (ex_lt _ _ EX); auto. apply Rltb_true. Qed.

Lemma walkForward_ok : forall C fuel s q, ins s (q :: C) -> (length C < fuel)%nat ->
  exists s' m C', walkForward vs fuel s (vat vs p) p q = Ok s' /\ ins s' (m :: C') /\
    (forall y C'', C' = y :: C'' -> ~ vis m y) /\ exists pre, q :: C = pre ++ m :: C'.
Proof.
  induction C as [|q' C IH]; intros fuel s q I Hf.
  { exfalso. pose proof (len_chain _ (i_chain _ _ I)) as Q. simpl in Q. lia. }
  destruct fuel as [|fuel]; [lia|]. cbn [walkForward]. cbn [length] in Hf.
  pose proof (w_ring _ _ (i_wfs _ _ I)) as RG.
  assert (Eqq : In (q, q') (polygon_edges (p :: q :: q' :: C))) by (right; left; auto).
  assert (Epq : In (p, q) (polygon_edges (p :: q :: q' :: C))) by (left; auto).
  rewrite (next_of_ok s _ _ _ RG Eqq). cbn [rbind].
  destruct (ins_node s _ q I) as (Q1 & Q2 & Q3); [right; left; auto|].
  destruct (ins_node s _ q' I) as (Q4 & Q5 & Q6); [right; right; left; auto|].
  destruct (ins_node s _ p I) as (Q7 & Q8 & Q9); [left; auto|].
  rewrite areaN_ok by auto. cbn [rbind].
  destruct (flt FA (area (vat vs p) (vat vs q) (vat vs q')) (fofZ FA 0)) eqn:B.
  - apply flt_vis in B; [|auto..].
    rewrite !getN_ok by auto. cbn [rbind]. rewrite (rg_prev _ _ _ RG _ _ Epq). cbn [deref rbind].
    rewrite getN_ok by auto. cbn [rbind]. rewrite Q2, Q5.
    destruct (fwd_ok s q q' C I B) as (s1 & s2 & s3 & s4 & r & E1 & E2 & E3 & E4 & E5 & I').
    change (nT (NN s p)) with (NT s p). change (nT (NN s q)) with (NT s q).
    rewrite E1. cbn [rbind]. rewrite E2. cbn [rbind]. rewrite E3. cbn [rbind]. rewrite E4. cbn [rbind]. cbv zeta. rewrite E5. cbn [rbind].
    destruct (IH fuel _ _ I') as (s' & m & C' & F1 & F2 & F3 & pre & F4); [lia|].
    exists s', m, C'. split; auto. split; auto. split; auto. exists (q :: pre). rewrite F4. reflexivity.
  - exists s, q, (q' :: C). split; auto. split; auto. split; [|exists []; reflexivity].
    intros y C'' [= <- <-] V. apply flt_vis in V; [congruence|auto..].
Qed.

Lemma walkBackward_ok : forall k C fuel s q, length C = k -> ins s (C ++ [q]) -> (length C < fuel)%nat ->
  exists s' m C', walkBackward vs fuel s (vat vs p) p q = Ok s' /\ ins s' (C' ++ [m]) /\
    (forall y C'', C' = C'' ++ [y] -> ~ vis y m) /\ exists post, C ++ [q] = C' ++ m :: post.
Proof.
  induction k as [|k IH]; intros C fuel s q Hk I Hf.
  { exfalso. pose proof (len_chain _ (i_chain _ _ I)) as Q. rewrite app_length in Q. simpl in Q. lia. }
  destruct fuel as [|fuel]; [lia|]. cbn [walkBackward].
  destruct (exists_last (l := C)) as (C0 & q' & ->). { intros ->. discriminate. }
  rewrite app_length in Hk, Hf. cbn [length] in Hk, Hf. rewrite <- app_assoc in I. simpl in I.
  pose proof (w_ring _ _ (i_wfs _ _ I)) as RG.
  assert (Eqq : In (q', q) (polygon_edges (p :: C0 ++ [q'; q]))) by (rewrite pe_back; apply in_or_app; right; left; auto).
  rewrite (prev_of_ok s _ _ _ RG Eqq). cbn [rbind].
  destruct (ins_node s _ q I) as (Q1 & Q2 & Q3); [right; apply in_or_app; right; right; left; auto|].
  destruct (ins_node s _ q' I) as (Q4 & Q5 & Q6); [right; apply in_or_app; right; left; auto|].
  rewrite areaN_ok by auto. cbn [rbind].
  destruct (flt FA (area (vat vs p) (vat vs q') (vat vs q)) (fofZ FA 0)) eqn:B.
  - apply flt_vis in B; [|auto..].
    rewrite !getN_ok by auto. cbn [rbind]. rewrite Q2, Q5.
    destruct (back_ok s C0 q' q I B) as (s1 & s2 & s3 & s4 & r & E1 & E2 & E2' & E3 & E4 & E5 & I').
    change (nT (NN s q')) with (NT s q'). change (nT (NN s q)) with (NT s q).
    rewrite E1. cbn [rbind]. rewrite E2. cbn [rbind]. rewrite E2'. cbn [rbind]. rewrite E3. cbn [rbind]. rewrite E4. cbn [rbind]. cbv zeta. rewrite E5. cbn [rbind].
    destruct (IH C0 fuel _ q' (ltac:(lia)) I') as (s' & m & C' & F1 & F2 & F3 & post & F4); [lia|].
    exists s', m, C'. split; auto. split; auto. split; auto. exists (post ++ [q]). rewrite F4, <- app_assoc. reflexivity.
  - exists s, q, (C0 ++ [q']). split; auto. split; [rewrite <- app_assoc; exact I|]. split; [|exists []; reflexivity].
    intros y C'' E V. apply app_inj_tail in E. destruct E as [_ <-]. apply flt_vis in V; [congruence|auto..].
Qed.

(** ** Looking for a visible edge *)
Lemma findVisible_ok start l : Permutation R0 (start :: l) -> Permutation (polygon_edges R0) (polygon_edges (start :: l)) ->
  forall post pre e fuel, start :: l = pre ++ e :: post -> (length post < fuel)%nat ->
  (forall u v, In (u, v) (pairs (pre ++ [e])) -> ~ vis u v) ->
  (exists x y, findVisible vs fuel s0 (vat vs p) start e = Ok (Some x) /\ In (x, y) (polygon_edges R0) /\ vis x y /\
     (x = start \/ forall u, In (u, x) (polygon_edges R0) -> ~ vis u x)) \/
  (findVisible vs fuel s0 (vat vs p) start e = Ok None /\ forall u v, In (u, v) (polygon_edges R0) -> ~ vis u v).
Proof.
  intros P1 P2. pose proof (w_ring _ _ (r_wfs _ _ _ RS)) as RG. pose proof (Permutation_NoDup P1 ND0) as ND.
  assert (IE : forall u v, In (u, v) (polygon_edges (start :: l)) <-> In (u, v) (polygon_edges R0)).
  { intros u v; split; apply Permutation_in; auto. apply Permutation_sym; auto. }
  induction post as [|e' post IH]; intros pre e fuel E Hf Hpre; (destruct fuel as [|fuel]; [simpl in Hf; lia|]); cbn [findVisible].
  - (* last *)
    assert (Ed : In (e, start) (polygon_edges (start :: l))).
    { rewrite pe_pairs. change (start :: l ++ [start]) with ((start :: l) ++ [start]). rewrite E, <- app_assoc. simpl. apply in_pairs. exists pre, []. reflexivity. }
    apply IE in Ed. rewrite (next_of_ok s0 _ _ _ RG Ed). cbn [rbind]. destruct (pe_In _ _ _ Ed) as [I1 I2].
    rewrite areaN_ok; auto; try (apply (rg_range _ _ _ RG); auto); try (apply (rg_i _ _ _ RG); auto);
      try (rewrite <- (r_nodes _ _ _ RS); apply (rg_range _ _ _ RG); auto).
    cbn [rbind]. rewrite (ex_le _ _ EX); auto; try (rewrite <- (r_nodes _ _ _ RS); apply (rg_range _ _ _ RG); auto). destruct (Rleb_spec 0 (ar (PP p) (PP e) (PP start))) as [B|B].
    + rewrite Z.eqb_refl. right. split; auto. intros u v Q. apply IE in Q. rewrite pe_pairs in Q.
      change (start :: l ++ [start]) with ((start :: l) ++ [start]) in Q. rewrite E, <- app_assoc in Q. simpl in Q.
      rewrite pairs_snoc in Q. apply in_app_or in Q. destruct Q as [Q|[Q|[]]]; [auto|]. injection Q as <- <-. unfold P_chain.vis. lra.
    + left. exists e, start. split; auto. split; auto. split; [exact B|].
      destruct pre as [|z pre'] eqn:Ep; [left; simpl in E; congruence|]. right. intros u Hu.
      destruct (exists_last (l := z :: pre')) as (pp & w & Ew); [discriminate|]. rewrite Ew in *.
      assert (Q : In (w, e) (pairs ((pp ++ [w]) ++ [e]))) by (rewrite <- app_assoc; apply in_pairs; exists pp, []; reflexivity).
      assert (Q' : In (w, e) (polygon_edges R0)).
      { apply IE. rewrite pe_pairs. change (start :: l ++ [start]) with ((start :: l) ++ [start]). rewrite E. apply in_pairs.
        exists pp, [start]. rewrite <- !app_assoc. reflexivity. }
      rewrite (pe_pred_unique R0 u w e ND0 Hu Q'). auto.
  - assert (Ed : In (e, e') (polygon_edges (start :: l))).
    { rewrite pe_pairs. change (start :: l ++ [start]) with ((start :: l) ++ [start]). rewrite E, <- app_assoc. simpl. apply in_pairs. exists pre, (post ++ [start]). reflexivity. }
    apply IE in Ed. rewrite (next_of_ok s0 _ _ _ RG Ed). cbn [rbind]. destruct (pe_In _ _ _ Ed) as [I1 I2].
    rewrite areaN_ok; auto; try (apply (rg_range _ _ _ RG); auto); try (apply (rg_i _ _ _ RG); auto);
      try (rewrite <- (r_nodes _ _ _ RS); apply (rg_range _ _ _ RG); auto).
    cbn [rbind]. rewrite (ex_le _ _ EX); auto; try (rewrite <- (r_nodes _ _ _ RS); apply (rg_range _ _ _ RG); auto). destruct (Rleb_spec 0 (ar (PP p) (PP e) (PP e'))) as [B|B].
    + assert (Nst : e' <> start).
      { intros ->. rewrite E in ND. destruct pre as [|z pre'].
        - simpl in E. injection E as E1 E2. subst e. apply NoDup_cons_iff in ND. apply (proj1 ND). left; auto.
        - simpl in E. injection E as E1 E2. subst z. simpl in ND. apply NoDup_cons_iff in ND. apply (proj1 ND). apply in_or_app. right. right. left. auto. }
      destruct (Z.eqb_spec e' start); [contradiction|].
      apply (IH (pre ++ [e])).
      * rewrite <- app_assoc. exact E.
      * simpl in Hf. lia.
      * intros u v Q. rewrite <- app_assoc in Q. simpl in Q. rewrite pairs_snoc in Q. apply in_app_or in Q.
        destruct Q as [Q|[Q|[]]]; [auto|]. injection Q as <- <-. unfold P_chain.vis. lra.
    + left. exists e, e'. split; auto. split; auto. split; [exact B|].
      destruct pre as [|z pre'] eqn:Ep; [left; simpl in E; congruence|]. right. intros u Hu.
      destruct (exists_last (l := z :: pre')) as (pp & w & Ew); [discriminate|]. rewrite Ew in *.
      assert (Q : In (w, e) (pairs ((pp ++ [w]) ++ [e]))) by (rewrite <- app_assoc; apply in_pairs; exists pp, []; reflexivity).
      assert (Q' : In (w, e) (polygon_edges R0)).
      { apply IE. rewrite pe_pairs. change (start :: l ++ [start]) with ((start :: l) ++ [start]). rewrite E. apply in_pairs.
        exists pp, (e' :: post ++ [start]). rewrite <- !app_assoc. reflexivity. }
      rewrite (pe_pred_unique R0 u w e ND0 Hu Q'). auto.
Qed.

(** ** The hash table *)
Lemma hash_live k : In (Some k) (hash s0) -> In k R0 -> 0 <=? nI (NN s0 k) = true.
Proof.
  intros _ Hk. pose proof (w_ring _ _ (r_wfs _ _ _ RS)) as RG. rewrite (rg_i _ _ _ RG k Hk). apply Z.leb_le. apply (rg_range _ _ _ RG k Hk).
Qed.
Lemma findStart_ok j k : 0 <= j < hs -> zget (hash s0) j = Ok (Some k) -> In k R0 ->
  forall count key start, 0 <= key < hs -> ((j - key) mod hs < Z.of_nat count) ->
  exists k', findStart count s0 key start = Ok (Some k') /\ In k' R0.
Proof.
  intros Hj Ej Ik. induction count as [|count IH]; intros key start Hky Hd.
  { pose proof (Z.mod_pos_bound (j - key) hs). lia. }
  cbn [findStart]. pose proof (r_hlen _ _ _ RS) as HL.
  rewrite (zget_getz None) by lia. cbn [rbind].
  set (b := getz None (hash s0) key).
  assert (Ib : In b (hash s0)).
  { unfold b, getz. destruct (Z.ltb_spec key 0); [lia|]. apply nth_In. lia. }
  assert (Step : j <> key -> exists k', findStart count s0 (if Ln (hash s0) <=? key + 1 then 0 else key + 1) b = Ok (Some k') /\ In k' R0).
  { intros Nj. apply IH.
    - destruct (Z.leb_spec (Ln (hash s0)) (key + 1)); lia.
    - assert (D : 0 < (j - key) mod hs).
      { destruct (Z.eq_dec ((j - key) mod hs) 0) as [Q|Q]; [|pose proof (Z.mod_pos_bound (j - key) hs); lia].
        apply Z.mod_divide in Q; [|lia]. destruct Q as (c & Q). assert (c = 0) by nia. lia. }
      destruct (Z.leb_spec (Ln (hash s0)) (key + 1)).
      + assert (key = hs - 1) by lia. subst key.
        assert ((j - (hs - 1)) mod hs = j + 1).
        { replace (j - (hs - 1)) with (j + 1 + (-1) * hs) by lia. rewrite Z.mod_add by lia. apply Z.mod_small.
          split; [lia|]. destruct (Z.eq_dec (j + 1) hs); lia. }
        rewrite Z.sub_0_r. rewrite (Z.mod_small j) by lia. lia.
      + replace (j - (key + 1)) with ((j - key) - 1) by lia.
        assert ((j - key - 1) mod hs = (j - key) mod hs - 1).
        { rewrite Zminus_mod. rewrite (Z.mod_small 1) by (pose proof (Z.mod_pos_bound (j - key) hs); lia).
          apply Z.mod_small. pose proof (Z.mod_pos_bound (j - key) hs). lia. }
        lia. }
  assert (Same : j = key -> b = Some k).
  { intros <-. rewrite (zget_getz None) in Ej by lia. unfold b. congruence. }
  destruct b as [k'|] eqn:Eb.
  - destruct (r_hash _ _ _ RS k' Ib) as [Rk C].
    rewrite getN_ok by (rewrite (r_nodes _ _ _ RS); auto). cbn [rbind].
    destruct C as [C|C].
    + rewrite (hash_live k' Ib C). exists k'. auto.
    + rewrite C. cbn [Z.leb Z.compare]. cbv zeta. apply Step. intros Q. specialize (Same Q). injection Same as ->.
      pose proof (hash_live k Ib Ik) as Q2. rewrite C in Q2. discriminate.
  - cbn [rbind]. cbv zeta. apply Step. intros Q. specialize (Same Q). discriminate.
Qed.

Lemma In_list_upd {X} (l : list X) k v x : In x (list_upd l k v) -> x = v \/ In x l.
Proof.
  revert k. induction l as [|y l IH]; intros [|k]; simpl; auto.
  - intros [<-|H]; auto.
  - intros [<-|H]; auto. destruct (IH k H); auto.
Qed.
Lemma list_upd_In {X} (l : list X) k v : (k < length l)%nat -> In v (list_upd l k v).
Proof. revert k. induction l as [|y l IH]; intros [|k]; simpl; try lia; auto. intros. right. apply IH. lia. Qed.
Lemma hashEdge_ok s e : Ln (hash s) = hs -> 0 <= e < Ln (nodes s) -> nI (NN s e) = e -> 0 <= e < n ->
  exists h, hashEdge vs ctr s e = Ok (withHash h s) /\ Ln h = hs /\ In (Some e) h /\
    (forall x, In x h -> x = Some e \/ In x (hash s)).
Proof.
  intros HL R1 E1 R2. unfold hashEdge. rewrite getN_ok by auto. cbn [rbind]. rewrite E1, zget_vat by auto. cbn [rbind].
  rewrite HL. destruct (HKEY e R2) as [K1 K2].
  set (key := hashKey ctr hs (vat vs e)) in *. unfold zset.
  destruct (Z.ltb_spec key 0); [lia|]. destruct (Nat.ltb_spec (Z.to_nat key) (length (hash s))); [|lia]. cbn [rbind].
  eexists. split; [reflexivity|]. split; [rewrite list_upd_length; auto|].
  split; [apply list_upd_In; lia|]. intros x. apply In_list_upd.
Qed.

Lemma finish_ok s C x y : ins s C -> In (x, y) (polygon_edges R0) -> vis x y ->
  (forall m z C', C = m :: z :: C' -> ~ vis m z) -> (forall l z C', C = C' ++ [z; l] -> ~ vis z l) ->
  exists s', (let! s := hashEdge vs ctr s p in let! pr := prev_of s p in hashEdge vs ctr s pr) = Ok s' /\
    rest s' (p :: V0) (p :: C).
Proof.
  intros I Exy Vis F1 F2. destruct (ins_node s C p I) as (P1 & P2 & P3); [left; auto|].
  destruct (hashEdge_ok s p) as (h1 & E1 & L1 & In1 & O1); auto.
  { rewrite (i_hash _ _ I). apply (r_hlen _ _ _ RS). }
  rewrite E1. cbn [rbind].
  pose proof (i_chain _ _ I) as CH. pose proof (len_chain C CH) as LC.
  destruct (c_last _ _ _ _ CH) as (l & C' & u & EC & _).
  pose proof (w_ring _ _ (i_wfs _ _ I)) as RG.
  assert (Elp : In (l, p) (polygon_edges (p :: C))).
  { rewrite EC, pe_snoc. apply in_or_app. right. left. auto. }
  assert (Il : In l C) by (rewrite EC; apply in_or_app; right; left; auto).
  change (prev_of (withHash h1 s) p) with (prev_of s p). rewrite (prev_of_ok s _ _ _ RG Elp). cbn [rbind].
  destruct (ins_node s C l I) as (Q1 & Q2 & Q3); [right; auto|].
  destruct (hashEdge_ok (withHash h1 s) l) as (h2 & E2 & L2 & In2 & O2); auto.
  rewrite E2. eexists. split; [reflexivity|].
  assert (CV : forall w, In w C -> In w V0) by (intros w Hw; apply (r_RV _ _ _ RS), (c_in _ _ _ _ CH), Hw).
  assert (Cn : forall u v w, In (u, v) (polygon_edges (p :: C)) -> In w (p :: V0) -> (0 <= ar (PP w) (PP u) (PP v))%R).
  { apply (conv_new PP p V0 R0 (r_RV _ _ _ RS) ND0 (r_conv _ _ _ RS) (r_dist _ _ _ RS) Hnc Rne C CH F1 F2). }
  pose proof (r_conv _ _ _ RS) as C0.
  assert (Dp : forall w, In w V0 -> ~ samexy (PP p) (PP w)).
  { intros w Hw [Sx Sy]. unfold P_chain.vis in Vis. specialize (C0 x y w Exy Hw).
    unfold ar, ccw in Vis, C0. rewrite Sx, Sy in Vis. lra. }
  assert (Sym : forall a b, samexy a b -> samexy b a) by (intros a b [A B]; split; auto).
  change (rest (withHash h2 s) (p :: V0) (p :: C)).
  constructor; try (change (TT (withHash h2 s)) with (TT s)); try (change (HH (withHash h2 s)) with (HH s));
    try (change (NT (withHash h2 s)) with (NT s)); try (change (NN (withHash h2 s)) with (NN s)); cbn [withHash trianglesLen triangles nodes hash].
  - destruct (i_wfs _ _ I). constructor; auto.
  - apply (g_mesh _ _ _ _ _ _ (i_g _ _ I)).
  - apply (g_or _ _ _ _ _ _ (i_g _ _ I)).
  - intros e He. destruct (g_vert _ _ _ _ _ _ (i_g _ _ I) e He); [left; auto|right; auto].
  - apply (final_delaunay PP p V0 (p :: C) (trianglesLen s) (TT s) (HH s) (NT s)); auto.
    + apply (i_g _ _ I).
    + apply (i_leg _ _ I).
    + apply (i_full _ _ I).
    + exists x, y. split; auto.
  - apply (i_full _ _ I).
  - exact Cn.
  - intros v [<-|Hv]; [left; auto|right; auto].
  - constructor; auto. apply (r_nd _ _ _ RS).
  - intros v [<-|Hv]; auto. apply RV0; auto.
  - intros a b [<-|Ha] [<-|Hb] S; auto.
    + exfalso. apply (Dp b); auto.
    + exfalso. apply (Dp a); auto.
    + apply (r_dist _ _ _ RS); auto.
  - apply (i_nodes _ _ I).
  - rewrite (i_count _ _ I). unfold Zlen. cbn [length]. lia.
  - apply (i_cap _ _ I).
  - apply (i_pos _ _ I).
  - apply (i_seed _ _ I).
  - apply (i_used _ _ I).
  - apply (i_fresh _ _ I).
  - exact L2.
  - intros k Hk. destruct (O2 _ Hk) as [Q|Hk1].
    { injection Q as ->. split; auto. left. right. auto. }
    cbn [withHash hash] in Hk1. destruct (O1 _ Hk1) as [Q|Hk2].
    { injection Q as ->. split; auto. left. left. auto. }
    rewrite (i_hash _ _ I) in Hk2. destruct (r_hash _ _ _ RS k Hk2) as [Rk D]. split; auto.
    destruct (in_dec Z.eq_dec k R0) as [IR|NR].
    + destruct (i_gone _ _ I k IR) as [|]; auto. left. right. auto.
    + destruct (Z.eq_dec k p) as [->|Nk]; [left; left; auto|]. right. rewrite (i_old _ _ I k Nk NR).
      destruct D; [contradiction|auto].
  - exists l. split; auto. right. auto.
Qed.

Lemma In_zget {X} (l : list X) x : In x l -> exists j, 0 <= j < Ln l /\ zget l j = Ok x.
Proof.
  intros H. apply (In_nth _ _ x) in H. destruct H as (k & Hk & E). exists (Z.of_nat k). split; [lia|].
  rewrite (zget_getz x) by lia. unfold getz. destruct (Z.ltb_spec (Z.of_nat k) 0); [lia|]. rewrite Nat2Z.id. congruence.
Qed.
Theorem insertPoint_ok :
  (insertPoint vs ctr s0 p (vat vs p) = Ok s0 /\ forall u v, In (u, v) (polygon_edges R0) -> ~ vis u v) \/
  (exists s' C, insertPoint vs ctr s0 p (vat vs p) = Ok s' /\ rest s' (p :: V0) (p :: C) /\
     exists u v, In (u, v) (polygon_edges R0) /\ vis u v).
Proof.
  unfold insertPoint. rewrite (r_hlen _ _ _ RS).
  destruct (HKEY p Rp) as [K1 K2].
  set (key := hashKey ctr hs (vat vs p)) in *. cbv zeta.
  destruct (r_live _ _ _ RS) as (k & Hk & Ik). destruct (In_zget _ _ Hk) as (j & Rj & Ej). rewrite (r_hlen _ _ _ RS) in Rj.
  destruct (findStart_ok j k Rj Ej Ik (length (hash s0)) key None) as (k' & E1 & Ik'); auto.
  { pose proof (Z.mod_pos_bound (j - key) hs). pose proof (r_hlen _ _ _ RS). lia. }
  rewrite E1. cbn [rbind deref].
  pose proof (w_ring _ _ (r_wfs _ _ _ RS)) as RG.
  destruct (pe_pred R0 k' Ik') as (st & Est). rewrite (prev_of_ok s0 _ _ _ RG Est). cbn [rbind].
  destruct (pe_In _ _ _ Est) as [Ist _].
  destruct (rotate_to R0 st Ist) as (l & P1 & P2).
  assert (Len : (length R0 <= length pts)%nat).
  { apply NoDup_range_length; [apply ND0|]. intros v Hv. rewrite <- (r_nodes _ _ _ RS). apply (rg_range _ _ _ RG); auto. }
  pose proof (r_nodes _ _ _ RS) as LN.
  assert (Len' : (length (st :: l) <= length (nodes s0))%nat).
  { rewrite <- (Permutation_length P1). lia. }
  cbn [length] in Len'.
  destruct (findVisible_ok st l P1 P2 l [] st (S (length (nodes s0)))) as [(x & y & E2 & Exy & V & W)|[E2 NV]]; [reflexivity|lia|intros u v []| |].
  2:{ left. rewrite E2. cbn [rbind]. auto. }
  right. rewrite E2. cbn [rbind].
  destruct (pe_In _ _ _ Exy) as [Ix Iy].
  rewrite getN_ok by (apply (rg_range _ _ _ RG); auto). cbn [rbind]. rewrite (rg_next _ _ _ RG _ _ Exy). cbn [deref rbind].
  rewrite getN_ok by (apply (rg_range _ _ _ RG); auto). cbn [rbind].
  rewrite (rg_i _ _ _ RG _ Ix), (rg_i _ _ _ RG _ Iy). change (nT (NN s0 x)) with (NT s0 x).
  destruct (first_ok x y Exy V) as (s1 & s2 & s3 & s4 & s5 & r & C & A1 & A2 & A3 & A4 & A5 & I & LP).
  rewrite A1. cbn [rbind]. rewrite A2. cbn [rbind]. rewrite A3. cbn [rbind]. rewrite A4. cbn [rbind]. rewrite A5. cbn [rbind].
  assert (Epy : In (p, y) (polygon_edges (p :: y :: C ++ [x]))) by (left; auto).
  rewrite (next_of_ok s5 _ _ _ (w_ring _ _ (i_wfs _ _ I)) Epy). cbn [rbind].
  assert (LB : forall s D, ins s D -> (length D < S (length (nodes s)))%nat).
  { intros s D I'. pose proof (w_ring _ _ (i_wfs _ _ I')) as RG'.
    assert (Q : (length (p :: D) <= length pts)%nat).
    { apply NoDup_range_length; [apply (rg_nd _ _ _ RG')|]. intros v Hv. rewrite <- (i_nodes _ _ I'). apply (rg_range _ _ _ RG'); auto. }
    pose proof (i_nodes _ _ I'). cbn [length] in Q. lia. }
  destruct (walkForward_ok (C ++ [x]) (S (length (nodes s5))) s5 y I) as (s6 & m & C6 & B1 & I6 & F6 & pre & X6).
  { pose proof (LB _ _ I). cbn [length] in H. lia. }
  rewrite B1. cbn [rbind].
  assert (Fin1 : forall m' z C', m :: C6 = m' :: z :: C' -> ~ vis m' z).
  { intros m' z C' [= <- Q]. apply (F6 z C'); auto. }
  destruct (Z.eqb_spec x st) as [Ex|Nx].
  - (* walk back *)
    destruct (exists_last (l := m :: C6)) as (D & q & ED); [discriminate|].
    rewrite ED in I6.
    assert (Eqp : In (q, p) (polygon_edges (p :: D ++ [q]))).
    { rewrite pe_snoc. apply in_or_app. right. left. auto. }
    rewrite (prev_of_ok s6 _ _ _ (w_ring _ _ (i_wfs _ _ I6)) Eqp). cbn [rbind].
    destruct (walkBackward_ok (length D) D (S (length (nodes s6))) s6 q eq_refl I6) as (s7 & m7 & C7 & B7 & I7 & F7 & post & X7).
    { pose proof (LB _ _ I6). rewrite app_length in H. cbn [length] in H. lia. }
    rewrite B7. cbn [rbind].
    destruct (finish_ok s7 (C7 ++ [m7]) x y I7 Exy V) as (s8 & E8 & R8).
    + intros m' z C' Q.
      assert (exists C'', m :: C6 = m' :: z :: C'') as (C'' & Q'').
      { rewrite ED, X7. destruct C7 as [|a [|b C7]]; simpl in Q; [discriminate| |]; injection Q as -> -> _; eexists; reflexivity. }
      apply (Fin1 m' z C''); auto.
    + intros l0 z C' Q. assert (C7 ++ [m7] = (C' ++ [z]) ++ [l0]) as Q' by (rewrite <- app_assoc; exact Q).
      apply app_inj_tail in Q'. destruct Q' as [-> ->]. apply (F7 z C'); auto.
    + exists s8, (C7 ++ [m7]). split; auto. split; auto. exists x, y. auto.
  - cbn [rbind].
    destruct (finish_ok s6 (m :: C6) x y I6 Exy V Fin1) as (s8 & E8 & R8).
    + destruct W as [W|W]; [contradiction|].
      (* the last pair of the chain ends in x *)
      intros l0 z C' Q. rewrite Q in X6.
      assert (l0 = x /\ In (z, l0) (pairs (y :: C ++ [x]))) as [-> Q2].
      { split.
        - assert (pre ++ C' ++ [z; l0] = (pre ++ C' ++ [z]) ++ [l0]) as Q3 by (rewrite <- !app_assoc; reflexivity).
          rewrite Q3 in X6. change (y :: C ++ [x]) with ((y :: C) ++ [x]) in X6. apply app_inj_tail in X6. symmetry. apply X6.
        - rewrite X6. apply in_pairs. exists (pre ++ C'), []. rewrite <- app_assoc. reflexivity. }
      apply W. apply (c_pairs _ _ _ _ (i_chain _ _ I)). exact Q2.
    + exists s8, (m :: C6). split; auto. split; auto. exists x, y. auto.
Qed.
End One.
End Insert.
