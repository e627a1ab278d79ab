(** The state after the seed triangle. *)
From Coq Require Import ZArith Lia List Bool Reals Lra Permutation FunctionalExtensionality.
From Flocq Require Import Core.
From Verif Require Import Base Arith GoLoop M_r3 M_tri2 M_triangulator Spec_r3 Spec_plane XRvec P_tri2 P_polygon P_delgeom
  P_halfedge P_ring P_flip P_leg P_tstate P_legmodel P_addtri P_ringops P_insstep P_chain P_insert.
Import ListNotations.
Open Scope Z_scope.

Lemma newNode_None s i : 0 <= i < Ln (nodes s) -> exists s', newNode s i None = Ok s' /\ nframe s s' /\
  forall k, NN s' k = if k =? i then mkNode i (NT s i) (Some i) (Some i) else NN s k.
Proof.
  intros R. unfold newNode. repeat updN_step. eexists. split; [reflexivity|].
  split; [repeat apply nframe_upd; apply nframe_refl|]. intros k.
  repeat (rewrite NN_updS by (rewrite ?len_updS; auto)). unfold updg. rewrite !Z.eqb_refl.
  destruct (k =? i); reflexivity.
Qed.
Lemma newNode_Some s i pr x : 0 <= i < Ln (nodes s) -> 0 <= pr < Ln (nodes s) -> 0 <= x < Ln (nodes s) ->
  pr <> i -> x <> i -> nNext (NN s pr) = Some x ->
  exists s', newNode s i (Some pr) = Ok s' /\ nframe s s' /\
  forall k, NN s' k = if k =? pr then setNext (Some i) (if pr =? x then setPrev (Some i) (NN s pr) else NN s pr)
                      else if k =? x then setPrev (Some i) (NN s x)
                      else if k =? i then mkNode i (NT s i) (Some pr) (Some x) else NN s k.
Proof.
  intros Ri Rp Rx Np Nx En. unfold newNode. updN_step.
  rewrite getN_ok by (rewrite len_updS; auto). cbn [rbind].
  rewrite NN_updS by auto. rewrite updg_other by auto. rewrite En.
  repeat updN_step. unfold next_of. rewrite getN_ok by (rewrite !len_updS; auto). cbn [rbind].
  repeat (rewrite NN_updS by (rewrite ?len_updS; auto)). rewrite !updg_other by auto. rewrite En. cbn [deref rbind].
  repeat updN_step. eexists. split; [reflexivity|].
  split; [repeat apply nframe_upd; apply nframe_refl|]. intros k.
  repeat (rewrite NN_updS by (rewrite ?len_updS; auto)). unfold updg. rewrite !Z.eqb_refl.
  assert (B : forall a b, a <> b -> (a =? b) = false) by (intros; apply Z.eqb_neq; auto).
  rewrite ?(B pr i), ?(B x i) by auto.
  destruct (Z.eqb_spec k pr) as [->|]; [destruct (Z.eqb_spec pr x) as [->|]; rewrite ?(B x i) by auto; reflexivity|].
  destruct (Z.eqb_spec k x) as [->|]; [reflexivity|].
  destruct (k =? i); reflexivity.
Qed.

Lemma NN_repeat m : getz node0 (repeat node0 m) = fun _ => node0.
Proof.
  apply functional_extensionality. intros k. unfold getz. destruct (k <? 0); auto.
  destruct (Nat.lt_ge_cases (Z.to_nat k) m).
  - apply nth_repeat.
  - apply nth_overflow. rewrite repeat_length. auto.
Qed.

(** the size of the hash table in exact arithmetic *)
Section Hsize.
Variable pts : list rv.
Notation n := (Ln pts).
Variable i0 : Z.
Hypothesis R0 : 0 <= i0 < n.
Hypothesis Hbig : n < 2 ^ 63.
Definition hsize : Z := Zceil (sqrt (IZR n)).
Lemma hsize_range : 0 < hsize < 2 ^ 63.
Proof.
  unfold hsize. assert (N1 : (1 <= IZR n)%R) by (apply IZR_le; lia).
  assert (S1 : (1 <= sqrt (IZR n))%R) by (rewrite <- sqrt_1; apply sqrt_le_1; lra).
  assert (S2 : (sqrt (IZR n) <= IZR n)%R).
  { rewrite <- (sqrt_square (IZR n)) at 2 by lra. apply sqrt_le_1; try lra. apply Rmult_le_pos; lra.
    rewrite <- (Rmult_1_r (IZR n)) at 1. apply Rmult_le_compat_l; lra. }
  split.
  - apply lt_IZR. pose proof (Zceil_ub (sqrt (IZR n))). simpl. lra.
  - apply Z.le_lt_trans with n; auto. apply Zceil_glb. exact S2.
Qed.
Lemma hsize_eq : ftoZ XR (fceil XR (fsqrt XR (fofZ XR n))) = hsize.
Proof.
  pose proof hsize_range as H. unfold hsize in *. cbn.
  assert (0 <= IZR n)%R by (apply IZR_le; lia).
  destruct (Rleb_spec 0 (IZR n)) as [_|]; [|lra]. cbn. rewrite Ztrunc_IZR.
  unfold int64_fits. destruct (Z.leb_spec (- 2 ^ 63) (Zceil (sqrt (IZR n)))); [|lia].
  destruct (Z.ltb_spec (Zceil (sqrt (IZR n))) (2 ^ 63)); [|lia]. reflexivity.
Qed.
End Hsize.

Section Init.
Context {FA : Arith}.
Variables (vs : list (vec FA)) (pts : list rv).
Hypothesis EX : exact_preds vs pts.
Notation n := (Ln pts).
Notation PP := (PP pts).
Variables (i0 i1 i2 : Z) (ctr : vec FA).
Hypothesis Hseed : forall v, 0 <= v < n -> (0 <= incirc (PP i0) (PP i1) (PP i2) (PP v))%R.
Hypothesis Hseed_or : (0 < ar (PP i0) (PP i1) (PP i2))%R.
Hypothesis R0 : 0 <= i0 < n.
Hypothesis R1 : 0 <= i1 < n.
Hypothesis R2 : 0 <= i2 < n.
Notation hsize := (ftoZ FA (fceil FA (fsqrt FA (fofZ FA n)))).
Hypothesis HR : 0 < hsize.
Hypothesis Hkey : forall v, 0 <= v < n -> 0 <= hashKey ctr hsize (vat vs v) < hsize.

Lemma seeds_distinct : i0 <> i1 /\ i1 <> i2 /\ i2 <> i0.
Proof.
  repeat split; intros E; pose proof Hseed_or as Q; rewrite E in Q; rewrite ?ar_aab, ?ar_aba, ?ar_baa in Q; lra.
Qed.
Lemma seeds_3 : 3 <= n.
Proof.
  destruct seeds_distinct as (D1 & D2 & D3).
  assert (B : (length [i0; i1; i2] <= length pts)%nat).
  { apply NoDup_range_length.
    - repeat constructor; simpl; intuition congruence.
    - intros v [<-|[<-|[<-|[]]]]; auto. }
  simpl in B. lia.
Qed.

Theorem initTri_ok : exists s, initTri vs ctr i0 i1 i2 = Ok s /\ rest pts i0 i1 i2 hsize s [i0; i1; i2] [i0; i1; i2].
Proof.
  pose proof seeds_3 as N3. destruct seeds_distinct as (D01 & D12 & D20).
  unfold initTri. rewrite (ex_len _ _ EX).
  unfold make at 1. destruct (Z.ltb_spec hsize 0); [lia|]. cbn [rbind].
  set (s0 := mkTri [] [] 0 None (repeat None (Z.to_nat hsize)) (repeat node0 (length pts))).
  assert (N0 : NN s0 = fun _ => node0) by (apply NN_repeat).
  assert (L0 : Ln (nodes s0) = n) by (simpl; rewrite repeat_length; auto).
  assert (H0 : Ln (hash s0) = hsize) by (simpl; rewrite repeat_length; lia).
  assert (HN : forall x, In x (hash s0) -> x = None) by (intros x Hx; apply (repeat_spec _ _ _ Hx)).
  (* i0 *)
  destruct (newNode_None s0 i0) as (s1 & E1 & [F11 F12 F13 F14 F15 F16] & N1); [lia|]. rewrite E1. cbn [rbind].
  rewrite updN_ok by lia. cbn [rbind].
  set (s2 := updS s1 i0 (setT 0)).
  assert (N2 : forall k, NN s2 k = if k =? i0 then mkNode i0 0 (Some i0) (Some i0) else node0).
  { intros k. unfold s2. rewrite NN_updS by lia. unfold updg. rewrite !N1, Z.eqb_refl, N0. destruct (k =? i0); reflexivity. }
  assert (L2 : length (nodes s2) = length (nodes s0)) by (unfold s2; rewrite len_updS; auto).
  destruct (hashEdge_ok vs pts EX ctr hsize HR Hkey s2 i0) as (h1 & E2 & HL1 & HI1 & HO1); auto.
  { unfold s2; cbn. rewrite F15. auto. } { lia. } { rewrite N2, Z.eqb_refl. auto. }
  rewrite E2. cbn [rbind]. set (s3 := withHash h1 s2).
  assert (N3' : forall k, NN s3 k = if k =? i0 then mkNode i0 0 (Some i0) (Some i0) else node0) by (exact N2).
  assert (L3 : length (nodes s3) = length (nodes s0)) by exact L2.
  (* i1 *)
  destruct (newNode_Some s3 i1 i0 i0) as (s4 & E4 & [F41 F42 F43 F44 F45 F46] & N4); try lia; auto.
  { rewrite N3', Z.eqb_refl. auto. }
  rewrite E4. cbn [rbind]. rewrite updN_ok by lia. cbn [rbind].
  set (s5 := updS s4 i1 (setT 1)).
  assert (B : forall a b, a <> b -> (a =? b) = false) by (intros; apply Z.eqb_neq; auto).
  assert (N5 : forall k, NN s5 k = if k =? i0 then mkNode i0 0 (Some i1) (Some i1) else if k =? i1 then mkNode i1 1 (Some i0) (Some i0) else node0).
  { intros k. unfold s5. rewrite NN_updS by lia. unfold updg, NT in *. rewrite !N4, !N3', !Z.eqb_refl. rewrite (B i1 i0) by auto.
    destruct (Z.eqb_spec k i0) as [->|]; [rewrite (B i0 i1) by auto; reflexivity|]. destruct (Z.eqb_spec k i1); reflexivity. }
  assert (L5 : length (nodes s5) = length (nodes s0)) by (unfold s5; rewrite len_updS; lia).
  destruct (hashEdge_ok vs pts EX ctr hsize HR Hkey s5 i1) as (h2 & E5 & HL2 & HI2 & HO2); auto.
  { unfold s5; cbn. rewrite F45. auto. } { lia. } { rewrite N5, Z.eqb_refl, (B i1 i0) by auto. auto. }
  rewrite E5. cbn [rbind]. set (s6 := withHash h2 s5).
  assert (N6 : forall k, NN s6 k = if k =? i0 then mkNode i0 0 (Some i1) (Some i1) else if k =? i1 then mkNode i1 1 (Some i0) (Some i0) else node0) by exact N5.
  assert (L6 : length (nodes s6) = length (nodes s0)) by exact L5.
  (* i2 *)
  destruct (newNode_Some s6 i2 i1 i0) as (s7 & E7 & [F71 F72 F73 F74 F75 F76] & N7); try lia; auto.
  { rewrite N6, Z.eqb_refl, (B i1 i0) by auto. auto. }
  rewrite E7. cbn [rbind]. rewrite updN_ok by lia. cbn [rbind].
  set (s8 := updS s7 i2 (setT 2)).
  assert (N8 : forall k, NN s8 k = if k =? i0 then mkNode i0 0 (Some i2) (Some i1) else if k =? i1 then mkNode i1 1 (Some i0) (Some i2)
     else if k =? i2 then mkNode i2 2 (Some i1) (Some i0) else node0).
  { intros k. unfold s8. rewrite NN_updS by lia. unfold updg, NT in *. rewrite !N7, !N6, !Z.eqb_refl.
    rewrite (B i1 i0), (B i2 i1), (B i2 i0) by auto.
    destruct (Z.eqb_spec k i0) as [->|]; [rewrite (B i0 i1), (B i0 i2) by auto; reflexivity|].
    destruct (Z.eqb_spec k i1) as [->|]; [rewrite (B i1 i2) by auto; reflexivity|].
    destruct (Z.eqb_spec k i2); reflexivity. }
  assert (L8 : length (nodes s8) = length (nodes s0)) by (unfold s8; rewrite len_updS; lia).
  destruct (hashEdge_ok vs pts EX ctr hsize HR Hkey s8 i2) as (h3 & E8 & HL3 & HI3 & HO3); auto.
  { unfold s8; cbn. rewrite F75. auto. } { lia. } { rewrite N8, Z.eqb_refl, (B i2 i1), (B i2 i0) by auto. auto. }
  rewrite E8. cbn [rbind].
  unfold make. destruct (Z.ltb_spec ((2 * n - 5) * 3) 0); [lia|]. cbn [rbind].
  set (Z0 := repeat 0 (Z.to_nat ((2 * n - 5) * 3))).
  assert (LZ : Ln Z0 = (2 * n - 5) * 3) by (unfold Z0; rewrite repeat_length; lia).
  set (s9 := withHalfedges Z0 (withTriangles Z0 (withHull (Some i2) (withHash h3 s8)))).
  assert (TL : trianglesLen s9 = 0).
  { change (trianglesLen s9) with (trianglesLen s7). rewrite F73. change (trianglesLen s6) with (trianglesLen s4). rewrite F43.
    change (trianglesLen s3) with (trianglesLen s1). rewrite F13. reflexivity. }
  destruct (addTriangle_ok s9 i0 i1 i2 (-1) (-1) (-1)) as (s & EA & AT & AH & AL & AN & AHu & AHa & ATl & AHl); auto; try lia.
  { rewrite TL. change (triangles s9) with Z0. lia. }
  rewrite EA. cbn [rbind]. exists s. split; [reflexivity|].
  rewrite TL in *.
  assert (NNs : forall k, NN s k = if k =? i0 then mkNode i0 0 (Some i2) (Some i1) else if k =? i1 then mkNode i1 1 (Some i0) (Some i2)
     else if k =? i2 then mkNode i2 2 (Some i1) (Some i0) else node0).
  { intros k. rewrite <- N8. unfold NN. rewrite AN. reflexivity. }
  assert (T0 : TT s 0 = i0 /\ TT s 1 = i1 /\ TT s 2 = i2).
  { rewrite AT. unfold addT, upd. auto. }
  assert (Hb : forall e, 0 <= e < 3 -> HH s e = -1).
  { intros e He. rewrite AH. assert (e = 0 \/ e = 1 \/ e = 2) as [->|[->| ->]] by lia; reflexivity. }
  destruct T0 as (T0 & T1 & T2).
  assert (Slot : forall e, 0 <= e < 3 -> e = 0 \/ e = 1 \/ e = 2) by (intros; lia).
  assert (Nl : Ln (nodes s) = n) by (rewrite AN; change (nodes s9) with (nodes s8); lia).
  assert (Nd : NoDup [i0; i1; i2]) by (repeat constructor; simpl; intuition congruence).
  assert (PE : forall u v, In (u, v) (polygon_edges [i0; i1; i2]) -> (u = i0 /\ v = i1) \/ (u = i1 /\ v = i2) \/ (u = i2 /\ v = i0)).
  { intros u v [Q|[Q|[Q|[]]]]; injection Q as <- <-; auto. }
  assert (NI0 : NN s i0 = mkNode i0 0 (Some i2) (Some i1)) by (rewrite NNs, Z.eqb_refl; auto).
  assert (NI1 : NN s i1 = mkNode i1 1 (Some i0) (Some i2)) by (rewrite NNs, Z.eqb_refl, (B i1 i0); auto).
  assert (NI2 : NN s i2 = mkNode i2 2 (Some i1) (Some i0)) by (rewrite NNs, Z.eqb_refl, (B i2 i0), (B i2 i1); auto).
  assert (Rng : forall v, In v [i0; i1; i2] -> 0 <= v < n) by (intros v [<-|[<-|[<-|[]]]]; auto).
  constructor; rewrite ?AL; change (0 + 3) with 3.
  - constructor.
    + rewrite AL, ATl. change (triangles s9) with Z0. lia.
    + rewrite ATl, AHl. reflexivity.
    + constructor; auto.
      * intros v Hv. rewrite Nl. auto.
      * intros v [<-|[<-|[<-|[]]]]; rewrite ?NI0, ?NI1, ?NI2; auto.
      * intros v w Hv. destruct (PE _ _ Hv) as [[-> ->]|[[-> ->]|[-> ->]]]; rewrite ?NI0, ?NI1, ?NI2; auto.
      * intros v w Hv. destruct (PE _ _ Hv) as [[-> ->]|[[-> ->]|[-> ->]]]; rewrite ?NI0, ?NI1, ?NI2; auto.
    + exists i2. rewrite AHu. split; auto. simpl; auto.
  - constructor.
    + lia.
    + reflexivity.
    + intros e He. left. auto.
    + intros e He. destruct (Slot e He) as [->|[->| ->]]; [change (nx 0) with 1|change (nx 1) with 2|change (nx 2) with 0]; rewrite ?T0, ?T1, ?T2; auto.
  - intros e He. assert (Q : orient PP (TT s) 0 = ar (PP i0) (PP i1) (PP i2)).
    { unfold orient. change (nx 0) with 1. change (pv 0) with 2. rewrite T0, T1, T2. auto. }
    destruct (Slot e He) as [->|[->| ->]].
    + lra. + change 1 with (nx 0). rewrite orient_nx. lra. + change 2 with (pv 0). rewrite orient_pv. lra.
  - intros e He. destruct (Slot e He) as [->|[->| ->]]; rewrite ?T0, ?T1, ?T2; simpl; auto.
  - intros e v He Hv. unfold circ.
    destruct (Slot e He) as [->|[->| ->]];
      [change (nx 0) with 1; change (pv 0) with 2|change (nx 1) with 2; change (pv 1) with 0|change (nx 2) with 0; change (pv 2) with 1];
      rewrite T0, T1, T2; [|rewrite incirc_rot|rewrite incirc_rot2]; auto.
  - constructor.
    + intros v w Hv. unfold NT.
      destruct (PE _ _ Hv) as [[-> ->]|[[-> ->]|[-> ->]]]; rewrite ?NI0, ?NI1, ?NI2; cbn [nT]; (split; [lia|]); (split; [apply Hb; lia|]);
        [change (nx 0) with 1|change (nx 1) with 2|change (nx 2) with 0]; auto.
    + intros e He _. unfold NT. destruct (Slot e He) as [->|[->| ->]]; [exists i0|exists i1|exists i2]; rewrite ?NI0, ?NI1, ?NI2; simpl; auto.
  - intros u v w Hv Hw.
    destruct (PE _ _ Hv) as [[-> ->]|[[-> ->]|[-> ->]]]; destruct Hw as [<-|[<-|[<-|[]]]];
      first [lra | rewrite ar_aab; lra | rewrite ar_aba; lra | rewrite ar_rot; lra | rewrite ar_rot2; lra].
  - auto.
  - auto.
  - auto.
  - assert (G : forall a b c, (0 < ar a b c)%R -> ~ samexy a b /\ ~ samexy b c /\ ~ samexy c a).
    { intros a b c Q. repeat split; intros [Q1 Q2]; unfold ar, ccw in Q; rewrite Q1, Q2 in Q; lra. }
    destruct (G _ _ _ Hseed_or) as (G1 & G2 & G3).
    assert (Sy : forall a b, samexy a b -> samexy b a) by (intros a b [? ?]; split; auto).
    intros u v [<-|[<-|[<-|[]]]] [<-|[<-|[<-|[]]]] Q; auto; exfalso; auto.
  - exact Nl.
  - reflexivity.
  - rewrite ATl. change (triangles s9) with Z0. lia.
  - lia.
  - auto.
  - intros v [<-|[<-|[<-|[]]]]; [exists 0|exists 1|exists 2]; split; auto; lia.
  - intros k Hk. unfold NT. rewrite NNs.
    destruct (Z.eqb_spec k i0) as [->|]; [exfalso; apply Hk; simpl; auto|].
    destruct (Z.eqb_spec k i1) as [->|]; [exfalso; apply Hk; simpl; auto|].
    destruct (Z.eqb_spec k i2) as [->|]; [exfalso; apply Hk; simpl; auto|]. reflexivity.
  - rewrite AHa. exact HL3.
  - intros k Hk. rewrite AHa in Hk. change (hash s9) with h3 in Hk.
    assert (Q : In k [i0; i1; i2]).
    { destruct (HO3 _ Hk) as [Q|Q]; [injection Q as ->; simpl; auto|].
      change (hash s8) with (hash s7) in Q. rewrite F75 in Q. change (hash s6) with h2 in Q.
      destruct (HO2 _ Q) as [Q2|Q2]; [injection Q2 as ->; simpl; auto|].
      change (hash s5) with (hash s4) in Q2. rewrite F45 in Q2. change (hash s3) with h1 in Q2.
      destruct (HO1 _ Q2) as [Q3|Q3]; [injection Q3 as ->; simpl; auto|].
      change (hash s2) with (hash s1) in Q3. rewrite F15 in Q3. apply HN in Q3. discriminate. }
    split; auto.
  - exists i2. rewrite AHa. split; [exact HI3|simpl; auto].
Qed.
End Init.
