(** The hull bookkeeping of the three ways a triangle is added during the insertion of p. *)
From Coq Require Import ZArith Lia List Bool Reals Lra Permutation.
From Verif Require Import Base Arith Spec_r3 Spec_plane P_tri2 P_delgeom P_halfedge P_ring P_flip P_leg P_addtri.
Import ListNotations.
Open Scope Z_scope.

(** every ring edge has its boundary slot, every boundary slot its ring edge *)
Record hfull (R : list Z) (L : Z) (T H N : Z -> Z) : Prop := {
  f_ok : forall v w, In (v, w) (polygon_edges R) -> 0 <= N v < L /\ H (N v) = -1 /\ T (N v) = v /\ T (nx (N v)) = w;
  f_cov : forall e, 0 <= e < L -> H e = -1 -> exists v, In v R /\ N v = e }.
Lemma hfull_inj R L T H N u v : hfull R L T H N -> In u R -> In v R -> N u = N v -> u = v.
Proof.
  intros F Hu Hv E. destruct (pe_succ R u Hu) as (a & Ha). destruct (pe_succ R v Hv) as (b & Hb).
  destruct (f_ok _ _ _ _ _ F _ _ Ha) as (_ & _ & Q & _). destruct (f_ok _ _ _ _ _ F _ _ Hb) as (_ & _ & Q' & _). congruence.
Qed.
Lemma hfull_joins R L T H N u v : hfull R L T H N -> In (u, v) (polygon_edges R) -> joins L T H (N u) u v.
Proof. intros F E. exact (f_ok _ _ _ _ _ F _ _ E). Qed.

Section Step.
Variables (P : Z -> rv) (p : Z).

Lemma hinv_add L T H N N1 R R1 X1 tin o x y l0 l1 l2 :
  mesh L T H -> x <> p -> p <> y -> y <> x ->
  l0 = -1 \/ joins L T H l0 p x -> l1 = -1 \/ joins L T H l1 y p -> joins L T H l2 x y ->
  hfull R L T H N ->
  (forall v w, In (v, w) (polygon_edges R1) -> ~ X1 v ->
     (In (v, w) (polygon_edges R) /\ N1 v = N v /\ N v <> l0 /\ N v <> l1 /\ N v <> l2) \/ (N1 v = L /\ v = x /\ w = p /\ l0 = -1)) ->
  (forall v, In v R -> N v <> l0 -> N v <> l1 -> N v <> l2 -> In v R1 /\ ~ X1 v /\ N1 v = N v) ->
  (l0 = -1 -> tin = L \/ exists v, In v R1 /\ ~ X1 v /\ N1 v = L) ->
  (l1 = -1 -> o = L + 1) ->
  (forall v, In v R1 -> X1 v -> 0 <= N1 v < L /\ (N1 v = l0 \/ N1 v = l1 \/ N1 v = l2 \/ (0 <= circ P T (N1 v) p)%R)) ->
  hinv P p R1 X1 tin o (L + 3) (addT T L x p y) (addH H L l0 l1 l2) N1.
Proof.
  intros M Hxp Hpy Hyx J0 J1 J2 F Ha Hb Hc Hd He.
  destruct (add_slots L T H M) as (S1 & S2 & S3 & S4 & S5 & S6).
  destruct (addT_new L T x p y) as (A1 & A2 & A3).
  destruct (addH_eqs L T H x p y l0 l1 l2 M Hxp Hpy Hyx J0 J1 (or_intror J2)) as (B1 & B2 & B3 & B4 & B5 & B6 & B7).
  pose proof (m_L _ _ _ M) as LL.
  constructor.
  - intros v w Hvw HX. destruct (Ha v w Hvw HX) as [(Q1 & Q2 & Q3 & Q4 & Q5)|(Q1 & Q2 & Q3 & Q4)].
    + destruct (f_ok _ _ _ _ _ F v w Q1) as (W1 & W2 & W3 & W4). rewrite Q2.
      destruct (addT_old L T H x p y M (N v) W1) as (O1 & O2 & _). rewrite O1, O2, B7 by auto.
      split; [lia|]. auto.
    + rewrite Q1, S1, A1, A2, B1. split; [lia|]. auto.
  - intros e Re Hm. destruct (new_slot L e Re) as [Ho|[->|[->| ->]]].
    + assert (N0 : e <> l0) by (intros ->; rewrite B4 in Hm; lia).
      assert (N1' : e <> l1) by (intros ->; rewrite B5 in Hm; lia).
      assert (N2 : e <> l2) by (intros ->; rewrite B6 in Hm; lia).
      rewrite B7 in Hm by auto. destruct (f_cov _ _ _ _ _ F e Ho Hm) as (v & Hv & Ev). left. exists v.
      rewrite <- Ev in N0, N1', N2. destruct (Hb v Hv N0 N1' N2) as (Q1 & Q2 & Q3). repeat split; auto. congruence.
    + rewrite B1 in Hm. destruct (Hc Hm) as [E|E]; [|left; auto]. right. left. rewrite S1. auto.
    + rewrite B2 in Hm. right. right. rewrite (Hd Hm). auto.
    + rewrite B3 in Hm. destruct J2 as (Q & _). lia.
  - intros v Hv HX. destruct (He v Hv HX) as (Q & C). split; [lia|].
    destruct C as [E|[E|[E|E]]].
    + right. left. rewrite E in *. rewrite B4; lia.
    + right. left. rewrite E in *. rewrite B5; lia.
    + right. left. rewrite E in *. rewrite B6; lia.
    + right. right. unfold circ in *. destruct (addT_old L T H x p y M _ Q) as (O1 & O2 & O3). rewrite O1, O2, O3. exact E.
Qed.

Lemma hinv_finish L T H N N2 R1 R2 X1 tin o :
  hinv P p R1 X1 tin o L T H N ->
  (forall v w, In (v, w) (polygon_edges R2) ->
     (In (v, w) (polygon_edges R1) /\ ~ X1 v /\ N2 v = N v) \/ joins L T H (N2 v) v w) ->
  (forall v, In v R1 -> ~ X1 v -> In v R2 /\ N2 v = N v) ->
  (0 <= tin -> exists v, In v R2 /\ N2 v = tin) ->
  (0 <= o -> exists v, In v R2 /\ N2 v = o) ->
  hfull R2 L T H N2.
Proof.
  intros HI Ha Hb Hc Hd. constructor.
  - intros v w Hvw. destruct (Ha v w Hvw) as [(Q1 & Q2 & Q3)|Q].
    + rewrite Q3. apply (h_ok _ _ _ _ _ _ _ _ _ _ HI); auto.
    + exact Q.
  - intros e He Hm. destruct (h_cov _ _ _ _ _ _ _ _ _ _ HI e He Hm) as [(v & Hv & HX & Ev)|[[-> _]|[-> _]]].
    + exists v. destruct (Hb v Hv HX) as (Q1 & Q2). split; auto. congruence.
    + apply Hc. lia.
    + apply Hd. lia.
Qed.

(** *** first triangle: ring x :: y :: rest, afterwards p :: y :: rest ++ [x] *)
Lemma pe_first (x y : Z) rest : polygon_edges (x :: y :: rest) = (x, y) :: pairs (y :: rest ++ [x]).
Proof. rewrite pe_pairs. reflexivity. Qed.
Lemma pe_first' (x y : Z) rest : polygon_edges (p :: y :: rest ++ [x]) = (p, y) :: pairs (y :: rest ++ [x]) ++ [(x, p)].
Proof. change (y :: rest ++ [x]) with ((y :: rest) ++ [x]). rewrite pe_snoc. reflexivity. Qed.

Lemma NoDup_pairs_fst (l : list Z) x y z : NoDup (l ++ [z]) -> In (x, y) (pairs (l ++ [z])) -> x <> z.
Proof.
  intros ND Hxy ->. apply in_pairs in Hxy. destruct Hxy as (l1 & l2 & E).
  destruct (exists_last (l:=y :: l2)) as (m & w & E2); [discriminate|].
  rewrite E2 in E.
  assert (E3 : l ++ [z] = (l1 ++ z :: m) ++ [w]) by (rewrite E, <- app_assoc; reflexivity).
  apply app_inj_tail in E3. destruct E3 as [-> <-].
  rewrite <- app_assoc in ND. apply NoDup_remove_2 in ND. apply ND. apply in_or_app. right. apply in_or_app. right. left. auto.
Qed.

Lemma step_first L T H N x y rest :
  mesh L T H -> ~ In p (x :: y :: rest) -> NoDup (x :: y :: rest) ->
  hfull (x :: y :: rest) L T H N ->
  0 <= N p < L -> (0 <= circ P T (N p) p)%R ->
  hinv P p (p :: y :: rest ++ [x]) (fun v => v = p) (-1) (L + 1) (L + 3)
    (addT T L x p y) (addH H L (-1) (-1) (N x)) (upd N x L).
Proof.
  intros M Hp ND F Rp Cp.
  assert (Hxp : x <> p) by (intros ->; apply Hp; simpl; auto).
  assert (Hpy : p <> y) by (intros ->; apply Hp; simpl; auto).
  assert (Hyx : y <> x) by (intros ->; apply NoDup_cons_iff in ND; destruct ND as [Q _]; apply Q; simpl; auto).
  assert (J2 : joins L T H (N x) x y) by (apply (hfull_joins _ _ _ _ _ _ _ F); rewrite pe_first; left; auto).
  pose proof (proj1 J2) as Rx.
  assert (ND2 : NoDup ((y :: rest) ++ [x])).
  { apply (Permutation_NoDup (l:=x :: y :: rest)); auto. apply (Permutation_cons_append (y :: rest)). }
  apply (hinv_add L T H N (upd N x L) (x :: y :: rest)); auto.
  - intros v w. rewrite pe_first'. intros [E|Hvw] HX; [injection E; intros; subst; exfalso; auto|].
    apply in_app_or in Hvw. destruct Hvw as [Hvw|[E|[]]].
    + left. assert (In (v, w) (polygon_edges (x :: y :: rest))) by (rewrite pe_first; right; auto).
      assert (v <> x) by (apply (NoDup_pairs_fst (y :: rest) v w x); auto).
      destruct (pe_In _ _ _ H0) as [Iv _].
      assert (0 <= N v) by apply (f_ok _ _ _ _ _ F _ _ H0).
      rewrite upd_other by auto. repeat split; auto; try lia.
      intros E. apply H1. apply (hfull_inj _ _ _ _ _ _ _ F); simpl; auto.
    + injection E as <- <-. right. rewrite upd_same. auto.
  - intros v Hv _ _ Hn. assert (v <> x) by congruence. split.
    + destruct Hv as [E|Hv]; [congruence|]. right.
      change (In v ((y :: rest) ++ [x])). apply in_or_app. left. auto.
    + split; [intros ->; auto|]. apply upd_other; auto.
  - intros _. right. exists x. split; [right; change (In x ((y :: rest) ++ [x])); apply in_or_app; right; left; auto|].
    split; auto. apply upd_same.
  - intros v Hv ->. rewrite upd_other by auto. split; auto.
Qed.
Lemma step_first_post L T H N x y rest r :
  ~ In p (x :: y :: rest) -> joins L T H r p y ->
  hinv P p (p :: y :: rest ++ [x]) (fun v => v = p) (-1) r L T H N ->
  hfull (p :: y :: rest ++ [x]) L T H (upd N p r).
Proof.
  intros Hp J HI.
  assert (Hin : forall v, In v (y :: rest ++ [x]) -> v <> p).
  { intros v Hv ->. change (In p ((y :: rest) ++ [x])) in Hv. apply in_app_or in Hv. apply Hp.
    destruct Hv as [Hv|[->|[]]]; [right; auto|left; auto]. }
  assert (Hxp : x <> p) by (intros ->; apply Hp; simpl; auto).
  apply (hinv_finish L T H N (upd N p r) _ _ _ _ _ HI).
  - intros v w Hvw. destruct (Z.eq_dec v p) as [->|Nv].
    + right. rewrite upd_same. rewrite pe_first' in Hvw.
      assert (w = y); [|subst; auto].
      destruct Hvw as [E|Hvw]; [injection E; auto|]. exfalso.
      apply in_app_or in Hvw. destruct Hvw as [Hvw|[E|[]]]; [|injection E; intros; subst; auto].
      apply pairs_In in Hvw. destruct Hvw as [Q _]. apply (Hin p Q). auto.
    + left. rewrite upd_other by auto. auto.
  - intros v Hv Hn. rewrite upd_other by auto. auto.
  - lia.
  - intros _. exists p. split; [left; auto|]. apply upd_same.
Qed.

(** *** forward: p :: q :: q' :: C -> p :: q' :: C *)
Lemma step_fwd L T H N q q' C :
  mesh L T H -> NoDup (p :: q :: q' :: C) ->
  hfull (p :: q :: q' :: C) L T H N ->
  hinv P p (p :: q :: q' :: C) (fun v => v = p \/ v = q) (-1) (L + 1) (L + 3)
    (addT T L q p q') (addH H L (N p) (-1) (N q)) N.
Proof.
  intros M ND F.
  assert (PE : polygon_edges (p :: q :: q' :: C) = (p, q) :: (q, q') :: pairs (q' :: C ++ [p])) by (rewrite pe_pairs; reflexivity).
  assert (D : q <> p /\ p <> q' /\ q' <> q).
  { apply NoDup_cons_iff in ND. destruct ND as [Q1 Q2]. apply NoDup_cons_iff in Q2. destruct Q2 as [Q2 _].
    repeat split; intros E; subst; simpl in *; tauto. }
  destruct D as (D1 & D2 & D3).
  assert (J0 : joins L T H (N p) p q) by (apply (hfull_joins _ _ _ _ _ _ _ F); rewrite PE; left; auto).
  assert (J2 : joins L T H (N q) q q') by (apply (hfull_joins _ _ _ _ _ _ _ F); rewrite PE; right; left; auto).
  pose proof (proj1 J0). pose proof (proj1 J2).
  apply (hinv_add L T H N N (p :: q :: q' :: C)); auto.
  - intros v w Hvw HX. left. destruct (pe_In _ _ _ Hvw) as [Iv _].
    assert (0 <= N v) by apply (f_ok _ _ _ _ _ F _ _ Hvw).
    repeat split; auto; try lia; intros E; apply HX.
    + left. apply (hfull_inj _ _ _ _ _ _ _ F); simpl; auto.
    + right. apply (hfull_inj _ _ _ _ _ _ _ F); simpl; auto.
  - intros v Hv N0 _ N2. repeat split; auto. intros [->| ->]; auto.
  - intros E. lia.
  - intros v Hv [->| ->]; auto.
Qed.
Lemma step_fwd_post L T H N q q' C r :
  NoDup (p :: q :: q' :: C) -> joins L T H r p q' ->
  hinv P p (p :: q :: q' :: C) (fun v => v = p \/ v = q) (-1) r L T H N ->
  hfull (p :: q' :: C) L T H (upd N p r).
Proof.
  intros ND J HI.
  assert (PE : polygon_edges (p :: q :: q' :: C) = (p, q) :: (q, q') :: pairs (q' :: C ++ [p])) by (rewrite pe_pairs; reflexivity).
  assert (PE' : polygon_edges (p :: q' :: C) = (p, q') :: pairs (q' :: C ++ [p])) by (rewrite pe_pairs; reflexivity).
  assert (D1 : ~ In p (q :: q' :: C)) by (apply NoDup_cons_iff in ND; tauto).
  assert (D2 : ~ In q (q' :: C)).
  { apply NoDup_cons_iff in ND. destruct ND as [_ ND]. apply NoDup_cons_iff in ND. tauto. }
  assert (NDp : NoDup (p :: q' :: C)).
  { apply NoDup_cons_iff in ND. destruct ND as [_ ND]. apply NoDup_cons_iff in ND. destruct ND as [_ ND].
    apply NoDup_cons_iff. split; auto. intros Q. apply D1. right; auto. }
  apply (hinv_finish L T H N (upd N p r) _ _ _ _ _ HI).
  - intros v w Hvw. destruct (Z.eq_dec v p) as [->|Nv].
    + right. rewrite upd_same. replace w with q'; auto.
      apply (pe_succ_unique _ p _ _ NDp); auto. rewrite PE'. left; auto.
    + left. rewrite upd_other by auto. destruct (pe_In _ _ _ Hvw) as [Iv _].
      rewrite PE' in Hvw. destruct Hvw as [E|Hvw]; [injection E; intros; congruence|].
      split; [rewrite PE; right; right; auto|]. split; auto. intros [E|E]; auto. subst v.
      destruct Iv as [E|E]; auto.
  - intros v Hv Hn. rewrite upd_other by auto. split; auto. destruct Hv as [E|[E|Hv]]; [exfalso; auto|exfalso; auto|right; auto].
  - lia.
  - intros _. exists p. split; [left; auto|]. apply upd_same.
Qed.

(** *** backward: p :: C ++ [q'; q] -> p :: C ++ [q'] *)
Lemma pe_back (C : list Z) q' q : polygon_edges (p :: C ++ [q'; q]) = pairs (p :: C ++ [q']) ++ [(q', q); (q, p)].
Proof.
  rewrite pe_pairs. rewrite <- app_assoc. simpl app.
  change (p :: C ++ [q'; q; p]) with ((p :: C) ++ q' :: [q; p]). rewrite pairs_app. reflexivity.
Qed.
Lemma step_back L T H N C q' q :
  mesh L T H -> NoDup (p :: C ++ [q'; q]) ->
  hfull (p :: C ++ [q'; q]) L T H N ->
  hinv P p (p :: C ++ [q'; q]) (fun v => v = q' \/ v = q) L (-1) (L + 3)
    (addT T L q' p q) (addH H L (-1) (N q) (N q')) N.
Proof.
  intros M ND F.
  assert (NDt : NoDup (C ++ [q'; q])) by (apply NoDup_cons_iff in ND; tauto).
  assert (Ip : ~ In p (C ++ [q'; q])) by (apply NoDup_cons_iff in ND; tauto).
  assert (D1 : q' <> p) by (intros ->; apply Ip; apply in_or_app; right; simpl; auto).
  assert (D2 : p <> q) by (intros ->; apply Ip; apply in_or_app; right; simpl; auto).
  assert (D3 : q <> q').
  { intros ->. apply NoDup_remove_2 in NDt. apply NDt. apply in_or_app. right; simpl; auto. }
  assert (Iq : In q (p :: C ++ [q'; q])) by (right; apply in_or_app; right; simpl; auto).
  assert (Iq' : In q' (p :: C ++ [q'; q])) by (right; apply in_or_app; right; simpl; auto).
  assert (J1 : joins L T H (N q) q p) by (apply (hfull_joins _ _ _ _ _ _ _ F); rewrite pe_back; apply in_or_app; right; right; left; auto).
  assert (J2 : joins L T H (N q') q' q) by (apply (hfull_joins _ _ _ _ _ _ _ F); rewrite pe_back; apply in_or_app; right; left; auto).
  pose proof (proj1 J1). pose proof (proj1 J2).
  apply (hinv_add L T H N N (p :: C ++ [q'; q])); auto.
  - intros v w Hvw HX. left. destruct (pe_In _ _ _ Hvw) as [Iv _].
    assert (0 <= N v) by apply (f_ok _ _ _ _ _ F _ _ Hvw).
    repeat split; auto; try lia; intros E; apply HX.
    + right. apply (hfull_inj _ _ _ _ _ _ _ F); auto.
    + left. apply (hfull_inj _ _ _ _ _ _ _ F); auto.
  - intros v Hv _ N1 N2. repeat split; auto. intros [->| ->]; auto.
  - lia.
  - intros v Hv [->| ->]; auto.
Qed.
Lemma step_back_post L T H N C q' q t :
  0 <= t -> NoDup (p :: C ++ [q'; q]) -> joins L T H t q' p ->
  hinv P p (p :: C ++ [q'; q]) (fun v => v = q' \/ v = q) t (-1) L T H N ->
  hfull (p :: C ++ [q']) L T H (upd N q' t).
Proof.
  intros Ht ND J HI.
  assert (NDt : NoDup (p :: C ++ [q'])).
  { change (p :: C ++ [q'; q]) with ((p :: C) ++ q' :: [q]) in ND.
    replace ((p :: C) ++ q' :: [q]) with (((p :: C) ++ [q']) ++ [q]) in ND by (rewrite <- app_assoc; reflexivity).
    apply NoDup_remove_1 in ND. rewrite app_nil_r in ND. exact ND. }
  assert (Dq : ~ In q (p :: C ++ [q'])).
  { change (p :: C ++ [q'; q]) with ((p :: C) ++ q' :: [q]) in ND.
    replace ((p :: C) ++ q' :: [q]) with (((p :: C) ++ [q']) ++ [q]) in ND by (rewrite <- app_assoc; reflexivity).
    apply NoDup_remove_2 in ND. rewrite app_nil_r in ND. exact ND. }
  assert (PE' : polygon_edges (p :: C ++ [q']) = pairs (p :: C ++ [q']) ++ [(q', p)]) by apply pe_snoc.
  apply (hinv_finish L T H N (upd N q' t) _ _ _ _ _ HI).
  - intros v w Hvw. destruct (Z.eq_dec v q') as [->|Nv].
    + right. rewrite upd_same. replace w with p; auto.
      apply (pe_succ_unique _ q' _ _ NDt); auto. rewrite PE'. apply in_or_app. right; left; auto.
    + left. rewrite upd_other by auto. destruct (pe_In _ _ _ Hvw) as [Iv _].
      rewrite PE' in Hvw. apply in_app_or in Hvw. destruct Hvw as [Hvw|[E|[]]]; [|injection E; intros; congruence].
      split; [rewrite pe_back; apply in_or_app; left; auto|]. split; auto. intros [E|E]; auto. subst v. auto.
  - intros v Hv Hn. rewrite upd_other by auto. split; auto.
    change (p :: C ++ [q'; q]) with ((p :: C) ++ [q'] ++ [q]) in Hv. rewrite app_assoc in Hv.
    apply in_app_or in Hv. destruct Hv as [Hv|[E|[]]]; [exact Hv|exfalso; auto].
  - intros _. exists q'. split; [right; apply in_or_app; right; left; auto|]. apply upd_same.
  - lia.
Qed.
End Step.
