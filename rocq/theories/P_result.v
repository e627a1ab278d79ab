(** From the final state of the triangulator to the properties of its result. *)
From Coq Require Import ZArith Lia List Bool Reals Lra Permutation Sorted.
From Verif Require Import Base Arith GoLoop M_r3 M_tri2 M_triangulator Spec_r3 Spec_plane Spec_halfedge Spec_delaunay XRvec P_tri2 P_polygon P_delgeom
  P_halfedge P_ring P_flip P_leg P_tstate P_legmodel P_addtri P_ringops P_insstep P_chain P_delaunay P_hullfar P_insert P_seed P_init P_flipterm P_triang.
Import ListNotations.
Open Scope Z_scope.

(** lists *)
Lemma pairs_rev {X} (l : list X) u v : In (u, v) (pairs (rev l)) <-> In (v, u) (pairs l).
Proof.
  assert (G : forall (l : list X) u v, In (u, v) (pairs l) -> In (v, u) (pairs (rev l))).
  { intros m a b H. apply in_pairs in H. destruct H as (l1 & l2 & ->). apply in_pairs. exists (rev l2), (rev l1).
    rewrite rev_app_distr. simpl. rewrite <- !app_assoc. reflexivity. }
  split; intros H; apply G in H; auto. rewrite rev_involutive in H. auto.
Qed.
Lemma pe_rev {X} (x : X) l u v : In (u, v) (polygon_edges (x :: rev l)) <-> In (v, u) (polygon_edges (x :: l)).
Proof.
  rewrite !pe_pairs. rewrite <- pairs_rev. replace (rev (x :: rev l ++ [x])) with (x :: l ++ [x]); [reflexivity|].
  simpl. rewrite rev_app_distr. simpl. rewrite rev_involutive. reflexivity.
Qed.
Lemma triples_entry d : forall l a b c, In (a, b, c) (triples l) -> exists k, (3 * k + 2 < length l)%nat /\
  nth (3 * k) l d = a /\ nth (3 * k + 1) l d = b /\ nth (3 * k + 2) l d = c.
Proof.
  assert (G : forall m l, (length l <= m)%nat -> forall a b c, In (a, b, c) (triples l) -> exists k, (3 * k + 2 < length l)%nat /\
  nth (3 * k) l d = a /\ nth (3 * k + 1) l d = b /\ nth (3 * k + 2) l d = c).
  { induction m as [|m IH]; intros [|x [|y [|z l]]] Hm a b c H; try (destruct H; fail); [simpl in Hm; lia|].
    destruct H as [H|H].
    - injection H as <- <- <-. exists O. simpl. repeat split; auto. lia.
    - destruct (IH l) with (a := a) (b := b) (c := c) as (k & K0 & K1 & K2 & K3); auto; [simpl in Hm; lia|].
      exists (S k). replace (3 * S k)%nat with (S (S (S (3 * k)))) by lia. simpl length. simpl nth. split; [lia|].
      replace (S (S (S (3 * k))) + 1)%nat with (S (S (S (3 * k + 1)))) by lia.
      replace (S (S (S (3 * k))) + 2)%nat with (S (S (S (3 * k + 2)))) by lia. simpl nth. auto. }
  intros l. apply (G (length l) l). auto.
Qed.
Lemma triples_length l : forall k, length l = (3 * k)%nat -> length (triples l) = k.
Proof.
  intros k. revert l. induction k as [|k IH]; intros l E.
  - destruct l; [reflexivity|discriminate].
  - destruct l as [|x [|y [|z l]]]; simpl in E; try lia. simpl. f_equal. apply IH. lia.
Qed.
Lemma Rsum_spec {X} (f : X -> R) l : Spec_plane.Rsum (map f l) = Rsum f l.
Proof. induction l as [|x l IH]; simpl; [auto|]. rewrite IH. auto. Qed.

Lemma hullLoop_cut {A : Arith} (vs : list (vec A)) s h : forall fuel e acc, hullLoop vs fuel (cut s) h e acc = hullLoop vs fuel s h e acc.
Proof.
  induction fuel as [|fuel IH]; intros e acc; cbn [hullLoop]; [reflexivity|]. change (getN (cut s) e) with (getN s e).
  destruct (getN s e) as [x| |]; cbn [rbind]; try reflexivity. destruct (zget vs (nI x)); cbn [rbind]; try reflexivity.
  destruct (nPrev x) as [e'|]; [|reflexivity]. rewrite IH. reflexivity.
Qed.
Lemma hull_cut {A : Arith} (vs : list (vec A)) s : convexHull vs (cut s) = convexHull vs s.
Proof. unfold convexHull. change (hull (cut s)) with (hull s). destruct (hull s); [|reflexivity]. rewrite hullLoop_cut. reflexivity. Qed.


Section Result.
Variable pts : list rv.
Notation n := (Ln pts).
Notation PP := (PP pts).
Variables (i0 i1 i2 hs : Z) (s : tri) (V R : list Z).
Hypothesis RS : rest pts i0 i1 i2 hs s V R.
Notation L := (trianglesLen s).
Definition T_ := live s (triangles s).
Definition H_ := live s (halfedges s).
Let M : mesh L (TT s) (HH s) := r_mesh _ _ _ _ _ _ _ _ RS.
Let RG : ring (Ln (nodes s)) (NN s) R := w_ring _ _ (r_wfs _ _ _ _ _ _ _ _ RS).
Lemma L0 : 0 <= L. Proof. apply (m_L _ _ _ M). Qed.
Lemma len_T : Ln T_ = L.
Proof. unfold T_, live. rewrite firstn_length. pose proof L0. pose proof (w_len _ _ (r_wfs _ _ _ _ _ _ _ _ RS)). lia. Qed.
Lemma len_H : length H_ = length T_.
Proof. unfold T_, H_, live. rewrite !firstn_length. rewrite (w_len2 _ _ (r_wfs _ _ _ _ _ _ _ _ RS)). auto. Qed.
Lemma entry_T e : 0 <= e < L -> entry T_ e = TT s e.
Proof. intros He. unfold T_, live. pose proof (w_len _ _ (r_wfs _ _ _ _ _ _ _ _ RS)). apply entry_firstn; lia. Qed.
Lemma entry_H e : 0 <= e < L -> entry H_ e = HH s e.
Proof.
  intros He. unfold H_, live. pose proof (w_len _ _ (r_wfs _ _ _ _ _ _ _ _ RS)). pose proof (w_len2 _ _ (r_wfs _ _ _ _ _ _ _ _ RS)).
  apply entry_firstn; lia.
Qed.
Lemma point_PP i : 0 <= i -> point pts i = PP i.
Proof. intros H. unfold point, P_insert.PP, getz. destruct (Z.ltb_spec i 0); [lia|]. reflexivity. Qed.

Theorem res_paired : paired T_ H_.
Proof.
  apply paired_mesh; [apply L0|apply (w_len _ _ (r_wfs _ _ _ _ _ _ _ _ RS))|apply (w_len2 _ _ (r_wfs _ _ _ _ _ _ _ _ RS))|exact M].
Qed.
Lemma In_T v : In v T_ <-> In v V.
Proof.
  split; intros Hv.
  - apply (In_nth _ _ (-1)) in Hv. destruct Hv as (k & Hk & <-).
    pose proof len_T. assert (Rk : 0 <= Z.of_nat k < L) by lia.
    change (In (nth k T_ (-1)) V). rewrite <- (Nat2Z.id k). change (In (entry T_ (Z.of_nat k)) V).
    rewrite entry_T by auto. apply (r_vert _ _ _ _ _ _ _ _ RS); auto.
  - destruct (r_used _ _ _ _ _ _ _ _ RS v Hv) as (e & He & <-). rewrite <- entry_T by auto. unfold entry. apply nth_In. pose proof len_T. lia.
Qed.
Theorem res_range v : In v T_ -> 0 <= v < n.
Proof. intros Hv. apply (r_range _ _ _ _ _ _ _ _ RS). apply In_T; auto. Qed.
Lemma triple_slot a b c : In (a, b, c) (triples T_) -> exists e, 0 <= e < L /\ a = TT s e /\ b = TT s (nx e) /\ c = TT s (pv e).
Proof.
  intros H. apply (triples_entry (-1)) in H. destruct H as (k & K0 & K1 & K2 & K3). pose proof len_T as LT.
  exists (3 * Z.of_nat k). split; [lia|].
  assert (E : forall j, (j < 3)%nat -> nth (3 * k + j) T_ (-1) = TT s (3 * Z.of_nat k + Z.of_nat j)).
  { intros j Hj. rewrite <- entry_T by lia. unfold entry. f_equal. lia. }
  pose proof (E 0%nat ltac:(lia)) as E0. pose proof (E 1%nat ltac:(lia)) as E1. pose proof (E 2%nat ltac:(lia)) as E2.
  rewrite Nat.add_0_r, Z.add_0_r in E0. simpl Z.of_nat in E1, E2.
  destruct (slot_cases (3 * Z.of_nat k)) as (q & [(A & B & C)|[(A & _)|(A & _)]]); try lia.
  rewrite B, C. assert (q = Z.of_nat k) as -> by lia. split; [congruence|]. split; congruence.
Qed.
Theorem res_oriented t : In t (triples T_) -> (0 < area3 pts t)%R.
Proof.
  destruct t as [[a b] c]. intros H. destruct (triple_slot a b c H) as (e & He & -> & -> & ->).
  pose proof (r_or _ _ _ _ _ _ _ _ RS e He) as O. unfold area3.
  assert (G : forall f, 0 <= f < L -> point pts (TT s f) = PP (TT s f)).
  { intros f Hf. apply point_PP. apply (r_range _ _ _ _ _ _ _ _ RS). apply (r_vert _ _ _ _ _ _ _ _ RS); auto. }
  pose proof (m_L3 _ _ _ M) as M3. rewrite !G by (auto; try apply nx_range; try apply pv_range; auto).
  unfold orient, ar in O. lra.
Qed.
Theorem res_delaunay : delaunay pts T_.
Proof.
  intros a b c H o r2 Ci v Hv. destruct (triple_slot a b c H) as (e & He & -> & -> & ->).
  pose proof (r_or _ _ _ _ _ _ _ _ RS e He) as O.
  assert (G : forall f, 0 <= f < L -> point pts (TT s f) = PP (TT s f)).
  { intros f Hf. apply point_PP. apply (r_range _ _ _ _ _ _ _ _ RS). apply (r_vert _ _ _ _ _ _ _ _ RS); auto. }
  pose proof (m_L3 _ _ _ M) as M3. rewrite !G in Ci by (auto; try apply nx_range; try apply pv_range; auto).
  rewrite point_PP by (apply res_range; auto).
  apply In_T in Hv. pose proof (r_del _ _ _ _ _ _ _ _ RS e v He Hv) as Q. unfold circ in Q.
  rewrite (incirc_identity _ _ _ _ _ _ Ci) in Q. unfold orient, ar in O.
  destruct (Rle_lt_dec r2 (dist2xy (PP v) o)) as [|Lt]; auto. exfalso.
  assert (0 < (- ccw (PP (TT s e)) (PP (TT s (nx e))) (PP (TT s (pv e)))) * (r2 - dist2xy (PP v) o))%R by (apply Rmult_lt_0_compat; lra). lra.
Qed.

(** the hull *)
Lemma hull_order : exists h l, hull s = Some h /\ Permutation R (h :: l) /\ Permutation (polygon_edges R) (polygon_edges (h :: l)).
Proof.
  destruct (w_hull _ _ (r_wfs _ _ _ _ _ _ _ _ RS)) as (h & Eh & Ih). destruct (rotate_to R h Ih) as (l & P1 & P2).
  exists h, l. auto.
Qed.
Section Hull.
Context {FA : Arith}.
Variable vs : list (vec FA).
Hypothesis EXL : length vs = length pts.
Lemma zget_at i : 0 <= i < n -> zget vs i = Ok (vat vs i).
Proof. intros Hi. apply zget_getz. rewrite EXL. auto. Qed.
Lemma hullLoop_ok h I : NoDup (h :: I) -> (forall u v, In (u, v) (polygon_edges (h :: I)) -> nPrev (NN s u) = Some v) ->
  (forall v, In v (h :: I) -> 0 <= v < Ln (nodes s) /\ nI (NN s v) = v /\ 0 <= v < n) ->
  forall post pre e fuel acc, h :: I = pre ++ e :: post -> (length post < fuel)%nat ->
  hullLoop vs fuel s h e acc = Ok (acc ++ map (vat vs) (e :: post)).
Proof.
  intros ND Pr Rg. induction post as [|e' post IH]; intros pre e fuel acc E Hf; (destruct fuel as [|fuel]; [simpl in Hf; lia|]); cbn [hullLoop].
  - destruct (Rg e) as (R1 & R2 & R3); [rewrite E; apply in_or_app; right; left; auto|].
    rewrite getN_ok by auto. cbn [rbind]. rewrite R2, zget_at by auto. cbn [rbind].
    rewrite (Pr e h).
    2:{ rewrite pe_pairs. change (h :: I ++ [h]) with ((h :: I) ++ [h]). rewrite E, <- app_assoc. apply in_pairs. exists pre, []. reflexivity. }
    rewrite Z.eqb_refl. reflexivity.
  - destruct (Rg e) as (R1 & R2 & R3); [rewrite E; apply in_or_app; right; left; auto|].
    rewrite getN_ok by auto. cbn [rbind]. rewrite R2, zget_at by auto. cbn [rbind].
    rewrite (Pr e e').
    2:{ rewrite pe_pairs. change (h :: I ++ [h]) with ((h :: I) ++ [h]). rewrite E, <- app_assoc. apply in_pairs. exists pre, (post ++ [h]). reflexivity. }
    destruct (Z.eqb_spec e' h) as [->|_].
    { exfalso. rewrite E in ND. destruct pre as [|z pre].
      - injection E as E1 E2. subst e. apply NoDup_cons_iff in ND. apply (proj1 ND). left; auto.
      - injection E as E1 E2. subst z. apply NoDup_cons_iff in ND. apply (proj1 ND). apply in_or_app. right. right. left; auto. }
    rewrite (IH (pre ++ [e])).
    + cbn [map]. rewrite <- app_assoc. reflexivity.
    + rewrite <- app_assoc. exact E.
    + simpl in Hf. lia.
Qed.
Lemma len_R : (length R <= length (nodes s))%nat.
Proof. apply (ring_length _ _ _ RG). Qed.
Theorem res_hull : exists I, convexHull vs s = Ok (map (vat vs) I) /\ boundary T_ H_ I /\ length I = length R /\
  (forall v, In v I -> In v V) /\ (forall u v, In (u, v) (polygon_edges I) <-> In (v, u) (polygon_edges R)).
Proof.
  destruct hull_order as (h & l & Eh & P1 & P2). exists (h :: rev l).
  assert (IE : forall u v, In (u, v) (polygon_edges (h :: rev l)) <-> In (v, u) (polygon_edges R)).
  { intros u v. rewrite pe_rev. split; apply Permutation_in; auto. apply Permutation_sym; auto. }
  assert (PR : Permutation R (h :: rev l)).
  { apply (perm_trans P1). apply perm_skip. apply Permutation_rev. }
  assert (ND : NoDup (h :: rev l)) by (apply (Permutation_NoDup PR), (rg_nd _ _ _ RG)).
  assert (IR : forall v, In v (h :: rev l) -> In v R) by (intros v; apply Permutation_in; apply Permutation_sym; auto).
  split; [|split; [|split; [|split]]]; auto.
  - unfold convexHull. rewrite Eh. rewrite (hullLoop_ok h (rev l) ND) with (pre := []) (post := rev l); auto.
    + intros u v Q. apply IE in Q. apply (rg_prev _ _ _ RG); auto.
    + intros v Hv. apply IR in Hv. split; [apply (rg_range _ _ _ RG); auto|]. split; [apply (rg_i _ _ _ RG); auto|].
      apply (r_range _ _ _ _ _ _ _ _ RS), (r_RV _ _ _ _ _ _ _ _ RS); auto.
    + pose proof (Permutation_length PR) as Q. simpl in Q. pose proof len_R. lia.
  - split; auto. intros u v. rewrite IE, len_T. split.
    + intros Q. destruct (f_ok _ _ _ _ _ (r_full _ _ _ _ _ _ _ _ RS) v u Q) as (Re & Eh' & E1 & E2).
      exists (NT s v). split; auto. rewrite corner_next_nx, entry_H, !entry_T by (auto; apply nx_range; auto; apply (m_L3 _ _ _ M)). auto.
    + intros (e & Re & E1 & E2 & E3). rewrite corner_next_nx in E3. rewrite entry_H in E1 by auto.
      rewrite entry_T in E2, E3 by (auto; apply nx_range; auto; apply (m_L3 _ _ _ M)).
      destruct (f_cov _ _ _ _ _ (r_full _ _ _ _ _ _ _ _ RS) e Re E1) as (w & Iw & Ew).
      destruct (pe_succ R w Iw) as (x & Ex). destruct (f_ok _ _ _ _ _ (r_full _ _ _ _ _ _ _ _ RS) w x Ex) as (_ & _ & F1 & F2).
      rewrite Ew in F1, F2. congruence.
  - rewrite <- (Permutation_length PR). reflexivity.
  - intros v Hv. apply (r_RV _ _ _ _ _ _ _ _ RS); auto.
Qed.
End Hull.
Lemma hull_encloses I : (forall v, In v I -> In v V) -> (forall u v, In (u, v) (polygon_edges I) <-> In (v, u) (polygon_edges R)) ->
  encloses (map (point pts) I) (map (point pts) T_).
Proof.
  intros IV IE [a b] He q Hq. rewrite pe_map in He. apply in_map_iff in He. destruct He as ([u v] & E & He). injection E as <- <-.
  destruct (pe_In _ _ _ He) as [Iu Iv]. apply in_map_iff in Hq. destruct Hq as (w & <- & Hw). cbn [fst snd].
  assert (Rg : forall x, In x V -> 0 <= x) by (intros x Hx; apply (r_range _ _ _ _ _ _ _ _ RS x Hx)).
  apply In_T in Hw. rewrite !point_PP by auto. apply IE in He.
  pose proof (r_conv _ _ _ _ _ _ _ _ RS v u w He Hw) as Q. unfold ar in Q.
  assert (ccw (PP u) (PP v) (PP w) = - ccw (PP w) (PP v) (PP u))%R by (unfold ccw; ring). lra.
Qed.

(** counting *)
Lemma nodup_T : length (nodup Z.eq_dec T_) = length V.
Proof.
  apply Permutation_length. apply NoDup_Permutation.
  - apply NoDup_nodup.
  - apply (r_nd _ _ _ _ _ _ _ _ RS).
  - intros x. rewrite nodup_In. apply In_T.
Qed.
Theorem res_count : Z.of_nat (length (triples T_)) = 2 * Z.of_nat (length (nodup Z.eq_dec T_)) - 2 - Z.of_nat (length R) /\
  Z.of_nat (length (triples T_)) <= 2 * n - 5.
Proof.
  destruct (pr_whole _ _ res_paired) as (k & Hk). rewrite (triples_length _ _ Hk), nodup_T.
  pose proof len_T as LT. pose proof (r_count _ _ _ _ _ _ _ _ RS) as Cn. pose proof (r_cap _ _ _ _ _ _ _ _ RS) as Cp.
  pose proof (w_len _ _ (r_wfs _ _ _ _ _ _ _ _ RS)). unfold Zlen in Cn. lia.
Qed.

(** areas *)
Definition slots : list Z := allIds (Z.to_nat L).
Lemma In_slots e : In e slots <-> 0 <= e < L.
Proof. unfold slots. rewrite In_allIds. pose proof L0. lia. Qed.
Lemma triples_sum : forall l (f : Z * Z * Z -> Rdefinitions.R) (g : Z -> Z -> Rdefinitions.R) k, (forall a b c, f (a, b, c) = g a b + g b c + g c a)%R -> length l = (3 * k)%nat ->
  Rsum f (triples l) = Rsum (fun e => g (entry l e) (entry l (corner_next e))) (allIds (length l)).
Proof.
  intros l f g k Hf. revert l. 
  assert (Sh : forall j m i, map Z.of_nat (seq (j + i) m) = map (fun e => e + Z.of_nat j) (map Z.of_nat (seq i m))).
  { intros j. induction m as [|m IH]; intros i; [reflexivity|]. cbn [seq map]. f_equal; [lia|]. rewrite <- IH. f_equal. f_equal. lia. }
  induction k as [|k IH]; intros l E.
  - destruct l; [reflexivity|discriminate].
  - destruct l as [|x [|y [|z l]]]; simpl in E; try lia. cbn [triples Rsum].
    rewrite (IH l) by lia. rewrite Hf. cbn [length].
    replace (allIds (S (S (S (length l))))) with ([0; 1; 2] ++ map (fun e => e + 3) (allIds (length l))).
    2:{ unfold allIds. change (fun e => e + 3) with (fun e => e + Z.of_nat 3). rewrite <- (Sh 3%nat (length l) 0%nat). reflexivity. }
    rewrite Rsum_app, Rsum_map. cbn [Rsum].
    rewrite (Rsum_ext (fun x0 => g (entry (x :: y :: z :: l) (x0 + 3)) (entry (x :: y :: z :: l) (corner_next (x0 + 3))))
      (fun e => g (entry l e) (entry l (corner_next e)))).
    + change (entry (x :: y :: z :: l) 0) with x. change (entry (x :: y :: z :: l) 1) with y. change (entry (x :: y :: z :: l) 2) with z.
      change (entry (x :: y :: z :: l) (corner_next 0)) with y. change (entry (x :: y :: z :: l) (corner_next 1)) with z.
      change (entry (x :: y :: z :: l) (corner_next 2)) with x. lra.
    + assert (En : forall j, 0 <= j -> entry (x :: y :: z :: l) (j + 3) = entry l j).
      { intros j Hj. unfold entry. replace (Z.to_nat (j + 3)) with (S (S (S (Z.to_nat j)))) by lia. reflexivity. }
      intros e He. apply In_allIds in He. unfold corner_next. replace (e + 3) with (e + 1 * 3) by lia. rewrite Z.mod_add by lia.
      rewrite Z.mul_1_l, En by lia. f_equal.
      destruct (Z.eqb_spec (e mod 3) 2).
      * assert (2 <= e) by (destruct (Z.eq_dec e 0) as [->|]; [discriminate|]; destruct (Z.eq_dec e 1) as [->|]; [discriminate|]; lia).
        replace (e + 3 - 2) with (e - 2 + 3) by lia. apply En. lia.
      * replace (e + 3 + 1) with (e + 1 + 3) by lia. apply En. lia.
Qed.
(* a sum of an antisymmetric function over all half-edges is its sum over the ring *)
Theorem slot_sum (g : Z -> Z -> Rdefinitions.R) : (forall u v, g u v = - g v u)%R ->
  Rsum (fun t => let '(a, b, c) := t in g a b + g b c + g c a)%R (triples T_) = Rsum (fun e => g (fst e) (snd e)) (polygon_edges R).
Proof.
  intros Anti. set (slotcr := fun e => g (TT s e) (TT s (nx e))).
  destruct (pr_whole _ _ res_paired) as (k & Hk).
  rewrite (triples_sum T_ _ g k); auto.
  (* the sum over all slots, cancelled in pairs *)
  rewrite (Rsum_ext _ slotcr).
  2:{ intros e He. apply In_allIds in He. rewrite len_T in He. rewrite corner_next_nx.
      pose proof (nx_range L e (m_L3 _ _ _ M) He). rewrite !entry_T by auto. reflexivity. }
  replace (length T_) with (Z.to_nat L) by (rewrite <- len_T; lia). fold slots.
  set (B := filter (fun e => HH s e =? -1) slots). set (J := filter (fun e => negb (HH s e =? -1)) slots).
  assert (IB : forall e, In e B <-> 0 <= e < L /\ HH s e = -1).
  { intros e. unfold B. rewrite filter_In, In_slots, Z.eqb_eq. tauto. }
  assert (IJ : forall e, In e J <-> 0 <= e < L /\ HH s e <> -1).
  { intros e. unfold J. rewrite filter_In, In_slots, negb_true_iff, Z.eqb_neq. tauto. }
  assert (NDs : NoDup slots) by apply allIds_NoDup.
  assert (Split : forall f, (Rsum f slots = Rsum f B + Rsum f J)%R).
  { intros f. unfold B, J. clear. induction slots as [|e l IH]; simpl; [lra|]. destruct (HH s e =? -1); simpl; lra. }
  assert (Canc : Rsum slotcr J = 0%R).
  { assert (Pm : Permutation J (map (HH s) J)).
    { assert (Inv : forall e, In e J -> In (HH s e) J /\ HH s (HH s e) = e).
      { intros e He. apply IJ in He. destruct He as [Re Ne]. destruct (m_pair _ _ _ M e Re) as [|(Q1 & Q2 & _)]; [contradiction|].
        split; auto. apply IJ. split; auto. rewrite Q2. lia. }
      apply NoDup_Permutation.
      - apply NoDup_filter; auto.
      - assert (G : forall l, (forall e, In e l -> HH s (HH s e) = e) -> NoDup l -> NoDup (map (HH s) l)).
        { clear. induction l as [|e l IH]; intros H ND; [constructor|]. apply NoDup_cons_iff in ND. destruct ND as [N ND]. cbn [map]. constructor.
          - intros Q. apply in_map_iff in Q. destruct Q as (x & E & Ix). apply N.
            rewrite <- (H e), <- E, (H x); simpl; auto.
          - apply IH; auto. intros; apply H; simpl; auto. }
        apply G; [intros e He; apply Inv; auto|apply NoDup_filter; auto].
      - intros e. split; intros He.
        + destruct (Inv e He) as [Q1 Q2]. apply in_map_iff. exists (HH s e). auto.
        + apply in_map_iff in He. destruct He as (x & <- & Ix). apply Inv; auto. }
    assert (E : (Rsum slotcr J = - Rsum slotcr J)%R); [|lra].
    rewrite (Rsum_perm _ _ _ Pm) at 1. rewrite Rsum_map, <- Rsum_opp. apply Rsum_ext. intros e He. apply IJ in He. destruct He as [Re Ne].
    destruct (m_pair _ _ _ M e Re) as [|(Q1 & Q2 & Q3 & Q4)]; [contradiction|]. unfold slotcr. rewrite Q3, Q4. apply Anti. }
  assert (Bd : Rsum slotcr B = Rsum (fun e => g (fst e) (snd e)) (polygon_edges R)).
  { assert (Pm : Permutation B (map (fun e => NT s (fst e)) (polygon_edges R))).
    { apply NoDup_Permutation.
      - apply NoDup_filter; auto.
      - assert (G : forall l, (forall e, In e l -> In e (polygon_edges R)) -> NoDup (map fst l) -> NoDup (map (fun e => NT s (fst e)) l)).
        { induction l as [|[u v] l IH]; intros Hin ND; [constructor|]. cbn [map fst] in *. apply NoDup_cons_iff in ND. destruct ND as [N ND]. constructor.
          - intros Q. apply in_map_iff in Q. destruct Q as ([u' v'] & E & Ix). apply N. cbn [fst] in E.
            destruct (f_ok _ _ _ _ _ (r_full _ _ _ _ _ _ _ _ RS) u v) as (_ & _ & F1 & _); [apply Hin; simpl; auto|].
            destruct (f_ok _ _ _ _ _ (r_full _ _ _ _ _ _ _ _ RS) u' v') as (_ & _ & F2 & _); [apply Hin; simpl; auto|].
            assert (u = u') as -> by congruence. apply in_map_iff. exists (u', v'). auto.
          - apply IH; auto. intros; apply Hin; simpl; auto. }
        apply G; auto. apply pe_fst_NoDup, (rg_nd _ _ _ RG).
      - intros e. rewrite IB. split.
        + intros [Re Ee]. destruct (f_cov _ _ _ _ _ (r_full _ _ _ _ _ _ _ _ RS) e Re Ee) as (w & Iw & Ew).
          destruct (pe_succ R w Iw) as (x & Ex). apply in_map_iff. exists (w, x). auto.
        + intros Q. apply in_map_iff in Q. destruct Q as ([u v] & <- & Q). destruct (f_ok _ _ _ _ _ (r_full _ _ _ _ _ _ _ _ RS) u v Q) as (F1 & F2 & _). auto. }
    rewrite (Rsum_perm _ _ _ Pm), Rsum_map. apply Rsum_ext. intros [u v] He. cbn [fst snd]. unfold slotcr.
    destruct (f_ok _ _ _ _ _ (r_full _ _ _ _ _ _ _ _ RS) u v He) as (_ & _ & F1 & F2). rewrite F1, F2. auto. }
  rewrite Split, Canc, Bd. lra.
Qed.
Theorem res_area I : (forall v, In v I -> In v V) -> NoDup I -> (forall u v, In (u, v) (polygon_edges I) <-> In (v, u) (polygon_edges R)) ->
  Spec_plane.Rsum (map (area3 pts) (triples T_)) = shoelace (map (point pts) I).
Proof.
  intros IV NDI IE.
  set (g := fun u v => (- (rx (point pts u) * ry (point pts v) - rx (point pts v) * ry (point pts u)) / 2)%R).
  rewrite Rsum_spec, (Rsum_ext _ (fun t => let '(a, b, c) := t in g a b + g b c + g c a)%R).
  2:{ intros [[a b] c] _. unfold area3, g, ccw. field. }
  rewrite slot_sum by (intros u v; unfold g; field).
  unfold shoelace. rewrite Rsum_spec, pe_map, Rsum_map.
  assert (Pm : Permutation (polygon_edges R) (map (fun e => (snd e, fst e)) (polygon_edges I))).
  { assert (NDf : forall (l : list (Z * Z)), NoDup (map fst l) -> NoDup l).
    { intros l. apply NoDup_map_inv. }
    apply NoDup_Permutation.
    - apply NDf, pe_fst_NoDup, (rg_nd _ _ _ RG).
    - apply FinFun.Injective_map_NoDup; [intros [a b] [c d] Q; cbn in Q; congruence|]. apply NDf, pe_fst_NoDup; auto.
    - intros [u v]. rewrite in_map_iff. split.
      + intros Q. exists (v, u). split; auto. apply IE; auto.
      + intros ([a b] & Q & Hin). cbn in Q. injection Q as <- <-. apply IE; auto. }
  rewrite (Rsum_perm _ _ _ Pm), Rsum_map. cbn [fst snd]. unfold g.
  assert (Sc : forall l (f : Z * Z -> Rdefinitions.R), Rsum (fun e => f e / 2)%R l = (Rsum f l / 2)%R).
  { induction l as [|e l IH]; intros f; simpl; [lra|]. rewrite IH. lra. }
  rewrite <- Sc. apply Rsum_ext. intros [u v] _. cbn [fst snd]. field.
Qed.
End Result.
