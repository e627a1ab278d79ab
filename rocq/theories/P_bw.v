(** bowyerWatson is the textbook algorithm with the closed in-sphere test (package mesh). *)
From Coq Require Import String Reals Lra Lia ZArith Bool List Permutation.
From Verif Require Import Base Arith M_r3 M_predicates GoMap M_meshing Spec_r3 Spec_sphere Spec_mesh Spec_bw XRvec P_r3 P_predicates P_meshing P_meshorder P_meshgeom P_nurbs.
Import ListNotations.
Open Scope Z_scope.

Definition ftri (f : face) : tri := (pa f, pb f, pc f).
Definition qof (t : tetra) : quad := (ia t, ib t, ic t, M_meshing.id t).
Lemma ftri_inj f g : ftri f = ftri g -> f = g.
Proof. destruct f, g. unfold ftri. simpl. congruence. Qed.
Definition shaped (t : tetra) : Prop := map ftri (faces t) = quad_faces (qof t).
Lemma same_tri_hash f g : same_tri (ftri f) (ftri g) <-> face_hash f = face_hash g.
Proof. rewrite face_hash_iff. reflexivity. Qed.
Lemma shaped_connect f i : shaped (connect f i).
Proof. reflexivity. Qed.
Lemma shaped_inj t u : shaped t -> shaped u -> qof t = qof u -> t = u.
Proof.
  destruct t as [a b c d fs], u as [a' b' c' d' gs]. unfold shaped, qof. simpl. intros S1 S2 [= -> -> -> ->].
  rewrite <- S2 in S1. f_equal. revert S1. clear. revert gs. induction fs as [|f fs IH]; intros [|g gs] H; try discriminate; auto.
  simpl in H. assert (H1 : ftri f = ftri g) by congruence. apply ftri_inj in H1. subst. f_equal. apply IH. congruence.
Qed.
Lemma hash_qof t u : tetraHash t = tetraHash u <-> qof t = qof u.
Proof.
  split; intros H.
  - apply tetraHash_inj in H. unfold qof. destruct H as (-> & -> & -> & ->). reflexivity.
  - unfold qof in H. injection H as H1 H2 H3 H4. unfold tetraHash. rewrite H1, H2, H3, H4. reflexivity.
Qed.

Definition inv2 (m : Z) (t : tetrahedrisation) : Prop :=
  inv m t /\ NoDup (map fst t) /\ forall k v, In (k, v) t -> shaped v.
(* the tetrahedra of t *)
Definition holds (t : tetrahedrisation) (q : quad) : Prop := exists k v, In (k, v) t /\ qof v = q.

Lemma inv2_nodup m t : inv2 m t -> NoDup (map snd t).
Proof.
  intros ((_ & K) & N & S). revert N K S. clear. induction t as [|[k v] t IH]; intros N K S; [constructor|].
  simpl in *. inversion N as [|? ? N1 N2]; subst. constructor.
  - intros H. apply N1. apply in_map_iff in H. destruct H as ([k' v'] & E & H). simpl in E. subst v'.
    apply in_map_iff. exists (k', v). split; [|exact H]. simpl. assert (k = tetraHash v) by (apply K; left; auto). assert (k' = tetraHash v) by (apply K; right; auto). congruence.
  - apply IH; [exact N2|intros k' v' H'; apply K; right; auto|intros k' v' H'; apply (S k'); right; auto].
Qed.
(* faces of one tetrahedron have different vertex sets *)
Lemma faces_distinct m v f g : tetra_ok m v -> shaped v -> In f (quad_faces (qof v)) -> In g (quad_faces (qof v)) -> same_tri f g -> f = g.
Proof.
  intros (_ & _ & _ & _ & F) S Hf Hg P. unfold shaped in S.
  assert (D : forall a b c, In (a, b, c) (quad_faces (qof v)) -> a <> b /\ b <> c /\ a <> c).
  { intros a b c H. rewrite <- S in H. apply in_map_iff in H. destruct H as (h & E & H). rewrite Forall_forall in F.
    destruct (F h H) as (_ & _ & _ & H1). unfold ftri in E. injection E as <- <- <-. tauto. }
  unfold qof, quad_faces in *. destruct v as [a b c d fs]. simpl in *.
  pose proof (D a b c ltac:(auto)). pose proof (D b c d ltac:(auto)). pose proof (D c d a ltac:(auto)).
  destruct f as [[f1 f2] f3], g as [[g1 g2] g3]. simpl in P. apply perm3_cases in P.
  repeat match goal with H : _ \/ _ |- _ => destruct H | H : False |- _ => destruct H end;
    repeat match goal with H : (_, _, _) = (_, _, _) |- _ => injection H as ? ? ? end; subst; try reflexivity; exfalso; intuition congruence.
Qed.

Lemma faces_nodup m v : tetra_ok m v -> shaped v -> NoDup (quad_faces (qof v)).
Proof.
  intros (_ & _ & _ & _ & F) S. unfold shaped in S.
  assert (D : forall a b c, In (a, b, c) (quad_faces (qof v)) -> a <> b /\ b <> c /\ a <> c).
  { intros a b c H. rewrite <- S in H. apply in_map_iff in H. destruct H as (h & E & H). rewrite Forall_forall in F.
    destruct (F h H) as (_ & _ & _ & H1). unfold ftri in E. injection E as <- <- <-. tauto. }
  unfold qof, quad_faces in *. destruct v as [a b c d fs]. simpl in *.
  pose proof (D a b c ltac:(auto)). pose proof (D b c d ltac:(auto)). pose proof (D c d a ltac:(auto)).
  repeat constructor; simpl; intuition congruence.
Qed.

Section BW.
Context {A : Arith}.
(* the test made for each tetrahedron *)
Definition violates (points : list (vec A)) (p : vec A) (q : quad) : Prop :=
  let '(a, b, c, d) := q in
  fle A (fofZ A 0) (InSphereFast (nth (Z.to_nat a) points Zero) (nth (Z.to_nat b) points Zero)
    (nth (Z.to_nat c) points Zero) (nth (Z.to_nat d) points Zero) p) = true.
Lemma findBad_spec (points : list (vec A)) p l m bad :
  (m <= Z.of_nat (length points))%Z -> (forall k v, In (k, v) l -> tetra_ok m v) ->
  findBad points p l = Ok bad -> (forall t, In t bad <-> In t (map snd l) /\ violates points p (qof t)) /\ (NoDup (map snd l) -> NoDup bad).
Proof.
  intros Hm. revert bad. induction l as [|[k t] l IH]; intros bad Hok H.
  - injection H as <-. split; [intros t; simpl; tauto|constructor].
  - destruct (Hok k t (or_introl eq_refl)) as (H1 & H2 & H3 & H4 & _). unfold idx in *.
    cbn [findBad] in H. rewrite !(zget_nth _ _ (Zero : vec A)) in H by lia. cbn [rbind] in H.
    destruct (findBad points p l) as [r| |] eqn:E; try discriminate. cbn [rbind] in H.
    destruct (IH r ltac:(intros; eapply Hok; right; eauto) eq_refl) as [I1 I2].
    assert (V : violates points p (qof t) <-> fle A (fofZ A 0) (InSphereFast (nth (Z.to_nat (ia t)) points Zero) (nth (Z.to_nat (ib t)) points Zero)
      (nth (Z.to_nat (ic t)) points Zero) (nth (Z.to_nat (M_meshing.id t)) points Zero) p) = true) by reflexivity.
    destruct (fle A _ _); injection H as <-; split.
    + intros u. simpl. rewrite I1. split; [intros [<-|[? ?]]; [tauto|tauto]|]. intros [[->|?] ?]; tauto.
    + simpl. intros N. inversion N; subst. constructor; [|auto]. rewrite I1. tauto.
    + intros u. simpl. rewrite I1. split; [tauto|]. intros [[->|?] ?]; [|tauto]. apply V in H. discriminate.
    + simpl. intros N. inversion N; subst. auto.
Qed.

Lemma filter_none {T} (P : T -> bool) l : (forall x, In x l -> P x = false) -> filter P l = [].
Proof. induction l as [|x l IH]; intros H; [reflexivity|]. simpl. rewrite H by (left; auto). apply IH. intros; apply H; right; auto. Qed.
Lemma filter_only {T} (P : T -> bool) l x : NoDup l -> In x l -> P x = true -> (forall y, In y l -> P y = true -> y = x) -> filter P l = [x].
Proof.
  intros N Hin HP U. induction l as [|y l IH]; [destruct Hin|]. inversion N; subst. simpl. destruct Hin as [->|Hin].
  - rewrite HP. f_equal. apply filter_none. intros z Hz. destruct (P z) eqn:E; [|reflexivity]. exfalso. assert (z = x) by (apply U; [right|]; auto). subst z. auto.
  - destruct (P y) eqn:E; [exfalso; assert (y = x) by (apply U; [left|]; auto); subst y; auto|]. apply IH; auto. intros z Hz Pz. apply U; [right|]; auto.
Qed.
(* seen exactly once, as a set statement *)
Lemma once_boundary m (bad : list tetra) (C : quad -> Prop) : NoDup bad -> (forall t, In t bad -> tetra_ok m t /\ shaped t) ->
  (forall q, C q <-> exists t, In t bad /\ qof t = q) ->
  forall f, In f (filter (once (flat_map faces bad)) (flat_map faces bad)) <-> on_boundary C (ftri f).
Proof.
  intros N Hok HC f. rewrite filter_In, in_flat_map. unfold once. rewrite Nat.eqb_eq.
  assert (Hin : forall t g, In t bad -> (In g (faces t) <-> In (ftri g) (quad_faces (qof t)))).
  { intros t g Ht. destruct (Hok t Ht) as [_ S]. unfold shaped in S. rewrite <- S. rewrite in_map_iff. split; [eauto|].
    intros (h & E & H). apply ftri_inj in E. subst. exact H. }
  split.
  - intros [(t & Ht & Hf) L]. exists (qof t). split; [apply HC; eauto|]. split; [now apply Hin|].
    intros q' f' Cq' Hf' P. apply HC in Cq'. destruct Cq' as (t' & Ht' & <-).
    destruct (Hok t' Ht') as [_ S']. unfold shaped in S'. rewrite <- S' in Hf'. apply in_map_iff in Hf'. destruct Hf' as (g & <- & Hg).
    destruct (filter (same_face f) (flat_map faces bad)) as [|h [|h' r]] eqn:EF; try discriminate.
    assert (g = f) as ->.
    { assert (f = h) by (eapply filter_unique; [exact EF|apply in_flat_map; eauto|apply String.eqb_refl]).
      assert (g = h); [|congruence]. eapply filter_unique; [exact EF|apply in_flat_map; eauto|]. apply String.eqb_eq, same_tri_hash. exact P. }
    split; [|reflexivity]. f_equal.
    (* twice in the list otherwise *)
    destruct (in_split t bad Ht) as (l1 & l2 & ->). apply in_app_iff in Ht'. simpl in Ht'.
    assert (FH : forall u, In f (faces u) -> (1 <= length (filter (same_face f) (faces u)))%nat).
    { intros u Hu. assert (In f (filter (same_face f) (faces u))) by (apply filter_In; split; [auto|apply String.eqb_refl]).
      destruct (filter (same_face f) (faces u)); [destruct H|simpl; lia]. }
    assert (FL : forall u l, In u l -> In f (faces u) -> (1 <= length (filter (same_face f) (flat_map faces l)))%nat).
    { intros u l Hu Hfu. assert (In f (filter (same_face f) (flat_map faces l))) by (apply filter_In; split; [apply in_flat_map; eauto|apply String.eqb_refl]).
      destruct (filter (same_face f) (flat_map faces l)); [destruct H|simpl; lia]. }
    assert (Q : length (filter (same_face f) (flat_map faces (l1 ++ t :: l2))) = 1%nat) by (rewrite EF; reflexivity).
    rewrite flat_map_app in Q. simpl in Q. rewrite !filter_app, !app_length in Q. pose proof (FH t Hf).
    destruct Ht' as [Ht'|[->|Ht']]; [pose proof (FL t' l1 Ht' Hg); lia|reflexivity|pose proof (FL t' l2 Ht' Hg); lia].
  - intros (q & Cq & Hf & U). apply HC in Cq. destruct Cq as (t & Ht & <-).
    split; [exists t; split; [auto|now apply Hin]|].
    destruct (in_split t bad Ht) as (l1 & l2 & ->).
    assert (O : forall u g, In u (l1 ++ l2) -> In g (faces u) -> same_face f g = false).
    { intros u g Hu Hg. destruct (same_face f g) eqn:E; [|reflexivity]. exfalso.
      assert (Hu' : In u (l1 ++ t :: l2)) by (apply in_app_iff; simpl; apply in_app_iff in Hu; tauto).
      apply String.eqb_eq, same_tri_hash in E. destruct (U (qof u) (ftri g)) as [Eq _]; [apply HC; eauto|now apply Hin|exact E|].
      assert (u = t) as -> by (apply shaped_inj; [apply Hok; auto|apply Hok; auto|exact Eq]).
      apply NoDup_remove_2 in N. apply N. exact Hu. }
    rewrite flat_map_app. simpl. rewrite !filter_app, !app_length.
    rewrite (filter_none _ (flat_map faces l1)), (filter_none _ (flat_map faces l2)).
    + simpl. rewrite Nat.add_0_r. destruct (Hok t Ht) as [Ok1 S]. assert (Hft := proj2 (Hin t f Ht) Hf).
      (* the four faces of t *)
      rewrite (filter_only _ (faces t) f); [reflexivity|apply (NoDup_map_inv ftri); rewrite S; now apply (faces_nodup m)|exact Hft|apply String.eqb_refl|].
      intros g Hg E. apply ftri_inj. apply (faces_distinct m t); auto; [now apply Hin|]. apply same_tri_hash, String.eqb_eq. exact E.
    + intros g Hg. apply in_flat_map in Hg. destruct Hg as (u & Hu & Hg). apply (O u); auto. apply in_app_iff; auto.
    + intros g Hg. apply in_flat_map in Hg. destruct Hg as (u & Hu & Hg). apply (O u); auto. apply in_app_iff; auto.
Qed.

Lemma holds_shaped m t q : inv2 m t -> holds t q -> exists v, In (tetraHash v, v) t /\ qof v = q.
Proof. intros ((_ & K) & _ & _) (k & v & H & E). exists v. split; [rewrite <- (K k v H); exact H|exact E]. Qed.
Lemma order_snd ord (t : tetrahedrisation) : order_ok ord -> Permutation (map snd t) (map snd (ord t)).
Proof. intros H. apply Permutation_map. apply H. Qed.
Lemma insertPoint_keys ordT ordF (points : list (vec A)) i p t t' : insertPoint ordT ordF points i p t = Ok t' ->
  NoDup (map fst t) -> NoDup (map fst t').
Proof.
  unfold insertPoint. intros H N. destruct (findBad points p (ordT t)) as [bad| |]; try discriminate. cbn [rbind] in H.
  destruct (polyhedron bad _) as [poly| |]; try discriminate. cbn [rbind] in H. injection H as <-.
  assert (N2 : NoDup (map fst (fold_left (fun t b => mdel t (tetraHash b)) bad t))).
  { revert t N. induction bad as [|b bad IH]; intros t N; [exact N|]. simpl. apply IH. apply mdel_keys. exact N. }
  revert N2. generalize (fold_left (fun t b => mdel t (tetraHash b)) bad t). clear. induction poly as [|f poly IH]; intros t N; [exact N|].
  simpl. apply IH. apply mset_keys. exact N.
Qed.
Lemma insertPoint_bw ordT ordF (points : list (vec A)) i p t :
  order_ok ordT -> order_ok ordF -> (0 <= i)%Z -> (i + 4 <= Z.of_nat (length points))%Z -> inv2 (i + 4) t ->
  exists t', insertPoint ordT ordF points i p t = Ok t' /\ inv2 (i + 5) t' /\
    bw_insert (violates points p) (i + 4) (holds t) (holds t').
Proof.
  intros HT HF Hi Hlen Hinv2. assert (Hinv := proj1 Hinv2). pose proof (inv2_nodup _ _ Hinv2) as ND.
  destruct Hinv2 as (_ & NK & SH). destruct Hinv as [Hok Hkey].
  destruct (insertPoint_full ordT ordF points i p t HT HF Hi Hlen (conj Hok Hkey)) as (bad & poly & Eb & Pp & E).
  assert (HokT : forall k v, In (k, v) (ordT t) -> tetra_ok (i + 4) v).
  { intros k v H. apply (Hok k). eapply Permutation_in; [apply Permutation_sym, HT|exact H]. }
  destruct (findBad_spec points p (ordT t) (i + 4) bad Hlen HokT Eb) as [B1 B2].
  assert (NB : NoDup bad) by (apply B2; eapply Permutation_NoDup; [apply order_snd; exact HT|exact ND]).
  assert (Bin : forall v, In v bad <-> In (tetraHash v, v) t /\ violates points p (qof v)).
  { intros v. rewrite B1. split; intros [H1 H2]; split; auto.
    - eapply Permutation_in in H1; [|apply Permutation_sym, order_snd; exact HT]. apply in_map_iff in H1. destruct H1 as ([k v'] & Ev & H1).
      simpl in Ev. subst v'. rewrite <- (Hkey k v H1). exact H1.
    - eapply Permutation_in; [apply order_snd; exact HT|]. apply in_map_iff. exists (tetraHash v, v). auto. }
  assert (HC : forall q, (holds t q /\ violates points p q) <-> exists v, In v bad /\ qof v = q).
  { intros q. split.
    - intros [(k & v & H & <-) V]. exists v. split; [|reflexivity]. apply Bin. split; [rewrite <- (Hkey k v H); exact H|exact V].
    - intros (v & H & <-). apply Bin in H. destruct H as [H V]. split; [exists (tetraHash v), v; auto|exact V]. }
  assert (BO : forall v, In v bad -> tetra_ok (i + 4) v /\ shaped v).
  { intros v H. apply Bin in H. destruct H as [H _]. split; [eapply Hok; eauto|eapply SH; eauto]. }
  pose proof (once_boundary (i + 4) bad (fun q => holds t q /\ violates points p q) NB BO HC) as OB.
  assert (Hpoly : forall f, In f poly <-> on_boundary (fun q => holds t q /\ violates points p q) (ftri f)).
  { intros f. rewrite <- OB. split; intros H; eapply Permutation_in; [exact Pp|exact H|apply Permutation_sym; exact Pp|exact H]. }
  eexists. split; [exact E|].
  assert (Hmem : forall k v, In (k, v) (filter (fun x : string * tetra => negb (existsb (fun b => String.eqb (tetraHash b) (fst x)) bad)) t ++
      map (fun f => (tetraHash (connect f (i + 4)), connect f (i + 4))) poly) <->
      In (k, v) t /\ ~ violates points p (qof v) \/ exists f, In f poly /\ k = tetraHash v /\ v = connect f (i + 4)).
  { intros k v. rewrite in_app_iff, filter_In, in_map_iff. simpl fst. split.
    - intros [[H1 H2]|(f & Ef & Hf)].
      + left. split; [exact H1|]. intros V. apply negb_true_iff in H2. pose proof (Hkey k v H1) as K1. rewrite K1 in H1, H2.
        assert (T : existsb (fun b => String.eqb (tetraHash b) (tetraHash v)) bad = true); [|congruence].
        apply existsb_exists. exists v. split; [apply Bin; auto|apply String.eqb_refl].
      + right. exists f. injection Ef as <- <-. auto.
    - intros [[H1 H2]|(f & Hf & -> & ->)]; [left|right; exists f; auto]. split; [exact H1|]. apply negb_true_iff.
      destruct (existsb _ bad) eqn:EX; [|reflexivity]. exfalso. apply existsb_exists in EX. destruct EX as (b & Hb & Eq).
      apply String.eqb_eq in Eq. rewrite (Hkey k v H1) in Eq. apply hash_qof in Eq. apply Bin in Hb. rewrite Eq in Hb. tauto. }
  split; [split; [|split]|].
  - apply (insertPoint_inv ordT ordF points i p t); auto. split; auto.
  - exact (insertPoint_keys _ _ _ _ _ _ _ E NK).
  - intros k v H. apply Hmem in H. destruct H as [[H _]|(f & _ & _ & ->)]; [eapply SH; eauto|apply shaped_connect].
  - intros a b c d. split.
    + intros (k & v & H & Eq). apply Hmem in H. destruct H as [[H V]|(f & Hf & -> & ->)].
      * left. rewrite <- Eq. split; [exists k, v; auto|exact V].
      * right. unfold qof, connect in Eq. simpl in Eq. injection Eq as <- <- <- <-. split; [reflexivity|]. apply Hpoly in Hf. exact Hf.
    + intros [[(k & v & H & Eq) V]|[-> H]].
      * exists k, v. split; [apply Hmem; left; rewrite Eq; auto|exact Eq].
      * exists (tetraHash (connect (mkface a b c) (i + 4))), (connect (mkface a b c) (i + 4)). split; [|reflexivity].
        apply Hmem. right. exists (mkface a b c). split; [apply Hpoly; exact H|]. auto.
Qed.

Lemma bw_run_ext bad : forall m k T S T' , (forall q, T q <-> S q) -> bw_run bad k m T T' -> bw_run bad k m S T'.
Proof.
  intros [|m] k T S T' E H.
  - intros q. rewrite <- E. apply H.
  - destruct H as (T1 & H1 & H2). exists T1. split; [|exact H2]. intros a b c d. rewrite (H1 a b c d), E.
    assert (B : on_boundary (fun q => T q /\ bad k q) (a, b, c) <-> on_boundary (fun q => S q /\ bad k q) (a, b, c)); [|tauto].
    unfold on_boundary. split; intros (q & (Q1 & Q2) & Q3 & Q4); exists q; (split; [split; [apply E; exact Q1|exact Q2]|split; [exact Q3|]]);
      intros q' f' [C1 C2]; apply Q4; (split; [apply E; exact C1|exact C2]).
Qed.
Lemma bw_run_ext_r bad : forall m k T T' S', (forall q, T' q <-> S' q) -> bw_run bad k m T T' -> bw_run bad k m T S'.
Proof.
  induction m as [|m IH]; intros k T T' S' E H.
  - intros q. rewrite <- E. apply H.
  - destruct H as (T1 & H1 & H2). exists T1. split; [exact H1|]. eapply IH; eauto.
Qed.
Lemma insertAll_bw ordT ordF (points : list (vec A)) :
  (forall n, order_ok (ordT n)) -> (forall n, order_ok (ordF n)) -> forall l k t,
  (Z.of_nat k + 4 + Z.of_nat (length l) <= Z.of_nat (length points))%Z ->
  (forall j, (j < length l)%nat -> nth j l Zero = nth (k + j + 4) points Zero) -> inv2 (Z.of_nat k + 4) t ->
  exists t', insertAll ordT ordF points k l t = Ok t' /\ inv2 (Z.of_nat k + Z.of_nat (length l) + 4) t' /\
    bw_run (fun j => violates points (nth (j + 4) points Zero)) k (length l) (holds t) (holds t').
Proof.
  intros HT HF. induction l as [|p l IH]; intros k t Hlen Hl Hinv.
  - exists t. split; [reflexivity|]. split; [|intros q; reflexivity]. simpl. rewrite Z.add_0_r. exact Hinv.
  - cbn [insertAll]. simpl length in *.
    destruct (insertPoint_bw (ordT k) (ordF k) points (Z.of_nat k) p t (HT k) (HF k) ltac:(lia) ltac:(lia) Hinv) as (t1 & E1 & I1 & B1).
    rewrite E1. cbn [rbind].
    destruct (IH (S k) t1) as (t2 & E2 & I2 & B2).
    + lia.
    + intros j Hj. specialize (Hl (S j) ltac:(lia)). simpl nth in Hl at 1. rewrite Hl. f_equal; lia.
    + replace (Z.of_nat (S k) + 4)%Z with (Z.of_nat k + 5)%Z by lia. exact I1.
    + exists t2. split; [exact E2|]. split.
      * replace (Z.of_nat k + Z.of_nat (S (length l)) + 4)%Z with (Z.of_nat (S k) + Z.of_nat (length l) + 4)%Z by lia. exact I2.
      * exists (holds t1). split; [|exact B2]. specialize (Hl 0%nat ltac:(lia)). simpl in Hl. rewrite Nat.add_0_r in Hl. rewrite <- Hl. exact B1.
Qed.
Lemma outer_part m f : face_ok m f -> isPartOfMesh f = outer (ftri f).
Proof.
  intros (H1 & H2 & H3 & _). unfold idx in *. unfold isPartOfMesh, super, outer, ftri.
  destruct (Z.leb_spec 0 (pa f)); try lia; destruct (Z.leb_spec 0 (pb f)); try lia; destruct (Z.leb_spec 0 (pc f)); try lia.
  destruct (Z.leb_spec (pa f) 3), (Z.leb_spec 4 (pa f)); try lia; destruct (Z.leb_spec (pb f) 3), (Z.leb_spec 4 (pb f)); try lia;
    destruct (Z.leb_spec (pc f) 3), (Z.leb_spec 4 (pc f)); try lia; reflexivity.
Qed.
Lemma init_inv2 : inv2 4 (addTetra [] (mktetra 0 1 2 3 [mkface 0 1 2; mkface 1 2 3; mkface 2 3 0; mkface 3 0 1])).
Proof.
  split; [exact init_inv|]. split; [repeat constructor; simpl; tauto|]. intros k v [[= <- <-]|[]]. reflexivity.
Qed.
Lemma mesh_tris m (l : tetrahedrisation) : (forall k v, In (k, v) l -> tetra_ok m v /\ shaped v) ->
  map faceTri (filter isPartOfMesh (flat_map (fun kt : string * tetra => faces (snd kt)) l)) =
  map renumber (filter outer (flat_map quad_faces (map qof (map snd l)))).
Proof.
  induction l as [|[k v] l IH]; intros H; [reflexivity|]. cbn [flat_map map snd]. destruct (H k v (or_introl eq_refl)) as [(_ & _ & _ & _ & F) S].
  rewrite !filter_app, !map_app, IH by (intros; eapply H; right; eauto). f_equal. unfold shaped in S. rewrite <- S. clear S.
  induction (faces v) as [|f fs IHf]; [reflexivity|]. inversion F as [|? ? F1 F2]; subst. cbn [map filter]. rewrite <- (outer_part m f F1).
  destruct (isPartOfMesh f); cbn [map]; rewrite IHf by auto; reflexivity.
Qed.
Lemma bowyerWatson_bw ordT ordF ordE (points : list (vec A)) :
  (forall n, order_ok (ordT n)) -> (forall n, order_ok (ordF n)) -> order_ok ordE ->
  let all := snd (englobe points) in
  exists (T : list quad) tris, NoDup T /\
    bw_run (fun j => violates all (nth j points Zero)) 0 (length points) (fun q => q = (0, 1, 2, 3)) (fun q => In q T) /\
    bowyerWatson ordT ordF ordE points = Ok (flatten tris) /\
    Permutation tris (map renumber (filter outer (flat_map quad_faces T))).
Proof.
  intros HT HF HE. unfold bowyerWatson, englobe. destruct (computerInitialTetraPoints (findExtremas points)) as [[[p1 p2] p3] p4]. cbn [snd].
  set (all := [p1; p2; p3; p4] ++ points).
  destruct (insertAll_bw ordT ordF all HT HF points 0%nat
    (addTetra [] (mktetra 0 1 2 3 [mkface 0 1 2; mkface 1 2 3; mkface 2 3 0; mkface 3 0 1]))) as (t' & E & I & B).
  - unfold all. rewrite app_length. simpl length. lia.
  - intros j Hj. unfold all. rewrite app_nth2 by (simpl; lia). f_equal. simpl length. lia.
  - exact init_inv2.
  - rewrite E. cbn [rbind]. pose proof (inv2_nodup _ _ I) as N. destruct I as ((Iok & Ik) & NK & SH).
    exists (map qof (map snd t')). eexists. split; [|split; [|split; [rewrite meshFaces_flat; reflexivity|]]].
    + assert (G : forall l : list tetra, NoDup l -> (forall v, In v l -> shaped v) -> NoDup (map qof l)).
      { induction l as [|v l IH]; intros N1 S1; [constructor|]. inversion N1 as [|? ? Hv Hl]; subst. simpl. constructor.
        - intros H. apply in_map_iff in H. destruct H as (w & Eq & Hw). apply Hv. rewrite <- (shaped_inj w v); auto; apply S1; [right|left]; auto.
        - apply IH; auto. intros w Hw. apply S1. right. auto. }
      apply G; [exact N|]. intros v Hv. apply in_map_iff in Hv. destruct Hv as ([k v'] & <- & Hv). eapply SH; eauto.
    + apply bw_run_ext with (T := holds (addTetra [] (mktetra 0 1 2 3 [mkface 0 1 2; mkface 1 2 3; mkface 2 3 0; mkface 3 0 1]))).
      * intros q. split.
        -- intros (k & v & [[= <- <-]|[]] & <-). reflexivity.
        -- intros ->. exists "0.1.2.3"%string, (mktetra 0 1 2 3 [mkface 0 1 2; mkface 1 2 3; mkface 2 3 0; mkface 3 0 1]). split; [left|]; reflexivity.
      * apply bw_run_ext_r with (T' := holds t').
        -- intros q. unfold holds. rewrite in_map_iff. split.
           ++ intros (k & v & H & <-). exists v. split; [reflexivity|]. apply in_map_iff. exists (k, v). auto.
           ++ intros (v & <- & H). apply in_map_iff in H. destruct H as ([k v'] & Ev & H). simpl in Ev. subst. eauto.
        -- assert (G : forall m k T T', (k + m <= length points)%nat ->
             bw_run (fun j => violates all (nth (j + 4) all Zero)) k m T T' -> bw_run (fun j => violates all (nth j points Zero)) k m T T').
           { induction m as [|m IH]; intros k T T' Hk H; [exact H|]. destruct H as (T1 & H1 & H2). exists T1. split; [|apply IH; [lia|exact H2]].
             replace (nth k points Zero) with (nth (k + 4) all Zero); [exact H1|]. unfold all. rewrite app_nth2 by (simpl; lia). f_equal. simpl length. lia. }
           apply G; [lia|exact B].
    + assert (IO : forall k v, In (k, v) (ordE t') -> In (k, v) t') by (intros k v H; eapply Permutation_in; [apply Permutation_sym, HE|exact H]).
      rewrite (mesh_tris (Z.of_nat 0 + Z.of_nat (length points) + 4)) by (intros k v H; apply IO in H; split; [eapply Iok|eapply SH]; eauto).
      apply Permutation_map, filter_perm, flat_map_perm, Permutation_map, Permutation_map, Permutation_sym, HE.
Qed.
End BW.

(** the test in exact arithmetic *)
Lemma violates_geometry (points : list rv) p a b c d o r2 :
  let P i := nth (Z.to_nat i) points rzero in
  (0 <= a < Z.of_nat (length points)) -> (0 <= b < Z.of_nat (length points)) -> (0 <= c < Z.of_nat (length points)) -> (0 <= d < Z.of_nat (length points)) ->
  circumsphere o r2 (P a) (P b) (P c) (P d) ->
  let bad := violates (A := XR) (map fv points) (fv p) (a, b, c, d) in
  ((signed_volume (P a) (P b) (P c) (P d) < 0)%R -> (bad <-> (rdist2 p o <= r2)%R)) /\
  ((signed_volume (P a) (P b) (P c) (P d) > 0)%R -> (bad <-> (r2 <= rdist2 p o)%R)) /\
  (signed_volume (P a) (P b) (P c) (P d) = 0%R -> bad).
Proof.
  intros P Ha Hb Hc Hd HC. unfold violates.
  assert (N : forall i, (0 <= i < Z.of_nat (length points)) -> nth (Z.to_nat i) (map fv points) (Zero : vec XR) = fv (P i)).
  { intros i Hi. rewrite (nth_indep _ (Zero : vec XR) (fv rzero)) by (rewrite map_length; lia). apply map_nth. }
  rewrite !N by assumption. destruct (insphere_sign _ _ _ _ p _ _ HC) as (s & -> & S1 & S2 & S3).
  cbn [fle XR xleb fofZ]. unfold inside_sphere, on_sphere, outside_sphere in *. rewrite Rleb_true. split; [|split].
  - intros V. destruct (S1 V) as (I1 & I2 & I3). split; intros H.
    + destruct (Rlt_or_le 0 s) as [L|L]; [apply I1 in L; lra|]. assert (Z : s = 0%R) by lra. apply I2 in Z. lra.
    + destruct (Rlt_or_le s 0) as [L|L]; [apply I3 in L; lra|lra].
  - intros V. destruct (S2 V) as (I1 & I2 & I3). split; intros H.
    + destruct (Rlt_or_le 0 s) as [L|L]; [apply I3 in L; lra|]. assert (Z : s = 0%R) by lra. apply I2 in Z. lra.
    + destruct (Rlt_or_le s 0) as [L|L]; [apply I1 in L; lra|lra].
  - intros V. rewrite (S3 V). lra.
Qed.
