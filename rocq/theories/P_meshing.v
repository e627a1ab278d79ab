(** Proofs about package mesh: hashing, index validity, helpers (C33-C43). *)
From Coq Require Import String Reals Lra Lia ZArith QArith Qreals Bool List Permutation.
From Flocq Require Import Core BinarySingleNaN.
From Verif Require Import Base Arith M_r3 M_predicates GoMap M_meshing Spec_r3 Spec_sphere Spec_mesh XRvec P_r3 P_predicates.
Import ListNotations.

(** ** C33, C34: hashes *)
Lemma sort3_perm a b c x y z : sort3 a b c = (x, y, z) -> Permutation [a; b; c] [x; y; z].
Proof.
  unfold sort3.
  destruct (Z.ltb_spec b a); destruct (Z.ltb_spec c a) ;
  destruct (Z.ltb_spec c b); try lia;
  repeat match goal with |- context [Z.ltb ?u ?v] => destruct (Z.ltb_spec u v); try lia end;
  intros [= <- <- <-].
  all: try solve [apply Permutation_refl | apply perm_swap | apply perm_skip, perm_swap].
  all: try (eapply perm_trans; [apply perm_swap|]; apply perm_skip; apply perm_swap).
  all: try solve [eapply perm_trans; [apply perm_swap|]; eapply perm_trans; [apply perm_skip, perm_swap|]; apply perm_swap].
  all: try (eapply perm_trans; [apply perm_skip; apply perm_swap|]; apply perm_swap).
Qed.
Lemma sort3_sorted a b c x y z : sort3 a b c = (x, y, z) -> (x <= y <= z)%Z.
Proof.
  unfold sort3.
  destruct (Z.ltb_spec b a); destruct (Z.ltb_spec c a) ;
  destruct (Z.ltb_spec c b); try lia;
  repeat match goal with |- context [Z.ltb ?u ?v] => destruct (Z.ltb_spec u v); try lia end;
  intros [= <- <- <-]; lia.
Qed.
Lemma perm3_cases {T} (a b c x y z : T) : Permutation [a; b; c] [x; y; z] ->
  (a = x /\ b = y /\ c = z) \/ (a = x /\ b = z /\ c = y) \/ (a = y /\ b = x /\ c = z) \/
  (a = y /\ b = z /\ c = x) \/ (a = z /\ b = x /\ c = y) \/ (a = z /\ b = y /\ c = x).
Proof.
  intros H. assert (Ha : In a [x; y; z]) by (eapply Permutation_in; [exact H|left; reflexivity]).
  assert (L2 : forall u v w t : T, Permutation [u; v] [w; t] -> (u = w /\ v = t) \/ (u = t /\ v = w)).
  { intros u v w t P. apply Permutation_length_2_inv in P. destruct P as [P|P]; injection P as -> ->; auto. }
  destruct Ha as [<-|[<-|[<-|[]]]].
  - apply Permutation_cons_inv in H. apply L2 in H. tauto.
  - assert (P : Permutation [y; b; c] [y; x; z]) by (eapply perm_trans; [exact H|apply perm_swap]).
    apply Permutation_cons_inv in P. apply L2 in P. tauto.
  - assert (P : Permutation [z; b; c] [z; x; y]).
    { eapply perm_trans; [exact H|]. eapply perm_trans; [apply perm_skip, perm_swap|apply perm_swap]. }
    apply Permutation_cons_inv in P. apply L2 in P. tauto.
Qed.
Lemma face_hash_iff f g : face_hash f = face_hash g <->
  Permutation [pa f; pb f; pc f] [pa g; pb g; pc g].
Proof.
  unfold face_hash.
  destruct (sort3 (pa f) (pb f) (pc f)) as [[x y] z] eqn:E1.
  destruct (sort3 (pa g) (pb g) (pc g)) as [[x' y'] z'] eqn:E2.
  pose proof (sort3_perm _ _ _ _ _ _ E1) as P1. pose proof (sort3_perm _ _ _ _ _ _ E2) as P2.
  pose proof (sort3_sorted _ _ _ _ _ _ E1) as S1. pose proof (sort3_sorted _ _ _ _ _ _ E2) as S2.
  split; intros H.
  - apply dot_split in H; auto using nodot_Itoa. destruct H as [Hx H].
    apply dot_split in H; auto using nodot_Itoa. destruct H as [Hy Hz].
    apply Itoa_inj in Hx, Hy, Hz. subst.
    eapply perm_trans; [exact P1|apply Permutation_sym; exact P2].
  - assert (P : Permutation [x; y; z] [x'; y'; z']).
    { eapply perm_trans; [apply Permutation_sym; exact P1|]. eapply perm_trans; [exact H|exact P2]. }
    apply perm3_cases in P.
    assert (x = x' /\ y = y' /\ z = z') as (-> & -> & ->) by lia. reflexivity.
Qed.
Lemma tetraHash_inj t u : tetraHash t = tetraHash u ->
  ia t = ia u /\ ib t = ib u /\ ic t = ic u /\ id t = id u.
Proof.
  unfold tetraHash. intros H.
  apply dot_split in H; auto using nodot_Itoa. destruct H as [H1 H].
  apply dot_split in H; auto using nodot_Itoa. destruct H as [H2 H].
  apply dot_split in H; auto using nodot_Itoa. destruct H as [H3 H4].
  apply Itoa_inj in H1, H2, H3, H4. auto.
Qed.
Lemma mset_keeps {V} (m : gomap V) k v k' v' : In (k', v') m -> k' <> k -> In (k', v') (mset m k v).
Proof.
  induction m as [|[k2 v2] m IH]; simpl; [tauto|]. intros [[= -> ->]|H] Hk.
  - destruct (String.eqb_spec k k'); [congruence|left; auto].
  - destruct (String.eqb k k2); right; auto.
Qed.
(* maps as built by addTetra: every entry is stored under its own hash *)
Definition keyed (t : tetrahedrisation) : Prop := forall k v, In (k, v) t -> k = tetraHash v.
Lemma addTetra_keeps t new k old :
  keyed t -> In (k, old) t ->
  (ia old, ib old, ic old, id old) <> (ia new, ib new, ic new, id new) ->
  In (k, old) (addTetra t new).
Proof.
  intros Hk Hin Hne. apply mset_keeps; auto. rewrite (Hk k old Hin).
  intros E. apply tetraHash_inj in E. destruct E as (E1 & E2 & E3 & E4). apply Hne. congruence.
Qed.

(** ** C35: index validity *)
Definition idx (m i : Z) : Prop := (0 <= i < m)%Z.
Definition face_ok (m : Z) (f : face) : Prop :=
  idx m (pa f) /\ idx m (pb f) /\ idx m (pc f) /\ pa f <> pb f /\ pb f <> pc f /\ pa f <> pc f.
Definition tetra_ok (m : Z) (t : tetra) : Prop :=
  idx m (ia t) /\ idx m (ib t) /\ idx m (ic t) /\ idx m (id t) /\ Forall (face_ok m) (faces t).
Definition all_ok (m : Z) (t : tetrahedrisation) : Prop := forall k v, In (k, v) t -> tetra_ok m v.

Lemma idx_mono m m' i : (m <= m')%Z -> idx m i -> idx m' i.
Proof. unfold idx. lia. Qed.
Lemma face_ok_mono m m' f : (m <= m')%Z -> face_ok m f -> face_ok m' f.
Proof. unfold face_ok, idx. intuition lia. Qed.
Lemma tetra_ok_mono m m' t : (m <= m')%Z -> tetra_ok m t -> tetra_ok m' t.
Proof.
  intros H (H1 & H2 & H3 & H4 & H5). repeat split; try (eapply idx_mono; eauto).
  eapply Forall_impl; [|exact H5]. intros. eapply face_ok_mono; eauto.
Qed.

Definition fs_ok (bad : list tetra) (fs : gomap faceCheck) : Prop :=
  forall k fc, In (k, fc) fs -> check fc = false ->
    exists t f, zget bad (tetraID fc) = Ok t /\ zget (faces t) (faceID fc) = Ok f.
Lemma faceSet_faces_ok bad bpre t brest fpre fl fs :
  bad = bpre ++ t :: brest -> faces t = fpre ++ fl -> fs_ok bad fs ->
  fs_ok bad (faceSet_faces fs (Z.of_nat (length bpre)) (Z.of_nat (length fpre)) fl).
Proof.
  intros Hb. revert fpre fs. induction fl as [|f fl IH]; intros fpre fs Hf Hfs; [exact Hfs|].
  cbn [faceSet_faces].
  replace (Z.of_nat (length fpre) + 1)%Z with (Z.of_nat (length (fpre ++ [f])))
    by (rewrite app_length; simpl; lia).
  apply IH; [rewrite <- app_assoc; exact Hf|].
  intros k fc Hin Hc. destruct (mget fs (face_hash f)).
  - apply mset_In in Hin. destruct Hin as [[= -> ->]|Hin]; [discriminate|eauto].
  - apply mset_In in Hin. destruct Hin as [[= -> ->]|Hin]; [|eauto]. simpl.
    exists t, f. split.
    + rewrite zget_nat, Hb, nth_error_app2, Nat.sub_diag by lia. reflexivity.
    + rewrite zget_nat, Hf, nth_error_app2, Nat.sub_diag by lia. reflexivity.
Qed.
Lemma faceSet_tetras_ok bad bpre brest fs :
  bad = bpre ++ brest -> fs_ok bad fs -> fs_ok bad (faceSet_tetras fs (Z.of_nat (length bpre)) brest).
Proof.
  revert bpre fs. induction brest as [|t brest IH]; intros bpre fs Hb Hfs; [exact Hfs|].
  cbn [faceSet_tetras].
  replace (Z.of_nat (length bpre) + 1)%Z with (Z.of_nat (length (bpre ++ [t])))
    by (rewrite app_length; simpl; lia).
  apply IH; [rewrite <- app_assoc; exact Hb|].
  apply (faceSet_faces_ok bad bpre t brest [] (faces t)); auto.
Qed.
Lemma zget_In {T} (l : list T) i x : zget l i = Ok x -> In x l.
Proof. intros H. apply zget_ok in H. destruct H as [_ H]. eapply nth_error_In; eauto. Qed.
Lemma polyhedron_ok bad fs : fs_ok bad fs ->
  exists l, polyhedron bad fs = Ok l /\ forall f, In f l -> exists t, In t bad /\ In f (faces t).
Proof.
  induction fs as [|[k fc] fs IH]; intros H.
  - exists []. split; [reflexivity|intros ? []].
  - destruct IH as (l & E & Hl); [intros k' fc' Hin; apply H with k'; right; auto|].
    cbn [polyhedron]. destruct (check fc) eqn:Hc; simpl negb; cbv iota.
    + exists l. auto.
    + destruct (H k fc (or_introl eq_refl) Hc) as (t & f & E1 & E2).
      rewrite E1. cbn [rbind]. rewrite E2. cbn [rbind]. rewrite E. cbn [rbind].
      exists (f :: l). split; [reflexivity|]. intros g [<-|Hg]; [|auto].
      exists t. split; [eapply zget_In; eauto|eapply zget_In; eauto].
Qed.

Section BW.
Context {A : Arith}.
Lemma findBad_ok (points : list (vec A)) p l m :
  (m <= Z.of_nat (length points))%Z -> (forall k v, In (k, v) l -> tetra_ok m v) ->
  exists bad, findBad points p l = Ok bad /\ forall t, In t bad -> exists k, In (k, t) l.
Proof.
  intros Hm. induction l as [|[k t] l IH]; intros Hok.
  - exists []. split; [reflexivity|intros ? []].
  - destruct IH as (bad & E & Hb); [intros; eapply Hok; right; eauto|].
    destruct (Hok k t (or_introl eq_refl)) as (H1 & H2 & H3 & H4 & _). unfold idx in *.
    cbn [findBad].
    destruct (zget_in_range points (ia t)) as [qa ->]; [lia|].
    destruct (zget_in_range points (ib t)) as [qb ->]; [lia|].
    destruct (zget_in_range points (ic t)) as [qc ->]; [lia|].
    destruct (zget_in_range points (id t)) as [qd ->]; [lia|].
    cbn [rbind]. rewrite E. cbn [rbind].
    destruct (fle A _ _).
    + exists (t :: bad). split; [reflexivity|]. intros u [<-|Hu].
      * exists k. left; auto.
      * destruct (Hb u Hu) as [k' Hk]. exists k'. right; auto.
    + exists bad. split; [reflexivity|]. intros u Hu. destruct (Hb u Hu) as [k' Hk]. exists k'. right; auto.
Qed.
Lemma connect_ok m f : (0 <= m)%Z -> face_ok m f -> tetra_ok (m + 1) (connect f m).
Proof.
  intros Hm (H1 & H2 & H3 & H4 & H5 & H6). unfold connect, tetra_ok, face_ok, idx in *. simpl.
  repeat split; try lia.
  repeat constructor; simpl; lia.
Qed.
Lemma fold_del_In bad (t : tetrahedrisation) x : In x (fold_left (fun t b => mdel t (tetraHash b)) bad t) -> In x t.
Proof.
  revert t. induction bad as [|b bad IH]; intros t H; [exact H|]. simpl in H.
  apply IH in H. apply mdel_In in H. tauto.
Qed.
Lemma fold_add_ok m poly t j : (m <= j + 1)%Z -> 
  (forall f, In f poly -> tetra_ok m (connect f j)) -> all_ok m t ->
  all_ok m (fold_left (fun t f => addTetra t (connect f j)) poly t).
Proof.
  intros Hm. revert t. induction poly as [|f poly IH]; intros t Hf Ht; [exact Ht|].
  simpl. apply IH; [intros; apply Hf; right; auto|].
  intros k v Hin. apply mset_In in Hin. destruct Hin as [[= -> ->]|Hin]; [apply Hf; left; auto|eauto].
Qed.
Lemma insertPoint_ok ordT ordF (points : list (vec A)) i p t :
  order_ok ordT -> order_ok ordF -> (0 <= i)%Z ->
  (i + 4 <= Z.of_nat (length points))%Z -> all_ok (i + 4) t ->
  exists t', insertPoint ordT ordF points i p t = Ok t' /\ all_ok (i + 5) t'.
Proof.
  intros HT HF Hi Hlen Hok. unfold insertPoint.
  destruct (findBad_ok points p (ordT t) (i + 4)) as (bad & -> & Hbad); auto.
  { intros k v Hin. apply (Hok k). eapply Permutation_in; [apply Permutation_sym, HT|exact Hin]. }
  cbn [rbind].
  destruct (polyhedron_ok bad (ordF (faceSet_tetras [] 0 bad))) as (poly & -> & Hpoly).
  { intros k fc Hin. apply (faceSet_tetras_ok bad [] bad []) with k; auto.
    - intros ? ? [].
    - eapply Permutation_in; [apply Permutation_sym, HF|exact Hin]. }
  cbn [rbind]. eexists. split; [reflexivity|].
  apply fold_add_ok; [lia| |].
  - intros f Hf. destruct (Hpoly f Hf) as (u & Hu & Hfu). destruct (Hbad u Hu) as (k & Hk).
    assert (Hu' : tetra_ok (i + 4) u).
    { apply (Hok k). eapply Permutation_in; [apply Permutation_sym, HT|exact Hk]. }
    destruct Hu' as (_ & _ & _ & _ & Hfs). rewrite Forall_forall in Hfs.
    replace (i + 5)%Z with (i + 4 + 1)%Z by lia. apply connect_ok; [lia|auto].
  - intros k v Hin. apply fold_del_In in Hin. eapply tetra_ok_mono; [|eapply Hok; eauto]. lia.
Qed.
Lemma insertAll_ok ordT ordF (points : list (vec A)) l k t :
  (forall n, order_ok (ordT n)) -> (forall n, order_ok (ordF n)) ->
  (Z.of_nat k + 4 + Z.of_nat (length l) <= Z.of_nat (length points))%Z ->
  all_ok (Z.of_nat k + 4) t ->
  exists t', insertAll ordT ordF points k l t = Ok t' /\ all_ok (Z.of_nat k + Z.of_nat (length l) + 4) t'.
Proof.
  intros HT HF. revert k t. induction l as [|p l IH]; intros k t Hlen Hok.
  - exists t. split; [reflexivity|]. simpl. rewrite Z.add_0_r. exact Hok.
  - cbn [insertAll]. simpl length in Hlen.
    destruct (insertPoint_ok (ordT k) (ordF k) points (Z.of_nat k) p t) as (t1 & -> & H1);
      [apply HT|apply HF|lia|lia|exact Hok|].
    cbn [rbind]. destruct (IH (S k) t1) as (t2 & -> & H2); [lia| |].
    + replace (Z.of_nat (S k) + 4)%Z with (Z.of_nat k + 5)%Z by lia. exact H1.
    + exists t2. split; [reflexivity|]. simpl length.
      replace (Z.of_nat k + Z.of_nat (S (length l)) + 4)%Z with (Z.of_nat (S k) + Z.of_nat (length l) + 4)%Z by lia.
      exact H2.
Qed.
Definition good_tri (n : Z) (t : Z * Z * Z) : Prop :=
  let '(a, b, c) := t in idx n a /\ idx n b /\ idx n c /\ a <> b /\ b <> c /\ a <> c.
Lemma flatten_app a b : flatten (a ++ b) = flatten a ++ flatten b.
Proof. unfold flatten. apply flat_map_app. Qed.
Lemma meshFaces_ok l n : (forall k v, In (k, v) l -> tetra_ok (n + 4) v) ->
  exists tris, meshFaces l = flatten tris /\ Forall (good_tri n) tris.
Proof.
  unfold meshFaces. intros Hok.
  assert (G1 : forall fl acc, Forall (face_ok (n + 4)) fl -> Forall (good_tri n) acc ->
    exists acc', fold_left (fun acc f => if isPartOfMesh f then addFace acc f else acc) fl (flatten acc)
      = flatten acc' /\ Forall (good_tri n) acc').
  { induction fl as [|f fl IH]; intros acc Hf Hacc; [exists acc; auto|].
    inversion Hf as [|? ? Hf1 Hf2]; subst. simpl.
    destruct (isPartOfMesh f) eqn:E; [|auto].
    unfold addFace.
    replace (flatten acc ++ [pa f - 4; pb f - 4; pc f - 4]%Z)
      with (flatten (acc ++ [(pa f - 4, pb f - 4, pc f - 4)%Z])) by (rewrite flatten_app; reflexivity).
    apply IH; auto. apply Forall_app. split; auto. constructor; [|constructor].
    unfold isPartOfMesh, super in E. unfold face_ok, idx in Hf1. unfold good_tri, idx.
    destruct (Z.leb_spec 0 (pa f)); destruct (Z.leb_spec (pa f) 3); simpl in E; try discriminate;
    destruct (Z.leb_spec 0 (pb f)); destruct (Z.leb_spec (pb f) 3); simpl in E; try discriminate;
    destruct (Z.leb_spec 0 (pc f)); destruct (Z.leb_spec (pc f) 3); simpl in E; try discriminate; lia. }
  assert (G2 : forall l acc, (forall k v, In (k, v) l -> tetra_ok (n + 4) v) -> Forall (good_tri n) acc ->
    exists acc', fold_left (fun acc (kt : string * tetra) =>
      fold_left (fun acc f => if isPartOfMesh f then addFace acc f else acc) (faces (snd kt)) acc) l (flatten acc)
      = flatten acc' /\ Forall (good_tri n) acc').
  { clear l Hok. induction l as [|[k t] l IH]; intros acc Hok Hacc; [exists acc; auto|].
    simpl. destruct (Hok k t (or_introl eq_refl)) as (_ & _ & _ & _ & Hf).
    destruct (G1 (faces t) acc Hf Hacc) as (acc1 & -> & H1).
    apply IH; auto. intros; eapply Hok; right; eauto. }
  apply (G2 l [] Hok). constructor.
Qed.
Lemma bowyerWatson_ok ordT ordF ordE (points : list (vec A)) :
  (forall n, order_ok (ordT n)) -> (forall n, order_ok (ordF n)) -> order_ok ordE ->
  exists tris, bowyerWatson ordT ordF ordE points = Ok (flatten tris) /\
    Forall (good_tri (Z.of_nat (length points))) tris.
Proof.
  intros HT HF HE. unfold bowyerWatson, englobe.
  destruct (computerInitialTetraPoints (findExtremas points)) as [[[p1 p2] p3] p4].
  destruct (insertAll_ok ordT ordF ([p1; p2; p3; p4] ++ points) points 0
     (addTetra [] (mktetra 0 1 2 3 [mkface 0 1 2; mkface 1 2 3; mkface 2 3 0; mkface 3 0 1]))) as (t' & E & Hok);
     auto.
  - rewrite app_length. simpl length. lia.
  - intros k v [[= <- <-]|[]]. unfold tetra_ok, idx. simpl. repeat split; try lia.
    repeat constructor; simpl; lia.
  - rewrite E. cbn [rbind].
    destruct (meshFaces_ok (ordE t') (Z.of_nat (length points))) as (tris & -> & Ht).
    + intros k v Hin. replace (Z.of_nat (length points) + 4)%Z with (Z.of_nat 0 + Z.of_nat (length points) + 4)%Z by lia.
      apply (Hok k). eapply Permutation_in; [apply Permutation_sym, HE|exact Hin].
    + exists tris. auto.
Qed.
End BW.

(** ** C43, C42 *)
Lemma dup_loop fuel pre post ext : length pre = fuel ->
  duplicateInReverse_loop fuel (Z.of_nat (length pre) - 1) (pre ++ post ++ ext) =
  Ok (pre ++ post ++ ext ++ rev pre).
Proof.
  revert pre post ext. induction fuel as [|fuel IH]; intros pre post ext Hl.
  - destruct pre; [|discriminate]. simpl. rewrite app_nil_r. reflexivity.
  - destruct (@exists_last _ pre) as (pre' & x & ->); [destruct pre; discriminate|].
    rewrite app_length in *. simpl in Hl. cbn [duplicateInReverse_loop].
    destruct (Z.ltb_spec (Z.of_nat (length pre' + length [x]) - 1) 0) as [H|H]; [simpl in H; lia|].
    replace (Z.of_nat (length pre' + length [x]) - 1)%Z with (Z.of_nat (length pre')) by (simpl; lia).
    rewrite zget_nat, <- app_assoc, nth_error_app2, Nat.sub_diag by lia. simpl nth_error. cbn [rbind].
    replace (Z.of_nat (length pre') - 1)%Z with (Z.of_nat (length pre') - 1)%Z by lia.
    replace ((pre' ++ [x] ++ post ++ ext) ++ [x]) with (pre' ++ ([x] ++ post) ++ (ext ++ [x]))
      by (rewrite <- !app_assoc; reflexivity).
    rewrite IH by lia. rewrite rev_app_distr. simpl rev. rewrite <- !app_assoc. reflexivity.
Qed.
Lemma duplicateInReverse_spec l : duplicateInReverse l = Ok (l ++ rev l).
Proof.
  unfold duplicateInReverse. pose proof (dup_loop (length l) l [] [] eq_refl) as H.
  simpl in H. rewrite app_nil_r in H. exact H.
Qed.
(** a triangle list, reversed, lists the mirrored triangles in reverse order *)
Definition mirror (t : Z * Z * Z) : Z * Z * Z := let '(a, b, c) := t in (c, b, a).
Lemma flatten_rev tris : rev (flatten tris) = flatten (rev (map mirror tris)).
Proof.
  induction tris as [|[[a b] c] tris IH]; [reflexivity|].
  simpl map. simpl rev. rewrite flatten_app. rewrite <- IH. rewrite <- !app_assoc. reflexivity.
Qed.

Lemma flip14_spec {A : Arith} (m : Meshing A) p : exists idxs,
  flip14 m p = Ok (mkMeshing (vertices m ++ [p]) idxs) /\
  (forall i, In i idxs <-> (0 <= i <= 4)%Z).
Proof.
  unfold flip14. rewrite !duplicateInReverse_spec. cbn [rbind].
  eexists. split; [reflexivity|]. intros i. simpl. split; [intuition lia|].
  intros H. assert (i = 0 \/ i = 1 \/ i = 2 \/ i = 3 \/ i = 4)%Z as E by lia.
  intuition.
Qed.
Lemma flip14_iff {A : Arith} (m : Meshing A) p m' : flip14 m p = Ok m' ->
  let n := Z.of_nat (length (vertices m)) in
  vertices m' = vertices m ++ [p] /\
  ((In n (indices m') /\ forall i, In i (indices m') -> (0 <= i < Z.of_nat (length (vertices m')))%Z) <-> n = 4%Z).
Proof.
  destruct (flip14_spec m p) as (idxs & E & H). rewrite E. intros [= <-]. simpl.
  split; [reflexivity|]. rewrite app_length. simpl length. split.
  - intros [H1 H2]. apply H in H1. specialize (H2 4%Z (proj2 (H 4%Z) ltac:(lia))). lia.
  - intros Hn. split; [apply H; lia|]. intros i Hi. apply H in Hi. lia.
Qed.
