(** The cavity boundary and independence from map iteration order (package mesh). *)
From Coq Require Import String Lia ZArith Bool List Permutation.
From Verif Require Import Base Arith M_r3 M_predicates GoMap M_meshing Spec_mesh P_meshing.
Import ListNotations.

(* the faces of l with the same vertices as f *)
Definition same_face (f g : face) : bool := String.eqb (face_hash g) (face_hash f).
Definition keyed_faces (k : string) (l : list face) : list face := filter (fun g => String.eqb (face_hash g) k) l.
Definition once (l : list face) (f : face) : bool := (length (filter (same_face f) l) =? 1)%nat.

Lemma filter_unique {T} (P : T -> bool) l x y : filter P l = [x] -> In y l -> P y = true -> y = x.
Proof.
  intros H Hin HP. assert (In y (filter P l)) by (apply filter_In; auto). rewrite H in H0.
  destruct H0 as [->|[]]. reflexivity.
Qed.

Section Cavity.
Variable bad : list tetra.
Definition resolves (fc : faceCheck) (f : face) : Prop :=
  exists t, zget bad (tetraID fc) = Ok t /\ zget (faces t) (faceID fc) = Ok f.
Definition fs_inv (seen : list face) (fs : gomap faceCheck) : Prop :=
  NoDup (map fst fs) /\
  forall k, match keyed_faces k seen with
            | [] => mget fs k = None
            | [f] => exists fc, mget fs k = Some fc /\ check fc = false /\ resolves fc f
            | _ => exists fc, mget fs k = Some fc /\ check fc = true
            end.
Lemma keyed_app k a b : keyed_faces k (a ++ b) = keyed_faces k a ++ keyed_faces k b.
Proof. apply filter_app. Qed.
Lemma fs_inv_step seen fs f fc : fs_inv seen fs -> check fc = false -> resolves fc f ->
  fs_inv (seen ++ [f])
    (match mget fs (face_hash f) with
     | None => mset fs (face_hash f) fc
     | Some _ => mset fs (face_hash f) (mkfaceCheck true (-1) (-1))
     end).
Proof.
  intros [Hnd Hinv] Hc Hr. split.
  - destruct (mget fs (face_hash f)); apply mset_keys; auto.
  - intros k. rewrite keyed_app.
    destruct (String.eqb_spec (face_hash f) k) as [<-|Hk].
    + replace (keyed_faces (face_hash f) [f]) with [f] by (unfold keyed_faces; simpl; rewrite String.eqb_refl; reflexivity).
      specialize (Hinv (face_hash f)). destruct (keyed_faces (face_hash f) seen) as [|g [|g' r]].
      * rewrite Hinv. simpl. exists fc. rewrite mget_mset_same. auto.
      * destruct Hinv as (fc0 & -> & _). simpl. eexists. rewrite mget_mset_same. split; reflexivity.
      * destruct Hinv as (fc0 & -> & _). simpl. eexists. rewrite mget_mset_same. split; reflexivity.
    + replace (keyed_faces k [f]) with (@nil face)
        by (unfold keyed_faces; simpl; apply String.eqb_neq in Hk; rewrite Hk; reflexivity).
      rewrite app_nil_r. specialize (Hinv k).
      assert (E : forall v, mget (mset fs (face_hash f) v) k = mget fs k) by (intros; apply mget_mset_other; congruence).
      destruct (mget fs (face_hash f)); rewrite E; exact Hinv.
Qed.
Lemma faceSet_faces_inv bpre t brest fpre fl seen fs :
  bad = bpre ++ t :: brest -> faces t = fpre ++ fl -> fs_inv seen fs ->
  fs_inv (seen ++ fl) (faceSet_faces fs (Z.of_nat (length bpre)) (Z.of_nat (length fpre)) fl).
Proof.
  intros Hb. revert fpre seen fs. induction fl as [|f fl IH]; intros fpre seen fs Hf Hfs.
  - rewrite app_nil_r. exact Hfs.
  - cbn [faceSet_faces].
    replace (Z.of_nat (length fpre) + 1)%Z with (Z.of_nat (length (fpre ++ [f])))
      by (rewrite app_length; simpl; lia).
    replace (seen ++ f :: fl) with ((seen ++ [f]) ++ fl) by (rewrite <- app_assoc; reflexivity).
    apply IH; [rewrite <- app_assoc; exact Hf|]. apply fs_inv_step; auto.
    exists t. split.
    + simpl. rewrite zget_nat, Hb, nth_error_app2, Nat.sub_diag by lia. reflexivity.
    + simpl. rewrite zget_nat, Hf, nth_error_app2, Nat.sub_diag by lia. reflexivity.
Qed.
Lemma faceSet_tetras_inv bpre brest seen fs :
  bad = bpre ++ brest -> fs_inv seen fs ->
  fs_inv (seen ++ flat_map faces brest) (faceSet_tetras fs (Z.of_nat (length bpre)) brest).
Proof.
  revert bpre seen fs. induction brest as [|t brest IH]; intros bpre seen fs Hb Hfs.
  - simpl. rewrite app_nil_r. exact Hfs.
  - cbn [faceSet_tetras flat_map].
    replace (Z.of_nat (length bpre) + 1)%Z with (Z.of_nat (length (bpre ++ [t])))
      by (rewrite app_length; simpl; lia).
    rewrite app_assoc. apply IH; [rewrite <- app_assoc; exact Hb|].
    apply (faceSet_faces_inv bpre t brest [] (faces t)); auto.
Qed.
Lemma faceSet_inv : fs_inv (flat_map faces bad) (faceSet_tetras [] 0 bad).
Proof.
  apply (faceSet_tetras_inv [] bad [] []); [reflexivity|]. split; [constructor|]. intros k. reflexivity.
Qed.

Lemma polyhedron_In fs poly : polyhedron bad fs = Ok poly ->
  forall f, In f poly <-> exists k fc, In (k, fc) fs /\ check fc = false /\ resolves fc f.
Proof.
  revert poly. induction fs as [|[k fc] fs IH]; intros poly H f.
  - injection H as <-. simpl. split; [tauto|]. intros (? & ? & [] & _).
  - cbn [polyhedron] in H. destruct (check fc) eqn:Hc; simpl negb in H; cbv iota in H.
    + rewrite (IH _ H). split; intros (k' & fc' & Hin & H1 & H2); exists k', fc'.
      * simpl; auto.
      * destruct Hin as [[= <- <-]|Hin]; [congruence|auto].
    + destruct (zget bad (tetraID fc)) as [t| |] eqn:E1; try discriminate. cbn [rbind] in H.
      destruct (zget (faces t) (faceID fc)) as [f0| |] eqn:E2; try discriminate. cbn [rbind] in H.
      destruct (polyhedron bad fs) as [r| |] eqn:E3; try discriminate. cbn [rbind] in H.
      injection H as <-. simpl. rewrite (IH r eq_refl). split.
      * intros [<-|(k' & fc' & Hin & H1 & H2)].
        -- exists k, fc. split; [auto|]. split; [auto|]. exists t. auto.
        -- exists k', fc'. auto.
      * intros (k' & fc' & [[= <- <-]|Hin] & H1 & t' & H2 & H3).
        -- left. congruence.
        -- right. exists k', fc'. split; [auto|]. split; [auto|]. exists t'. auto.
Qed.
Lemma polyhedron_nodup fs poly : polyhedron bad fs = Ok poly -> NoDup (map fst fs) ->
  (forall k fc f, In (k, fc) fs -> check fc = false -> resolves fc f -> face_hash f = k) ->
  NoDup (map face_hash poly).
Proof.
  revert poly. induction fs as [|[k fc] fs IH]; intros poly H Hnd Hk.
  - injection H as <-. constructor.
  - cbn [polyhedron] in H. inversion Hnd as [|? ? Hn1 Hn2]; subst.
    assert (Hk' : forall k fc f, In (k, fc) fs -> check fc = false -> resolves fc f -> face_hash f = k)
      by (intros; eapply Hk; eauto; right; auto).
    destruct (check fc) eqn:Hc; simpl negb in H; cbv iota in H; [auto|].
    destruct (zget bad (tetraID fc)) as [t| |] eqn:E1; try discriminate. cbn [rbind] in H.
    destruct (zget (faces t) (faceID fc)) as [f0| |] eqn:E2; try discriminate. cbn [rbind] in H.
    destruct (polyhedron bad fs) as [r| |] eqn:E3; try discriminate. cbn [rbind] in H.
    injection H as <-. simpl. constructor; [|auto].
    assert (E : face_hash f0 = k).
    { eapply Hk; [left; reflexivity|auto|]. exists t. auto. }
    rewrite E. intros Hin. apply in_map_iff in Hin. destruct Hin as (g & Eg & Hin).
    apply (polyhedron_In fs r E3) in Hin. destruct Hin as (k' & fc' & Hin & H1 & H2).
    assert (face_hash g = k') by (eapply Hk'; eauto). apply Hn1.
    apply in_map_iff. exists (k', fc'). simpl. split; [congruence|auto].
Qed.

(** the cavity boundary: exactly the faces that belong to one bad tetrahedron only *)
Lemma polyhedron_spec ordF poly : order_ok ordF ->
  polyhedron bad (ordF (faceSet_tetras [] 0 bad)) = Ok poly ->
  Permutation poly (filter (once (flat_map faces bad)) (flat_map faces bad)) /\
  NoDup (map face_hash poly).
Proof.
  intros HF H. destruct faceSet_inv as [Hnd Hinv].
  set (fs := faceSet_tetras [] 0 bad) in *. set (all := flat_map faces bad) in *.
  assert (Hent : forall k fc f, In (k, fc) fs -> check fc = false -> resolves fc f ->
            keyed_faces k all = [f]).
  { intros k fc f Hin Hc (t & H1 & H2). apply mget_In in Hin; auto. specialize (Hinv k).
    destruct (keyed_faces k all) as [|g [|g' r]].
    - congruence.
    - destruct Hinv as (fc' & E & _ & t' & H1' & H2').
      rewrite Hin in E. injection E as <-. rewrite H1 in H1'. injection H1' as <-. congruence.
    - destruct Hinv as (fc' & E & Hc'). congruence. }
  assert (Hper : forall k fc, In (k, fc) (ordF fs) <-> In (k, fc) fs).
  { intros. split; intros Hin; (eapply Permutation_in; [|exact Hin]); [apply Permutation_sym|]; apply HF. }
  assert (HN : NoDup (map face_hash poly)).
  { apply (polyhedron_nodup (ordF fs) poly H).
    - eapply Permutation_NoDup; [|exact Hnd]. apply Permutation_map, HF.
    - intros k fc f Hin Hc Hr. apply Hper in Hin. specialize (Hent k fc f Hin Hc Hr).
      assert (Hf : In f (keyed_faces k all)) by (rewrite Hent; left; auto).
      apply filter_In in Hf. apply String.eqb_eq, Hf. }
  split; [|exact HN].
  assert (Hin_once : forall f, In f (filter (once all) all) <-> keyed_faces (face_hash f) all = [f]).
  { intros f. rewrite filter_In. unfold once, same_face. fold (keyed_faces (face_hash f) all). split.
    - intros [Hin Hl]. apply Nat.eqb_eq in Hl.
      assert (Hf : In f (keyed_faces (face_hash f) all)) by (apply filter_In; split; [auto|apply String.eqb_refl]).
      destruct (keyed_faces (face_hash f) all) as [|g [|g' r]]; try discriminate. destruct Hf as [->|[]]. reflexivity.
    - intros E. rewrite E. split; [|reflexivity].
      assert (Hf : In f (keyed_faces (face_hash f) all)) by (rewrite E; left; auto).
      apply filter_In in Hf. tauto. }
  apply NoDup_Permutation.
  - eapply NoDup_map_inv; exact HN.
  - (* no face with a unique hash occurs twice *)
    assert (G : forall l, (forall f, In f (filter (once all) l) -> (length (keyed_faces (face_hash f) l) <= 1)%nat) ->
       NoDup (filter (once all) l)).
    { induction l as [|f l IH]; simpl; intros Hl; [constructor|].
      destruct (once all f) eqn:E.
      - constructor.
        + intros Hin. specialize (Hl f (or_introl eq_refl)). unfold keyed_faces in Hl. simpl in Hl.
          rewrite String.eqb_refl in Hl. simpl in Hl. apply filter_In in Hin.
          assert (Hf : In f (filter (fun g => String.eqb (face_hash g) (face_hash f)) l))
            by (apply filter_In; split; [tauto|apply String.eqb_refl]).
          destruct (filter (fun g => String.eqb (face_hash g) (face_hash f)) l); [destruct Hf|simpl in Hl; lia].
        + apply IH. intros g Hg. specialize (Hl g (or_intror Hg)). unfold keyed_faces in *. simpl in Hl.
          destruct (String.eqb (face_hash f) (face_hash g)); simpl in Hl; lia.
      - apply IH. intros g Hg. specialize (Hl g Hg). unfold keyed_faces in *. simpl in Hl.
        destruct (String.eqb (face_hash f) (face_hash g)); simpl in Hl; lia. }
    apply G. intros f Hf. apply Hin_once in Hf. rewrite Hf. simpl. lia.
  - intros f. rewrite Hin_once. rewrite (polyhedron_In _ _ H). split.
    + intros (k & fc & Hin & Hc & Hr). apply Hper in Hin.
      specialize (Hent k fc f Hin Hc Hr).
      assert (Hf : In f (keyed_faces k all)) by (rewrite Hent; left; auto).
      apply filter_In in Hf. destruct Hf as [_ Hf]. apply String.eqb_eq in Hf. rewrite Hf. exact Hent.
    + intros E. specialize (Hinv (face_hash f)). rewrite E in Hinv. destruct Hinv as (fc & Hg & Hc & Hr).
      exists (face_hash f), fc. split; [|auto]. apply Hper. apply mget_In; auto.
Qed.
End Cavity.

(** ** independence of the iteration orders *)
Lemma once_perm l1 l2 f : Permutation l1 l2 -> once l1 f = once l2 f.
Proof.
  intros H. unfold once. f_equal. apply Permutation_length.
  induction H; simpl; auto; try (destruct (same_face f x); auto).
  - destruct (same_face f y); auto. apply perm_swap.
  - eapply perm_trans; eauto.
Qed.
Lemma filter_perm {T} (P : T -> bool) l1 l2 : Permutation l1 l2 -> Permutation (filter P l1) (filter P l2).
Proof.
  intros H. induction H; simpl; auto.
  - destruct (P x); auto.
  - destruct (P x), (P y); auto. apply perm_swap.
  - eapply perm_trans; eauto.
Qed.
Lemma flat_map_perm {S T} (f : S -> list T) l1 l2 : Permutation l1 l2 -> Permutation (flat_map f l1) (flat_map f l2).
Proof.
  intros H. induction H; simpl; auto.
  - apply Permutation_app_head. auto.
  - rewrite !app_assoc. apply Permutation_app_tail. apply Permutation_app_comm.
  - eapply perm_trans; eauto.
Qed.
Lemma mdel_filter {V} (m : gomap V) k : mdel m k = filter (fun x => negb (String.eqb k (fst x))) m.
Proof.
  induction m as [|[k' v] m IH]; simpl; [reflexivity|]. destruct (String.eqb k k'); simpl; congruence.
Qed.
Lemma fold_del_filter bad (t : tetrahedrisation) :
  fold_left (fun t b => mdel t (tetraHash b)) bad t =
  filter (fun x => negb (existsb (fun b => String.eqb (tetraHash b) (fst x)) bad)) t.
Proof.
  revert t. induction bad as [|b bad IH]; intros t; simpl.
  - induction t; simpl; congruence.
  - rewrite IH, mdel_filter. clear. induction t as [|x t IH]; simpl; [reflexivity|].
    destruct (String.eqb (tetraHash b) (fst x)); simpl; [exact IH|].
    destruct (existsb _ bad); simpl; congruence.
Qed.
Lemma existsb_perm {T} (P : T -> bool) l1 l2 : Permutation l1 l2 -> existsb P l1 = existsb P l2.
Proof.
  intros H. induction H; simpl; auto.
  - congruence.
  - destruct (P x), (P y); reflexivity.
  - congruence.
Qed.
Lemma mset_new {V} (m : gomap V) k v : ~ In k (map fst m) -> mset m k v = m ++ [(k, v)].
Proof.
  induction m as [|[k' v'] m IH]; simpl; intros H; [reflexivity|].
  destruct (String.eqb_spec k k') as [->|E]; [exfalso; auto|]. rewrite IH; auto.
Qed.
Lemma fold_add_app j poly (t : tetrahedrisation) :
  (forall k f, In f poly -> In k (map fst t) -> k <> tetraHash (connect f j)) ->
  NoDup (map face_hash poly) ->
  fold_left (fun t f => addTetra t (connect f j)) poly t =
  t ++ map (fun f => (tetraHash (connect f j), connect f j)) poly.
Proof.
  revert t. induction poly as [|f poly IH]; intros t Hk Hnd; simpl.
  - rewrite app_nil_r. reflexivity.
  - inversion Hnd as [|? ? Hn1 Hn2]; subst. unfold addTetra at 2.
    rewrite mset_new by (intros Hin; apply (Hk (tetraHash (connect f j)) f); simpl; auto).
    rewrite IH; [rewrite <- app_assoc; reflexivity| |exact Hn2].
    intros k g Hg Hin. rewrite map_app in Hin. apply in_app_iff in Hin. destruct Hin as [Hin|[<-|[]]].
    + apply Hk; simpl; auto.
    + simpl. intros E. apply tetraHash_inj in E. simpl in E. apply Hn1.
      apply in_map_iff. exists g. split; [|exact Hg].
      apply face_hash_iff. destruct E as (-> & -> & -> & _). apply Permutation_refl.
Qed.

Section Order.
Context {A : Arith}.
Lemma findBad_perm (points : list (vec A)) p l1 l2 : Permutation l1 l2 ->
  forall b1, findBad points p l1 = Ok b1 -> exists b2, findBad points p l2 = Ok b2 /\ Permutation b1 b2.
Proof.
  intros H. induction H; intros b1 Hb.
  - exists b1. auto.
  - destruct x as [k t]. cbn [findBad] in *.
    destruct (zget points (ia t)); try discriminate. destruct (zget points (ib t)); try discriminate.
    destruct (zget points (ic t)); try discriminate. destruct (zget points (id t)); try discriminate.
    cbn [rbind] in *. destruct (findBad points p l) as [r| |] eqn:E; try discriminate. cbn [rbind] in *.
    destruct (IHPermutation r eq_refl) as (r2 & -> & Hp). cbn [rbind].
    destruct (fle A _ _); injection Hb as <-; eexists; split; try reflexivity; auto.
  - destruct x as [kx tx], y as [ky ty]. cbn [findBad] in *.
    destruct (zget points (ia ty)); try discriminate. destruct (zget points (ib ty)); try discriminate.
    destruct (zget points (ic ty)); try discriminate. destruct (zget points (id ty)); try discriminate.
    cbn [rbind] in *.
    destruct (zget points (ia tx)); try discriminate. destruct (zget points (ib tx)); try discriminate.
    destruct (zget points (ic tx)); try discriminate. destruct (zget points (id tx)); try discriminate.
    cbn [rbind] in *.
    destruct (findBad points p l) as [r| |]; try discriminate. cbn [rbind] in *.
    repeat match type of Hb with context [fle A ?u ?v] => destruct (fle A u v); cbn [rbind] in * end;
    injection Hb as <-; eexists; split; try reflexivity; auto using perm_swap.
  - destruct (IHPermutation1 _ Hb) as (b2 & E2 & P2). destruct (IHPermutation2 _ E2) as (b3 & E3 & P3).
    exists b3. split; auto. eapply perm_trans; eauto.
Qed.

Definition inv (m : Z) (t : tetrahedrisation) : Prop := all_ok m t /\ keyed t.
Lemma insertPoint_full ordT ordF (points : list (vec A)) i p t :
  order_ok ordT -> order_ok ordF -> (0 <= i)%Z -> (i + 4 <= Z.of_nat (length points))%Z -> inv (i + 4) t ->
  exists bad poly, findBad points p (ordT t) = Ok bad /\
    Permutation poly (filter (once (flat_map faces bad)) (flat_map faces bad)) /\
    insertPoint ordT ordF points i p t =
      Ok (filter (fun x => negb (existsb (fun b => String.eqb (tetraHash b) (fst x)) bad)) t ++
          map (fun f => (tetraHash (connect f (i + 4)), connect f (i + 4))) poly).
Proof.
  intros HT HF Hi Hlen [Hok Hkey]. unfold insertPoint.
  destruct (findBad_ok points p (ordT t) (i + 4)) as (bad & E & Hbad); auto.
  { intros k v Hin. apply (Hok k). eapply Permutation_in; [apply Permutation_sym, HT|exact Hin]. }
  rewrite E. cbn [rbind].
  destruct (polyhedron_ok bad (ordF (faceSet_tetras [] 0 bad))) as (poly & Ep & Hpoly).
  { intros k fc Hin. apply (faceSet_tetras_ok bad [] bad []) with k; auto.
    - intros ? ? [].
    - eapply Permutation_in; [apply Permutation_sym, HF|exact Hin]. }
  rewrite Ep. cbn [rbind]. destruct (polyhedron_spec bad ordF poly HF Ep) as [Hperm Hnd].
  exists bad, poly. split; [reflexivity|]. split; [exact Hperm|]. f_equal.
  rewrite fold_add_app; [rewrite fold_del_filter; reflexivity| |exact Hnd].
  intros k f Hf Hin ->. apply in_map_iff in Hin. destruct Hin as ([k' v] & Ek & Hin). simpl in Ek.
  apply fold_del_In in Hin. rewrite (Hkey k' v Hin) in Ek. apply tetraHash_inj in Ek. simpl in Ek.
  destruct (Hok k' v Hin) as (_ & _ & _ & Hd & _). unfold idx in Hd. lia.
Qed.
Lemma insertPoint_inv ordT ordF (points : list (vec A)) i p t t' :
  order_ok ordT -> order_ok ordF -> (0 <= i)%Z -> (i + 4 <= Z.of_nat (length points))%Z -> inv (i + 4) t ->
  insertPoint ordT ordF points i p t = Ok t' -> inv (i + 5) t'.
Proof.
  intros HT HF Hi Hlen Hinv H. split.
  - destruct (insertPoint_ok ordT ordF points i p t HT HF Hi Hlen (proj1 Hinv)) as (t2 & E & Hok).
    rewrite E in H. injection H as <-. exact Hok.
  - destruct (insertPoint_full ordT ordF points i p t HT HF Hi Hlen Hinv) as (bad & poly & _ & _ & E).
    rewrite E in H. injection H as <-. intros k v Hin. apply in_app_iff in Hin. destruct Hin as [Hin|Hin].
    + apply filter_In in Hin. apply Hinv, Hin.
    + apply in_map_iff in Hin. destruct Hin as (f & [= <- <-] & _). reflexivity.
Qed.
Lemma inv_perm m t1 t2 : Permutation t1 t2 -> inv m t1 -> inv m t2.
Proof.
  intros P [H1 H2]. split; intros k v Hin; [apply (H1 k)|apply H2]; (eapply Permutation_in; [apply Permutation_sym, P|exact Hin]).
Qed.
Lemma insertPoint_order ordT ordF ordT' ordF' (points : list (vec A)) i p t1 t2 r1 :
  order_ok ordT -> order_ok ordF -> order_ok ordT' -> order_ok ordF' ->
  (0 <= i)%Z -> (i + 4 <= Z.of_nat (length points))%Z -> inv (i + 4) t1 -> Permutation t1 t2 ->
  insertPoint ordT ordF points i p t1 = Ok r1 ->
  exists r2, insertPoint ordT' ordF' points i p t2 = Ok r2 /\ Permutation r1 r2.
Proof.
  intros HT HF HT' HF' Hi Hlen Hinv P H.
  destruct (insertPoint_full ordT ordF points i p t1 HT HF Hi Hlen Hinv) as (b1 & p1 & E1 & P1 & R1).
  destruct (insertPoint_full ordT' ordF' points i p t2 HT' HF' Hi Hlen (inv_perm _ _ _ P Hinv)) as (b2 & p2 & E2 & P2 & R2).
  rewrite R1 in H. injection H as <-. eexists. split; [exact R2|].
  assert (PT : Permutation (ordT t1) (ordT' t2)).
  { eapply perm_trans; [apply Permutation_sym, HT|]. eapply perm_trans; [exact P|apply HT']. }
  destruct (findBad_perm points p _ _ PT b1 E1) as (b2' & E2' & Pb).
  rewrite E2 in E2'. injection E2' as <-.
  apply Permutation_app.
  - eapply perm_trans; [apply filter_perm; exact P|].
    erewrite filter_ext; [apply Permutation_refl|]. intros x. simpl. f_equal. apply existsb_perm. exact Pb.
  - apply Permutation_map. eapply perm_trans; [exact P1|]. eapply perm_trans; [|apply Permutation_sym; exact P2].
    pose proof (flat_map_perm faces _ _ Pb) as Pf.
    eapply perm_trans; [apply filter_perm; exact Pf|].
    erewrite filter_ext; [apply Permutation_refl|]. intros x. simpl. apply once_perm. exact Pf.
Qed.
Lemma insertAll_order ordT ordF ordT' ordF' (points : list (vec A)) :
  (forall n, order_ok (ordT n)) -> (forall n, order_ok (ordF n)) ->
  (forall n, order_ok (ordT' n)) -> (forall n, order_ok (ordF' n)) ->
  forall l k t1 t2 r1,
  (Z.of_nat k + 4 + Z.of_nat (length l) <= Z.of_nat (length points))%Z ->
  inv (Z.of_nat k + 4) t1 -> Permutation t1 t2 ->
  insertAll ordT ordF points k l t1 = Ok r1 ->
  exists r2, insertAll ordT' ordF' points k l t2 = Ok r2 /\ Permutation r1 r2.
Proof.
  intros HT HF HT' HF'. induction l as [|p l IH]; intros k t1 t2 r1 Hlen Hinv P H.
  - injection H as <-. exists t2. auto.
  - cbn [insertAll] in *. simpl length in Hlen.
    destruct (insertPoint (ordT k) (ordF k) points (Z.of_nat k) p t1) as [s1| |] eqn:E1; try discriminate.
    cbn [rbind] in H.
    destruct (insertPoint_order (ordT k) (ordF k) (ordT' k) (ordF' k) points (Z.of_nat k) p t1 t2 s1)
      as (s2 & -> & Ps); auto; try lia.
    cbn [rbind]. apply (IH (S k) s1 s2 r1); auto; try lia.
    replace (Z.of_nat (S k) + 4)%Z with (Z.of_nat k + 5)%Z by lia.
    eapply insertPoint_inv; [apply (HT k)|apply (HF k)| | |exact Hinv|exact E1]; lia.
Qed.
Definition faceTri (f : face) : Z * Z * Z := (pa f - 4, pb f - 4, pc f - 4)%Z.
Lemma meshFaces_flat l : meshFaces l =
  flatten (map faceTri (filter isPartOfMesh (flat_map (fun kt : string * tetra => faces (snd kt)) l))).
Proof.
  unfold meshFaces.
  assert (G1 : forall fl acc, fold_left (fun acc f => if isPartOfMesh f then addFace acc f else acc) fl acc =
      acc ++ flatten (map faceTri (filter isPartOfMesh fl))).
  { induction fl as [|f fl IH]; intros acc; simpl; [rewrite app_nil_r; reflexivity|].
    rewrite IH. destruct (isPartOfMesh f); [|reflexivity]. simpl. unfold addFace. rewrite <- app_assoc. reflexivity. }
  assert (G2 : forall l acc, fold_left (fun acc (kt : string * tetra) =>
      fold_left (fun acc f => if isPartOfMesh f then addFace acc f else acc) (faces (snd kt)) acc) l acc =
      acc ++ flatten (map faceTri (filter isPartOfMesh (flat_map (fun kt : string * tetra => faces (snd kt)) l)))).
  { clear l. induction l as [|x l IH]; intros acc; simpl; [rewrite app_nil_r; reflexivity|].
    rewrite IH, G1, filter_app, map_app, flatten_app, app_assoc. reflexivity. }
  apply (G2 l []).
Qed.
Lemma init_inv : inv 4 (addTetra [] (mktetra 0 1 2 3 [mkface 0 1 2; mkface 1 2 3; mkface 2 3 0; mkface 3 0 1])).
Proof.
  split; intros k v [[= <- <-]|[]]; [|reflexivity].
  unfold tetra_ok, idx. simpl. repeat split; try lia. repeat constructor; simpl; lia.
Qed.
Lemma bowyerWatson_order ordT ordF ordE ordT' ordF' ordE' (points : list (vec A)) r1 :
  (forall n, order_ok (ordT n)) -> (forall n, order_ok (ordF n)) -> order_ok ordE ->
  (forall n, order_ok (ordT' n)) -> (forall n, order_ok (ordF' n)) -> order_ok ordE' ->
  bowyerWatson ordT ordF ordE points = Ok r1 ->
  exists tris1 tris2, r1 = flatten tris1 /\
    bowyerWatson ordT' ordF' ordE' points = Ok (flatten tris2) /\ Permutation tris1 tris2.
Proof.
  intros HT HF HE HT' HF' HE' H. unfold bowyerWatson, englobe in *.
  destruct (computerInitialTetraPoints (findExtremas points)) as [[[p1 p2] p3] p4].
  destruct (insertAll ordT ordF ([p1; p2; p3; p4] ++ points) 0 points
     (addTetra [] (mktetra 0 1 2 3 [mkface 0 1 2; mkface 1 2 3; mkface 2 3 0; mkface 3 0 1]))) as [t1| |] eqn:E;
     try discriminate.
  cbn [rbind] in H. injection H as <-.
  destruct (insertAll_order ordT ordF ordT' ordF' ([p1; p2; p3; p4] ++ points) HT HF HT' HF' points 0%nat _
    (addTetra [] (mktetra 0 1 2 3 [mkface 0 1 2; mkface 1 2 3; mkface 2 3 0; mkface 3 0 1])) t1
    ltac:(rewrite app_length; simpl length; lia) init_inv (Permutation_refl _) E)
    as (t2 & -> & P).
  - cbn [rbind]. rewrite !meshFaces_flat. eexists _, _. split; [reflexivity|]. split; [reflexivity|].
    apply Permutation_map, filter_perm, flat_map_perm.
    eapply perm_trans; [apply Permutation_sym, HE|]. eapply perm_trans; [exact P|apply HE'].
Qed.
End Order.
