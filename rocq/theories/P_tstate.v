(** The state of the triangulator model seen as functions; the effect of the small operations. *)
From Coq Require Import ZArith Lia List Bool FunctionalExtensionality Permutation.
From Verif Require Import Base Arith GoLoop M_r3 M_tri2 M_triangulator Spec_plane P_polygon P_ring P_halfedge.
Import ListNotations.
Open Scope Z_scope.

Notation Ln l := (Z.of_nat (length l)).

Definition getz {X} (d : X) (l : list X) (i : Z) : X := if i <? 0 then d else nth (Z.to_nat i) l d.
Definition setz {X} (l : list X) (i : Z) (v : X) : list X := list_upd l (Z.to_nat i) v.
Definition updg {X} (f : Z -> X) (i : Z) (v : X) : Z -> X := fun j => if j =? i then v else f j.
Lemma updg_same {X} (f : Z -> X) i v : updg f i v i = v.
Proof. unfold updg. rewrite Z.eqb_refl. reflexivity. Qed.
Lemma updg_other {X} (f : Z -> X) i v j : j <> i -> updg f i v j = f j.
Proof. intros H. unfold updg. destruct (Z.eqb_spec j i); [contradiction|reflexivity]. Qed.
Lemma zget_getz {X} (d : X) l i : 0 <= i < Ln l -> zget l i = Ok (getz d l i).
Proof.
  intros H. unfold zget, getz. destruct (Z.ltb_spec i 0); [lia|].
  rewrite (nth_error_nth' l d); [reflexivity|lia].
Qed.
Lemma zset_setz {X} (l : list X) i v : 0 <= i < Ln l -> zset l i v = Ok (setz l i v).
Proof. apply zset_in_range. Qed.
Lemma setz_length {X} (l : list X) i v : length (setz l i v) = length l.
Proof. apply list_upd_length. Qed.
Lemma getz_setz {X} (d : X) l i v : 0 <= i < Ln l -> getz d (setz l i v) = updg (getz d l) i v.
Proof.
  intros H. apply functional_extensionality. intros j. unfold getz, setz, updg.
  destruct (Z.ltb_spec j 0).
  - destruct (Z.eqb_spec j i); [lia|reflexivity].
  - destruct (Z.eqb_spec j i) as [->|N].
    + apply nth_error_nth. apply list_upd_same. lia.
    + assert (N' : Z.to_nat i <> Z.to_nat j) by lia.
      pose proof (list_upd_other l (Z.to_nat i) (Z.to_nat j) v N') as E.
      destruct (Nat.lt_ge_cases (Z.to_nat j) (length l)) as [Hj|Hj].
      * rewrite (nth_error_nth' l d Hj) in E. apply nth_error_nth. exact E.
      * rewrite !nth_overflow; auto. rewrite list_upd_length. auto.
Qed.
Lemma getz_out {X} (d : X) l i : ~ (0 <= i < Ln l) -> getz d l i = d.
Proof.
  intros H. unfold getz. destruct (Z.ltb_spec i 0); [reflexivity|]. apply nth_overflow. lia.
Qed.
Lemma updg_upd (f : Z -> Z) i v : updg f i v = upd f i v.
Proof. reflexivity. Qed.
Lemma setz_get_nth {X} (d : X) l i v : 0 <= i < Ln l -> getz d (setz l i v) i = v.
Proof. intros H. rewrite getz_setz by auto. apply updg_same. Qed.

Definition TT (s : tri) : Z -> Z := getz 0 (triangles s).
Definition HH (s : tri) : Z -> Z := getz (-1) (halfedges s).
Definition NN (s : tri) : Z -> node := getz node0 (nodes s).
Definition NT (s : tri) : Z -> Z := fun k => nT (NN s k).

(** updN *)
Definition updS (s : tri) (k : Z) (f : node -> node) : tri := withNodes (setz (nodes s) k (f (NN s k))) s.
Lemma updN_ok s k f : 0 <= k < Ln (nodes s) -> updN s k f = Ok (updS s k f).
Proof.
  intros H. unfold updN, updS, NN. rewrite (zget_getz node0) by auto. simpl rbind. cbv beta.
  rewrite zset_setz by auto. reflexivity.
Qed.
Lemma getN_ok s k : 0 <= k < Ln (nodes s) -> getN s k = Ok (NN s k).
Proof. intros H. unfold getN, NN. apply zget_getz; auto. Qed.
Lemma NN_updS s k f : 0 <= k < Ln (nodes s) -> NN (updS s k f) = updg (NN s) k (f (NN s k)).
Proof. intros H. unfold NN, updS. simpl. apply getz_setz; auto. Qed.
Lemma len_updS s k f : length (nodes (updS s k f)) = length (nodes s).
Proof. apply setz_length. Qed.
Lemma NT_updS_T s k v : 0 <= k < Ln (nodes s) -> NT (updS s k (setT v)) = upd (NT s) k v.
Proof.
  intros H. apply functional_extensionality. intros j. unfold NT. rewrite NN_updS by auto.
  unfold updg, upd. destruct (j =? k); reflexivity.
Qed.

(** link *)
Definition linkS (s : tri) (a b : Z) : tri :=
  withHalfedges (if 0 <=? b then setz (setz (halfedges s) a b) b a else setz (halfedges s) a b) s.
Lemma link_ok s a b : 0 <= a < Ln (halfedges s) -> b < Ln (halfedges s) -> link s a b = Ok (linkS s a b).
Proof.
  intros Ha Hb. unfold link, linkS. rewrite zset_setz by auto. simpl rbind. cbv beta.
  destruct (Z.leb_spec 0 b).
  - rewrite zset_setz by (rewrite setz_length; lia). reflexivity.
  - reflexivity.
Qed.
Lemma HH_linkS s a b : 0 <= a < Ln (halfedges s) -> b < Ln (halfedges s) -> HH (linkS s a b) = flink (HH s) a b.
Proof.
  intros Ha Hb. unfold HH, linkS, flink. cbn [halfedges withHalfedges].
  destruct (Z.leb_spec 0 b).
  - rewrite getz_setz by (rewrite setz_length; lia). rewrite getz_setz by auto. reflexivity.
  - apply getz_setz; auto.
Qed.
Lemma len_linkS s a b : length (halfedges (linkS s a b)) = length (halfedges s).
Proof. unfold linkS. cbn [halfedges withHalfedges]. destruct (0 <=? b); rewrite ?setz_length; reflexivity. Qed.

(** the hull ring *)
Record ring (n : Z) (N : Z -> node) (R : list Z) : Prop := {
  rg_nd : NoDup R;
  rg_range : forall v, In v R -> 0 <= v < n;
  rg_i : forall v, In v R -> nI (N v) = v;
  rg_next : forall v w, In (v, w) (polygon_edges R) -> nNext (N v) = Some w;
  rg_prev : forall v w, In (v, w) (polygon_edges R) -> nPrev (N w) = Some v }.
Lemma ring_rot n N R R' : Permutation R R' -> Permutation (polygon_edges R) (polygon_edges R') ->
  ring n N R -> ring n N R'.
Proof.
  intros H1 H2 [A B C D E]. constructor.
  - apply (Permutation_NoDup H1); auto.
  - intros v Hv. apply B. apply (Permutation_in _ (Permutation_sym H1)); auto.
  - intros v Hv. apply C. apply (Permutation_in _ (Permutation_sym H1)); auto.
  - intros v w Hv. apply D. apply (Permutation_in _ (Permutation_sym H2)); auto.
  - intros v w Hv. apply E. apply (Permutation_in _ (Permutation_sym H2)); auto.
Qed.
Lemma ring_ext n N N' R : (forall v, In v R -> nI (N' v) = nI (N v) /\ nNext (N' v) = nNext (N v) /\ nPrev (N' v) = nPrev (N v)) ->
  ring n N R -> ring n N' R.
Proof.
  intros H [A B C D E]. constructor; auto.
  - intros v Hv. destruct (H v Hv) as (-> & _). auto.
  - intros v w Hv. destruct (pe_In _ _ _ Hv) as [Q _]. destruct (H v Q) as (_ & -> & _). auto.
  - intros v w Hv. destruct (pe_In _ _ _ Hv) as [_ Q]. destruct (H w Q) as (_ & _ & ->). auto.
Qed.
Lemma NoDup_range_length (l : list Z) n : NoDup l -> (forall v, In v l -> 0 <= v < Z.of_nat n) -> (length l <= n)%nat.
Proof.
  intros H1 H2.
  assert (I : incl l (map Z.of_nat (seq 0 n))).
  { intros v Hv. apply in_map_iff. exists (Z.to_nat v). specialize (H2 v Hv). split; [lia|]. apply in_seq. lia. }
  apply NoDup_incl_length in I; auto. rewrite map_length, seq_length in I. exact I.
Qed.
Lemma ring_length n N R : ring (Z.of_nat n) N R -> (length R <= n)%nat.
Proof. intros H. apply NoDup_range_length; [apply (rg_nd _ _ _ H)|apply (rg_range _ _ _ H)]. Qed.
Lemma next_of_ok s R v w : ring (Ln (nodes s)) (NN s) R -> In (v, w) (polygon_edges R) -> next_of s v = Ok w.
Proof.
  intros H Hv. destruct (pe_In _ _ _ Hv) as [Q _]. unfold next_of.
  rewrite getN_ok by (apply (rg_range _ _ _ H); auto). simpl. rewrite (rg_next _ _ _ H v w Hv). reflexivity.
Qed.
Lemma prev_of_ok s R v w : ring (Ln (nodes s)) (NN s) R -> In (v, w) (polygon_edges R) -> prev_of s w = Ok v.
Proof.
  intros H Hv. destruct (pe_In _ _ _ Hv) as [_ Q]. unfold prev_of.
  rewrite getN_ok by (apply (rg_range _ _ _ H); auto). simpl. rewrite (rg_prev _ _ _ H v w Hv). reflexivity.
Qed.
