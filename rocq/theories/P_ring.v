(** Lists read as closed cycles. *)
From Coq Require Import ZArith Lia List Bool Permutation Reals Lra.
From Verif Require Import Spec_r3 Spec_plane P_polygon.
Import ListNotations.

Section Ring.
Context {T : Type}.
Implicit Types (l m R : list T) (x y z : T).

(** consecutive pairs of a list *)
Fixpoint pairs l : list (T * T) :=
  match l with
  | [] => []
  | x :: l' => match l' with [] => [] | y :: _ => (x, y) :: pairs l' end
  end.
Lemma pairs_cons2 x y l : pairs (x :: y :: l) = (x, y) :: pairs (y :: l).
Proof. reflexivity. Qed.
Lemma pairs_app l x m : pairs (l ++ x :: m) = pairs (l ++ [x]) ++ pairs (x :: m).
Proof.
  induction l as [|a l IH]; [reflexivity|].
  destruct l as [|b l]; [reflexivity|].
  simpl app in *. rewrite !pairs_cons2, IH. reflexivity.
Qed.
Lemma pairs_snoc l x y : pairs (l ++ [x; y]) = pairs (l ++ [x]) ++ [(x, y)].
Proof. rewrite (pairs_app l x [y]). reflexivity. Qed.
Lemma in_pairs l x y : In (x, y) (pairs l) <-> exists l1 l2, l = l1 ++ x :: y :: l2.
Proof.
  split.
  - induction l as [|a l IH]; [intros []|]. destruct l as [|b l]; [intros []|].
    rewrite pairs_cons2. intros [E|H].
    + injection E as -> ->. exists [], l. reflexivity.
    + destruct (IH H) as (l1 & l2 & E). exists (a :: l1), l2. rewrite E. reflexivity.
  - intros (l1 & l2 & ->). rewrite (pairs_app l1 x (y :: l2)). apply in_or_app. right. left. reflexivity.
Qed.
Lemma pairs_In l x y : In (x, y) (pairs l) -> In x l /\ In y l.
Proof.
  intros H. apply in_pairs in H. destruct H as (l1 & l2 & ->).
  split; apply in_or_app; right; simpl; auto.
Qed.

Lemma pe_pairs x l : polygon_edges (x :: l) = pairs (x :: l ++ [x]).
Proof.
  unfold polygon_edges.
  assert (G : forall m a, combine (a :: m) (m ++ [x]) = pairs (a :: m ++ [x])).
  { induction m as [|b m IH]; intros a; [reflexivity|].
    simpl app. rewrite pairs_cons2, <- IH. reflexivity. }
  apply G.
Qed.
Lemma pe_rot1 x l : Permutation (polygon_edges (x :: l)) (polygon_edges (l ++ [x])).
Proof.
  destruct l as [|y l]; [apply Permutation_refl|].
  simpl app. rewrite !pe_pairs. simpl app. rewrite pairs_cons2.
  replace (y :: (l ++ [x]) ++ [y]) with ((y :: l) ++ [x; y]) by (simpl; rewrite <- app_assoc; reflexivity).
  rewrite pairs_snoc. simpl app. apply Permutation_cons_append.
Qed.
Lemma pe_rot l m : Permutation (polygon_edges (l ++ m)) (polygon_edges (m ++ l)).
Proof.
  revert m. induction l as [|x l IH]; intros m.
  - rewrite app_nil_r. apply Permutation_refl.
  - simpl app. rewrite pe_rot1, <- app_assoc, IH, <- app_assoc. apply Permutation_refl.
Qed.
Lemma pe_length R : length (polygon_edges R) = length R.
Proof.
  destruct R as [|x l]; [reflexivity|]. unfold polygon_edges.
  rewrite combine_length, app_length. cbn [length]. lia.
Qed.
Lemma pe_In R x y : In (x, y) (polygon_edges R) -> In x R /\ In y R.
Proof.
  destruct R as [|a l]; [intros []|]. rewrite pe_pairs. intros H. apply pairs_In in H.
  destruct H as [H1 H2].
  assert (G : forall z, In z (a :: l ++ [a]) -> In z (a :: l)).
  { intros z [->|H]; [left; auto|]. apply in_app_or in H. destruct H as [H|[->|[]]]; simpl; auto. }
  auto.
Qed.
Lemma pe_head x l : exists y, In (x, y) (polygon_edges (x :: l)) /\ (l = [] /\ y = x \/ exists l', l = y :: l').
Proof.
  rewrite pe_pairs. destruct l as [|y l].
  - exists x. simpl. auto.
  - exists y. simpl. split; eauto.
Qed.
Lemma pe_succ R x : In x R -> exists y, In (x, y) (polygon_edges R).
Proof.
  intros H. apply in_split in H. destruct H as (l1 & l2 & ->).
  destruct (pe_head x (l2 ++ l1)) as (y & H & _). exists y.
  apply (Permutation_in _ (pe_rot (x :: l2) l1)). exact H.
Qed.
Lemma pe_pred R x : In x R -> exists y, In (y, x) (polygon_edges R).
Proof.
  intros H. apply in_split in H. destruct H as (l1 & l2 & ->).
  assert (G : exists y, In (y, x) (polygon_edges (x :: l2 ++ l1))).
  { rewrite pe_pairs. destruct (exists_last (l:=x :: l2 ++ l1)) as (m & z & E); [discriminate|].
    exists z. replace (x :: (l2 ++ l1) ++ [x]) with ((x :: l2 ++ l1) ++ [x]) by reflexivity.
    rewrite E, <- app_assoc. simpl app. rewrite pairs_snoc. apply in_or_app. right. left. reflexivity. }
  destruct G as (y & G). exists y.
  apply (Permutation_in _ (pe_rot (x :: l2) l1)). exact G.
Qed.
Lemma pe_fst_NoDup R : NoDup R -> NoDup (map fst (polygon_edges R)).
Proof.
  destruct R as [|x l]; [constructor|]. intros H.
  unfold polygon_edges.
  assert (G : forall (a b : list T), length a = length b -> map fst (combine a b) = a).
  { induction a as [|u a IH]; intros [|v b] E; try discriminate; [reflexivity|].
    simpl. rewrite IH; auto. }
  rewrite G; auto. rewrite app_length. simpl. lia.
Qed.
Lemma pe_snd_perm R : Permutation (map snd (polygon_edges R)) R.
Proof.
  destruct R as [|x l]; [constructor|]. unfold polygon_edges.
  assert (G : forall (a b : list T), length a = length b -> map snd (combine a b) = b).
  { induction a as [|u a IH]; intros [|v b] E; try discriminate; [reflexivity|].
    simpl. rewrite IH; auto. }
  rewrite G; [|rewrite app_length; simpl; lia].
  apply Permutation_sym, Permutation_cons_append.
Qed.
Lemma NoDup_fst_fun {U} (l : list (T * U)) (x : T) (y y' : U) :
  NoDup (map fst l) -> In (x, y) l -> In (x, y') l -> y = y'.
Proof.
  induction l as [|[a b] l IH]; [intros _ []|]. simpl. intros H H1 H2.
  apply NoDup_cons_iff in H. destruct H as [Hn H].
  destruct H1 as [E1|H1], H2 as [E2|H2].
  - congruence.
  - injection E1 as <- <-. exfalso. apply Hn. apply in_map_iff. exists (a, y'). auto.
  - injection E2 as <- <-. exfalso. apply Hn. apply in_map_iff. exists (a, y). auto.
  - auto.
Qed.
Lemma pe_succ_unique R x y y' : NoDup R ->
  In (x, y) (polygon_edges R) -> In (x, y') (polygon_edges R) -> y = y'.
Proof. intros H. apply NoDup_fst_fun. apply pe_fst_NoDup; auto. Qed.
Lemma NoDup_snd_fun {U} (l : list (U * T)) (x x' : U) (y : T) :
  NoDup (map snd l) -> In (x, y) l -> In (x', y) l -> x = x'.
Proof.
  induction l as [|[a b] l IH]; [intros _ []|]. simpl. intros H H1 H2.
  apply NoDup_cons_iff in H. destruct H as [Hn H].
  destruct H1 as [E1|H1], H2 as [E2|H2].
  - congruence.
  - injection E1 as <- <-. exfalso. apply Hn. apply in_map_iff. exists (x', b). auto.
  - injection E2 as <- <-. exfalso. apply Hn. apply in_map_iff. exists (x, b). auto.
  - auto.
Qed.
Lemma pe_pred_unique R x x' y : NoDup R ->
  In (x, y) (polygon_edges R) -> In (x', y) (polygon_edges R) -> x = x'.
Proof.
  intros H. apply NoDup_snd_fun. apply (Permutation_NoDup (Permutation_sym (pe_snd_perm R))). auto.
Qed.
(* a rotation that starts with x *)
Lemma rotate_to R x : In x R -> exists l,
  Permutation R (x :: l) /\ Permutation (polygon_edges R) (polygon_edges (x :: l)).
Proof.
  intros H. apply in_split in H. destruct H as (l1 & l2 & ->). exists (l2 ++ l1). split.
  - apply (Permutation_app_comm l1 (x :: l2)).
  - apply (pe_rot l1 (x :: l2)).
Qed.
(* a rotation that ends with x *)
Lemma rotate_to_last R x : In x R -> exists l,
  Permutation R (l ++ [x]) /\ Permutation (polygon_edges R) (polygon_edges (l ++ [x])).
Proof.
  intros H. destruct (rotate_to R x H) as (l & H1 & H2). exists l. split.
  - rewrite H1. apply Permutation_cons_append.
  - rewrite H2. apply pe_rot1.
Qed.
(* the edges of p :: c ++ [z] *)
Lemma pe_snoc x l z : polygon_edges (x :: l ++ [z]) = pairs (x :: l ++ [z]) ++ [(z, x)].
Proof.
  rewrite pe_pairs. replace (x :: (l ++ [z]) ++ [x]) with ((x :: l) ++ [z; x]) by (simpl; rewrite <- app_assoc; reflexivity).
  rewrite pairs_snoc. reflexivity.
Qed.
End Ring.

Lemma pairs_map {T U} (f : T -> U) l : pairs (map f l) = map (fun e => (f (fst e), f (snd e))) (pairs l).
Proof.
  induction l as [|x [|y l] IH]; [reflexivity..|].
  simpl map in *. rewrite pairs_cons2, IH. reflexivity.
Qed.
Lemma pe_map {T U} (f : T -> U) l :
  polygon_edges (map f l) = map (fun e => (f (fst e), f (snd e))) (polygon_edges l).
Proof.
  destruct l as [|x l]; [reflexivity|]. change (map f (x :: l)) with (f x :: map f l). rewrite !pe_pairs.
  rewrite <- (pairs_map f (x :: l ++ [x])). change (map f (x :: l ++ [x])) with (f x :: map f (l ++ [x])).
  rewrite map_app. reflexivity.
Qed.
