(** Go maps with string keys, as association lists with unique keys.
    Iteration order is not part of the map: every [range] over a map takes an
    order oracle [ord], a function returning some rearrangement of the entries. *)
From Coq Require Import List Ascii String Permutation Lia ZArith.
From Coq Require Import Decimal DecimalString DecimalZ DecimalFacts.
Import ListNotations.
Local Open Scope string_scope.

Section GoMap.
Context {V : Type}.
Definition gomap := list (string * V).
(* v, ok := m[k] *)
Fixpoint mget (m : gomap) (k : string) : option V :=
  match m with
  | [] => None
  | (k', v) :: m' => if String.eqb k k' then Some v else mget m' k
  end.
(* m[k] = v *)
Fixpoint mset (m : gomap) (k : string) (v : V) : gomap :=
  match m with
  | [] => [(k, v)]
  | (k', v') :: m' => if String.eqb k k' then (k, v) :: m' else (k', v') :: mset m' k v
  end.
(* delete(m, k) *)
Fixpoint mdel (m : gomap) (k : string) : gomap :=
  match m with
  | [] => []
  | (k', v') :: m' => if String.eqb k k' then mdel m' k else (k', v') :: mdel m' k
  end.
(* the orders in which range may visit the entries *)
Definition order_ok (ord : gomap -> gomap) : Prop := forall m, Permutation m (ord m).

Lemma mget_mset_same m k v : mget (mset m k v) k = Some v.
Proof.
  induction m as [|[k' v'] m IH]; simpl.
  - rewrite String.eqb_refl. reflexivity.
  - destruct (String.eqb k k') eqn:E; simpl.
    + rewrite String.eqb_refl. reflexivity.
    + rewrite E. exact IH.
Qed.
Lemma mget_mset_other m k k2 v : k2 <> k -> mget (mset m k v) k2 = mget m k2.
Proof.
  intros H. induction m as [|[k' v'] m IH]; simpl.
  - apply String.eqb_neq in H. rewrite H. reflexivity.
  - destruct (String.eqb_spec k k'); simpl.
    + subst. apply String.eqb_neq in H. rewrite H. reflexivity.
    + rewrite IH. reflexivity.
Qed.
Lemma mset_In m k v x : In x (mset m k v) -> x = (k, v) \/ In x m.
Proof.
  induction m as [|[k' v'] m IH]; simpl; [intuition|].
  destruct (String.eqb k k'); simpl; intuition.
Qed.
Lemma mset_In_new m k v : In (k, v) (mset m k v).
Proof.
  induction m as [|[k' v'] m IH]; simpl; auto.
  destruct (String.eqb k k'); simpl; auto.
Qed.
Lemma mdel_In m k x : In x (mdel m k) <-> In x m /\ fst x <> k.
Proof.
  induction m as [|[k' v'] m IH]; simpl; [tauto|].
  destruct (String.eqb_spec k k') as [->|H]; simpl; rewrite IH.
  - split; [tauto|]. intros [[<-|?] Hx]; simpl in *; [congruence|tauto].
  - split; [intros [<-|?]; simpl; intuition congruence|tauto].
Qed.
Lemma mset_keys m k v : NoDup (map fst m) -> NoDup (map fst (mset m k v)).
Proof.
  induction m as [|[k' v'] m IH]; simpl; intros H.
  - constructor; auto.
  - inversion H; subst. destruct (String.eqb_spec k k') as [->|E]; simpl; [constructor; auto|].
    constructor; auto. intros Hin. apply in_map_iff in Hin. destruct Hin as ([k2 v2] & Ek & Hin).
    apply mset_In in Hin. simpl in Ek. subst k2. destruct Hin as [[= <- <-]|Hin]; [congruence|].
    apply H2. apply in_map_iff. exists (k', v2). auto.
Qed.
Lemma mdel_keys m k : NoDup (map fst m) -> NoDup (map fst (mdel m k)).
Proof.
  induction m as [|[k' v'] m IH]; simpl; intros H; [constructor|].
  inversion H; subst. destruct (String.eqb_spec k k') as [->|E]; simpl; auto.
  constructor; auto. intros Hin. apply in_map_iff in Hin. destruct Hin as (x & Ek & Hin).
  apply mdel_In in Hin. apply H2. apply in_map_iff. exists x. tauto.
Qed.
Lemma mget_In m k v : NoDup (map fst m) -> (mget m k = Some v <-> In (k, v) m).
Proof.
  induction m as [|[k' v'] m IH]; simpl; intros H; [intuition discriminate|].
  inversion H; subst. destruct (String.eqb_spec k k') as [->|E].
  - split; [intros [= ->]; auto|]. intros [[= ->]|Hin]; auto.
    exfalso. apply H2. apply in_map_iff. exists (k', v). auto.
  - rewrite IH by auto. split; [auto|]. intros [[= -> ->]|Hin]; [congruence|auto].
Qed.
End GoMap.
Arguments gomap V : clear implicits.

(* strconv.Itoa *)
Definition Itoa (z : Z) : string := NilZero.string_of_int (Z.to_int z).

Lemma Itoa_inj a b : Itoa a = Itoa b -> a = b.
Proof.
  unfold Itoa. intros H.
  assert (G : forall z, NilZero.int_of_string (NilZero.string_of_int (Z.to_int z)) = Some (Z.to_int z)).
  { intros z. apply NilZero.isi.
    - destruct z; simpl; try discriminate. intros [= E].
      destruct (Pos.to_uint p) eqn:Ep; try discriminate.
      apply (f_equal Pos.of_uint) in Ep. rewrite DecimalPos.Unsigned.of_to in Ep. discriminate.
    - destruct z; simpl; try discriminate. intros [= E].
      destruct (Pos.to_uint p) eqn:Ep; try discriminate.
      apply (f_equal Pos.of_uint) in Ep. rewrite DecimalPos.Unsigned.of_to in Ep. discriminate. }
  apply (f_equal NilZero.int_of_string) in H. rewrite !G in H. injection H as H.
  rewrite <- (DecimalZ.of_to a), <- (DecimalZ.of_to b). congruence.
Qed.

Fixpoint nodot (s : string) : bool :=
  match s with
  | EmptyString => true
  | String c s' => negb (Ascii.eqb c "."%char) && nodot s'
  end.
Lemma nodot_uint d : nodot (NilEmpty.string_of_uint d) = true.
Proof. induction d; simpl; auto. Qed.
Lemma nodot_Itoa z : nodot (Itoa z) = true.
Proof.
  unfold Itoa, NilZero.string_of_int, NilZero.string_of_uint.
  destruct (Z.to_int z) as [d|d]; destruct d; simpl; auto using nodot_uint.
Qed.
Lemma dot_split a b a' b' : nodot a = true -> nodot a' = true ->
  a ++ "." ++ b = a' ++ "." ++ b' -> a = a' /\ b = b'.
Proof.
  revert a'. induction a as [|c a IH]; intros [|c' a'] H H' E; simpl in *.
  - injection E as E. auto.
  - injection E as <- E. simpl in H'. discriminate.
  - injection E as -> E. simpl in H. discriminate.
  - injection E as <- E. apply andb_prop in H, H'. destruct (IH a') as [-> ->]; tauto.
Qed.
