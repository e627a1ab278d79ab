(** Shared vocabulary of the model: results of Go computations.

    [Ok a]    the Go code returns [a];
    [Panic]   the Go code panics (index out of range, nil dereference, explicit
              panic(...));
    [Diverge] the fuel given to a loop/recursion ran out.  Positive theorems
              always exclude it, non-termination theorems show it for every
              fuel. *)
From Coq Require Import ZArith List Lia Bool.
Import ListNotations.

Inductive res (A : Type) : Type :=
| Ok (a : A)
| Panic
| Diverge.
Arguments Ok {A} a.
Arguments Panic {A}.
Arguments Diverge {A}.

Definition rbind {A B} (m : res A) (f : A -> res B) : res B :=
  match m with
  | Ok a => f a
  | Panic => Panic
  | Diverge => Diverge
  end.

Declare Scope res_scope.
Delimit Scope res_scope with res.
Notation "'let!' x ':=' m 'in' k" := (rbind m (fun x => k))
  (at level 200, x pattern, m at level 100, k at level 200, right associativity) : res_scope.

(** Checked slice read [s[i]] and write [s[i] = v] at a Go [int] index. *)
Definition zget {A} (l : list A) (i : Z) : res A :=
  if (i <? 0)%Z then Panic
  else match nth_error l (Z.to_nat i) with
       | Some a => Ok a
       | None => Panic
       end.

Fixpoint list_upd {A} (l : list A) (i : nat) (a : A) : list A :=
  match l, i with
  | [], _ => []
  | _ :: l', O => a :: l'
  | x :: l', S i' => x :: list_upd l' i' a
  end.

Definition zset {A} (l : list A) (i : Z) (a : A) : res (list A) :=
  if (i <? 0)%Z then Panic
  else if (Z.to_nat i <? length l)%nat then Ok (list_upd l (Z.to_nat i) a)
  else Panic.

Definition is_ok {A} (r : res A) : bool := match r with Ok _ => true | _ => false end.
Definition is_panic {A} (r : res A) : bool := match r with Panic => true | _ => false end.

(** ** Facts about checked access *)
Lemma list_upd_length {A} (l : list A) i a : length (list_upd l i a) = length l.
Proof. revert i; induction l as [|x l IH]; intros [|i]; simpl; auto. Qed.

Lemma list_upd_same {A} (l : list A) i a :
  (i < length l)%nat -> nth_error (list_upd l i a) i = Some a.
Proof.
  revert i; induction l as [|x l IH]; intros [|i]; simpl; intros H; try lia; auto.
  apply IH; lia.
Qed.

Lemma list_upd_other {A} (l : list A) i j a :
  i <> j -> nth_error (list_upd l i a) j = nth_error l j.
Proof.
  revert i j; induction l as [|x l IH]; intros [|i] [|j]; simpl; intros H; auto; try lia.
  all: try (apply IH; lia).
Qed.

Lemma zget_ok {A} (l : list A) (i : Z) a :
  zget l i = Ok a <-> (0 <= i)%Z /\ nth_error l (Z.to_nat i) = Some a.
Proof.
  unfold zget; destruct (Z.ltb_spec i 0).
  - split; [discriminate|]; intros [? _]; lia.
  - destruct (nth_error l (Z.to_nat i)) eqn:E; split; try discriminate.
    + intros [= ->]; auto.
    + intros [_ [= ->]]; auto.
    + intros [_ ?]; discriminate.
Qed.

Lemma zget_nat {A} (l : list A) (i : nat) :
  zget l (Z.of_nat i) = match nth_error l i with Some a => Ok a | None => Panic end.
Proof.
  unfold zget; destruct (Z.ltb_spec (Z.of_nat i) 0); [lia|].
  now rewrite Nat2Z.id.
Qed.

Lemma zget_in_range {A} (l : list A) (i : Z) :
  (0 <= i < Z.of_nat (length l))%Z -> exists a, zget l i = Ok a.
Proof.
  intros [H1 H2]; unfold zget; destruct (Z.ltb_spec i 0); [lia|].
  destruct (nth_error l (Z.to_nat i)) eqn:E; eauto.
  apply nth_error_None in E; lia.
Qed.

Lemma zset_in_range {A} (l : list A) (i : Z) a :
  (0 <= i < Z.of_nat (length l))%Z -> zset l i a = Ok (list_upd l (Z.to_nat i) a).
Proof.
  intros [H1 H2]; unfold zset; destruct (Z.ltb_spec i 0); [lia|].
  destruct (Nat.ltb_spec (Z.to_nat i) (length l)); [auto|lia].
Qed.
