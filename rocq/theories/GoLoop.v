(** Go loops with an int counter, make, and element access in slices of slices. *)
From Coq Require Import ZArith List Bool.
From Verif Require Import Base.
Import ListNotations.
Open Scope res_scope.

(** for i := lo; i < lo + count; i++ *)
Fixpoint for_ {S} (count : nat) (i : Z) (s : S) (body : Z -> S -> res S) : res S :=
  match count with
  | O => Ok s
  | Datatypes.S k => let! s' := body i s in for_ k (i + 1)%Z s' body
  end.
(** for i := lo; i <= hi; i++ *)
Definition forTo {S} (lo hi : Z) (s : S) (body : Z -> S -> res S) : res S :=
  for_ (Z.to_nat (hi - lo + 1)) lo s body.
(** make([]T, n) *)
Definition make {T} (n : Z) (x : T) : res (list T) :=
  if (n <? 0)%Z then Panic else Ok (repeat x (Z.to_nat n)).
(** s[i][j] and s[i][j] = x *)
Definition get2 {T} (s : list (list T)) (i j : Z) : res T := let! row := zget s i in zget row j.
Definition set2 {T} (s : list (list T)) (i j : Z) (x : T) : res (list (list T)) :=
  let! row := zget s i in let! row' := zset row j x in zset s i row'.

