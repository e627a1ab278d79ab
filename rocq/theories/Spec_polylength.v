(** Specification side: the length of a broken line. *)
From Coq Require Import Reals List.
From Verif Require Import Spec_r3.
Import ListNotations.
Open Scope R_scope.

Fixpoint poly_length (l : list rv) : R :=
  match l with a :: l' => (match l' with b :: _ => rdist a b | [] => 0 end) + poly_length l' | [] => 0 end.
(** parameters in order *)
Fixpoint increasing (us : list R) : Prop :=
  match us with u :: us' => (match us' with v :: _ => u <= v | [] => True end) /\ increasing us' | [] => True end.
