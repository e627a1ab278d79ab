(** What the bounds of C176 speak about, independently of the model's helpers. *)
From Coq Require Import ZArith List Bool.
Import ListNotations.

(** in how many places two lists of the same length differ *)
Definition differ (l l' : list Z) : nat := length (filter (fun q => negb (fst q =? snd q)%Z) (combine l l')).
(** tests for [n] points ending in a mesh of [t] triangles: at least one for every triangle but the first, at most 2 (n-1) (n-3) *)
Definition test_budget (n : nat) (t : Z) (k : nat) : Prop :=
  (t - 1 <= Z.of_nat k <= Z.max 0 (2 * (Z.of_nat n - 1) * (Z.of_nat n - 3)))%Z.
