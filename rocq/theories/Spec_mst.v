(** Specification side: networks of straight links between the vertices of a triangulation, and shortest ones. *)
From Coq Require Import ZArith List Reals.
From Verif Require Import Spec_r3 Spec_plane Spec_delaunay Spec_delaunay2.
Import ListNotations.
Open Scope R_scope.

(** one can go from u to v along the links, in either direction *)
Inductive linked (L : list (Z * Z)) : Z -> Z -> Prop :=
| linked_nil u : linked L u u
| linked_cons u w v : In (u, w) L \/ In (w, u) L -> linked L w v -> linked L u v.
(** the links of [L] are between vertices and connect all of them *)
Definition network (T : list Z) (L : list (Z * Z)) : Prop :=
  (forall u v, In (u, v) L -> In u T /\ In v T) /\ forall u v, In u T -> In v T -> linked L u v.
(** what a link of squared length x costs: not negative, and no less for longer links *)
Definition growing (f : R -> R) : Prop := (forall x, 0 <= x -> 0 <= f x) /\ forall x y, 0 <= x <= y -> f x <= f y.
Definition cost (pts : list rv) (f : R -> R) (L : list (Z * Z)) : R := fold_right (fun e s => f (d2 pts (fst e) (snd e)) + s) 0 L.
(** every link is an edge of a triangle *)
Definition of_edges (T : list Z) (M : list (Z * Z)) : Prop := forall u v, In (u, v) M -> joined T u v.
(** no link can be left out *)
Definition spare (T : list Z) (M : list (Z * Z)) : Prop := forall e K K', M = K ++ e :: K' -> ~ network T (K ++ K').
(** any network can be replaced by edges of triangles, no more of them and no longer; and some network of edges of
    triangles, with no link to spare, is at least as cheap as all networks *)
Definition has_shortest_networks (pts : list rv) (T : list Z) : Prop :=
  (forall L, network T L -> exists M, network T M /\ of_edges T M /\ (length M <= length L)%nat /\ forall f, growing f -> cost pts f M <= cost pts f L) /\
  (forall f, growing f -> exists M, network T M /\ of_edges T M /\ spare T M /\ forall L, network T L -> cost pts f M <= cost pts f L).
