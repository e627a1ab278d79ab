(** Property theorems C108, C109: bowyerWatson of package mesh against the textbook algorithm on sets. *)
From Coq Require Import String Reals Lra Lia ZArith Bool List Permutation.
From Flocq Require Import BinarySingleNaN.
From Verif Require Import Base Arith M_r3 M_predicates GoMap M_meshing Spec_r3 Spec_sphere Spec_mesh Spec_bw XRvec
  P_r3 P_predicates P_meshing P_meshorder P_meshgeom P_bw Props_meshing.
Import ListNotations.
Open Scope Z_scope.

(** C108: one insertion.  [inv2 m t]: the map is keyed by tetraHash without repetition, every entry lists its own four
    faces, and its indices are below m and different within each face *)
Theorem C108_insert {A : Arith} ordT ordF (points : list (vec A)) i p t :
  order_ok ordT -> order_ok ordF -> (0 <= i)%Z -> (i + 4 <= Z.of_nat (length points))%Z -> inv2 (i + 4) t ->
  exists t', insertPoint ordT ordF points i p t = Ok t' /\ inv2 (i + 5) t' /\
    bw_insert (violates points p) (i + 4) (holds t) (holds t').
Proof. exact (insertPoint_bw ordT ordF points i p t). Qed.
Print Assumptions C108_insert.
Theorem C108_bad {A : Arith} (points : list (vec A)) p (t : tetrahedrisation) m :
  (m <= Z.of_nat (length points))%Z -> inv2 m t ->
  exists bad, findBad points p t = Ok bad /\ NoDup bad /\
    forall v, In v bad <-> (exists k, In (k, v) t) /\
      fle A (fofZ A 0) (InSphereFast (nth (Z.to_nat (ia v)) points Zero) (nth (Z.to_nat (ib v)) points Zero)
        (nth (Z.to_nat (ic v)) points Zero) (nth (Z.to_nat (M_meshing.id v)) points Zero) p) = true.
Proof.
  intros Hm H. pose proof (inv2_nodup _ _ H) as N. destruct H as ((Hok & _) & _ & _).
  destruct (findBad_ok points p t m Hm Hok) as (bad & E & _). exists bad. destruct (findBad_spec points p t m bad Hm Hok E) as [B1 B2].
  split; [exact E|]. split; [apply B2; exact N|]. intros v. rewrite B1. split; intros [H1 H2]; split; try exact H2.
  - apply in_map_iff in H1. destruct H1 as ([k v'] & <- & H1). exists k. exact H1.
  - destruct H1 as (k & H1). apply in_map_iff. exists (k, v). auto.
Qed.
Print Assumptions C108_bad.
Example C108_nonvacuous : inv2 4 (addTetra [] (fst (englobe [zp 0 0 0; zp 4 0 0; zp 0 4 0; zp 0 0 4; zp 1 1 1]))).
Proof. exact init_inv2. Qed.

(** C109: the whole run *)
Theorem C109_run {A : Arith} ordT ordF ordE (points : list (vec A)) :
  (forall n, order_ok (ordT n)) -> (forall n, order_ok (ordF n)) -> order_ok ordE ->
  let all := snd (englobe points) in
  exists (T : list quad) tris, NoDup T /\
    bw_run (fun j => violates all (nth j points Zero)) 0 (length points) (fun q => q = (0, 1, 2, 3)) (fun q => In q T) /\
    bowyerWatson ordT ordF ordE points = Ok (flatten tris) /\
    Permutation tris (map renumber (filter outer (flat_map quad_faces T))).
Proof. exact (bowyerWatson_bw ordT ordF ordE points). Qed.
Print Assumptions C109_run.
(* the test in exact arithmetic: the closed circumsphere for tetrahedra of negative volume, the outside for
   positive volume, always for flat ones *)
Theorem C109_test (points : list rv) p a b c d o r2 :
  let P i := nth (Z.to_nat i) points rzero in
  (0 <= a < Z.of_nat (length points)) -> (0 <= b < Z.of_nat (length points)) -> (0 <= c < Z.of_nat (length points)) -> (0 <= d < Z.of_nat (length points)) ->
  circumsphere o r2 (P a) (P b) (P c) (P d) ->
  let bad := violates (A := XR) (map fv points) (fv p) (a, b, c, d) in
  ((signed_volume (P a) (P b) (P c) (P d) < 0)%R -> (bad <-> (rdist2 p o <= r2)%R)) /\
  ((signed_volume (P a) (P b) (P c) (P d) > 0)%R -> (bad <-> (r2 <= rdist2 p o)%R)) /\
  (signed_volume (P a) (P b) (P c) (P d) = 0%R -> bad).
Proof. exact (violates_geometry points p a b c d o r2). Qed.
Print Assumptions C109_test.
(* fewer than three points: an empty mesh, in every arithmetic *)
Theorem C109_small {A : Arith} ordT ordF ordE (points : list (vec A)) :
  (forall n, order_ok (ordT n)) -> (forall n, order_ok (ordF n)) -> order_ok ordE -> (length points <= 2)%nat ->
  bowyerWatson ordT ordF ordE points = Ok [].
Proof.
  intros HT HF HE L. destruct (C35_indices_valid ordT ordF ordE points HT HF HE) as (tris & E & H).
  destruct tris as [|[[a b] c] tris]; [exact E|]. exfalso. destruct (H a b c (or_introl eq_refl)) as (H1 & H2 & H3 & H4 & H5 & H6). lia.
Qed.
Print Assumptions C109_small.
(* the mesh of five points of C35_nonvacuous, and the tetrahedra behind it *)
Definition five : list (vec B64) := [zp 0 0 0; zp 4 0 0; zp 0 4 0; zp 0 0 4; zp 1 1 1].
Example C109_nonvacuous :
  match insertAll (fun _ => id_order) (fun _ => id_orderF) (snd (englobe five)) 0 five (addTetra [] (fst (englobe five))), bw five with
  | Ok t, Ok l => ((length l =? 3 * length (filter outer (flat_map quad_faces (map qof (map snd t)))))%nat && negb (length l =? 0)%nat)%bool
  | _, _ => false
  end = true.
Proof. vm_compute. reflexivity. Qed.
