(** Property theorem C159: accuracy of polygonArea, Triangulation.area and polygonPerimeter in binary64. *)
From Coq Require Import Reals Lra Lia ZArith Bool List.
From Flocq Require Import Core BinarySingleNaN.
From Verif Require Import Base Arith M_r3 M_tri2 M_triangulator Spec_r3 Spec_plane Spec_delaunay Spec_acc64 Spec_sum64 XRvec P_polygon P_insphere_err P_insphere_b64 P_acc64 P_sum64 Props_grid Props_acc64.
Import ListNotations.
Open Scope R_scope.

(** ** C159 *)
(* the shoelace area of n vertices: n + 3 roundings relative to the sum of the absolute values of the terms *)
Theorem C159_polygonArea (vs : list (vec B64)) : (forall v, In v vs -> tame_xy v) -> (Z.of_nat (length vs) <= 2 ^ 49)%Z ->
  exists x : B64, polygonArea vs = Ok x /\ accurate x (shoelace (values vs)) (polygon_terms (values vs)) (length vs + 3).
Proof. intros Hv Hn. destruct (polygonArea_acc vs Hv Hn) as (x & E & A). exists x. split; [exact E|]. rewrite Nat.add_comm. exact (acc_accurate _ _ _ _ _ _ A). Qed.
Print Assumptions C159_polygonArea.
(* the area of k triangles *)
Theorem C159_triArea (vs h : list (vec B64)) T H (k : nat) : (forall v, In v vs -> tame_xy v) -> length T = (3 * k)%nat ->
  (forall v, In v T -> (0 <= v < Z.of_nat (length vs))%Z) -> (Z.of_nat k <= 2 ^ 49)%Z ->
  exists x : B64, tri_area (mkTriangulation vs h T H) = Ok x /\
    accurate x (Rsum (map (area3 (values vs)) (triples T))) (triangle_terms (values vs) T) (k + 4).
Proof. intros Hv E Rg Hk. destruct (tri_area_acc vs h T H k Hv E Rg Hk) as (x & E' & A). exists x. split; [exact E'|]. rewrite Nat.add_comm. exact (acc_accurate _ _ _ _ _ _ A). Qed.
Print Assumptions C159_triArea.
(* the perimeter has a small relative error *)
Theorem C159_perimeter (vs : list (vec B64)) : (forall v, In v vs -> tame_vec v) -> (Z.of_nat (length vs) <= 2 ^ 49)%Z ->
  exists x : B64, polygonPerimeter vs = Ok x /\ accurate x (perimeter3 (values vs)) (perimeter3 (values vs)) (length vs + 6) /\
    ((Z.of_nat (length vs) <= 2 ^ 26 - 6)%Z -> Rabs (B2R (x : b64) - perimeter3 (values vs)) <= (INR (length vs) + 7) / 2 ^ 53 * perimeter3 (values vs)).
Proof.
  intros Hv Hn. destruct (perimeter_acc vs Hv Hn) as (x & E & A). exists x. split; [exact E|]. rewrite Nat.add_comm. pose proof (acc_accurate _ _ _ _ _ _ A) as Q. split; [exact Q|].
  intros Hs. destruct Q as (_ & B & _). eapply Rle_trans; [exact B|]. apply Rmult_le_compat_r; [exact (acc_p _ _ _ _ _ _ A)|].
  eapply Rle_trans; [apply gamma_lin; lia|]. rewrite plus_INR. apply Req_le. simpl (INR 6). field.
Qed.
Print Assumptions C159_perimeter.
Theorem C159_distance (a b : vec B64) : tame_vec a -> tame_vec b -> accurate (Distance a b) (rdist (rvec a) (rvec b)) (rdist (rvec a) (rvec b)) 6.
Proof. intros Ha Hb. exact (acc_accurate _ _ _ _ _ _ (proj1 (dist_acc a b Ha Hb))). Qed.
Print Assumptions C159_distance.

(** a pentagon with 53-bit coordinates: 0.1, 0.2, ... are not multiples of a common small power of two *)
Definition qv (a b : Z) : vec B64 := mkvec (fdiv B64 (fofZ B64 a) (fofZ B64 10)) (fdiv B64 (fofZ B64 b) (fofZ B64 10)) (fofZ B64 0).
Definition penta : list (vec B64) := [qv 1 2; qv 37 3; qv 59 41; qv 22 83; qv (-7) 29].
Example C159_nonvacuous : (forall v, In v penta -> tame_vec v) /\ (Z.of_nat (length penta) <= 2 ^ 49)%Z /\
  match polygonArea penta with Ok x => fle B64 (fofZ B64 20) x && fle B64 x (fofZ B64 40) | _ => false end = true /\
  match polygonPerimeter penta with Ok x => fle B64 (fofZ B64 20) x && fle B64 x (fofZ B64 24) | _ => false end = true /\
  match tri_area (mkTriangulation penta penta [0; 2; 1; 0; 3; 2; 0; 4; 3]%Z []) with Ok x => fle B64 (fofZ B64 20) x && fle B64 x (fofZ B64 40) | _ => false end = true.
Proof.
  split; [|split; [discriminate|split; [|split]; vm_compute; reflexivity]].
  intros v H. repeat (destruct H as [<-|H]; [split; [|split]; apply tame_chk_ok; vm_compute; reflexivity|]). destruct H.
Qed.
