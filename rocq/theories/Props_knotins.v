(** Property theorems C145-C147: knot insertion, variation diminution, convexity of curvePoint. *)
From Coq Require Import Reals Lra Lia ZArith List Bool Sorted.
From Verif Require Import Base Arith M_r3 Spec_r3 XRvec M_nurbs Spec_nurbs P_nurbs P_nurbs2 Spec_spline P_spline P_spline2 P_spline3 Spec_knotins P_knotins.
Import ListNotations.
Open Scope R_scope.

(** ** C145 *)
(** Inserting a knot with Boehm's control points does not change any point of the curve. *)
Theorem C145_knot_insertion U P n p s x u fuel fuel' : curve_data U P n p -> (p <= s <= n)%Z -> knot U s <= IZR x < knot U (s + 1) ->
  in_domain U n p u -> (Z.to_nat (n + 1 - p) <= fuel)%nat -> (Z.to_nat (n + 2 - p) <= fuel')%nat ->
  curve_data (insert_after s x U) (boehm U P n p s x) (n + 1) p /\
  exists C, curvePoint fuel n p U (map fv P) (Fin u : XR) = Ok (fv C) /\
    curvePoint fuel' (n + 1) p (insert_after s x U) (map fv (boehm U P n p s x)) (Fin u : XR) = Ok (fv C).
Proof.
  intros D Hs Hx Hu Hf Hf'. split; [apply insert_data; auto|].
  destruct (curve_some U P n p u fuel D Hu Hf) as (i & _ & E). exists (dbpoint U P p i u). split; [exact E|].
  rewrite (insert_curve U P n p s x D Hs Hx u fuel fuel') by auto. exact E.
Qed.
Print Assumptions C145_knot_insertion.
(** the parabola with knots 0 0 0 2 2 2, cut at 1 *)
Definition U6 : list Z := [0; 0; 0; 2; 2; 2]%Z.
Definition P3 : list rv := [RV 0 0 0; RV 1 0 0; RV 4 0 0].
Lemma U6_data : curve_data U6 P3 2 2.
Proof.
  split; [|cbn; lia]. intros a b Hab Hb. cbn in Hb. unfold knot. apply IZR_le.
  assert (E : (a = 0 \/ a = 1 \/ a = 2 \/ a = 3 \/ a = 4 \/ a = 5)%Z) by lia.
  assert (E' : (b = 0 \/ b = 1 \/ b = 2 \/ b = 3 \/ b = 4 \/ b = 5)%Z) by lia.
  unfold U6. destruct E as [->|[->|[->|[->|[->| ->]]]]], E' as [->|[->|[->|[->|[->| ->]]]]]; first [lia | vm_compute; discriminate].
Qed.
Lemma U6_domain u : 0 <= u <= 2 -> in_domain U6 2 2 u.
Proof. intros H. unfold in_domain. change (knot U6 2) with 0. change (knot U6 (2 + 1)) with 2. split; [lra|intros; lra]. Qed.
Example C145_nonvacuous : curve_data U6 P3 2 2 /\ knot U6 2 <= IZR 1 < knot U6 (2 + 1) /\ in_domain U6 2 2 (1 / 2) /\
  insert_after 2 1%Z U6 = [0; 0; 0; 1; 2; 2; 2]%Z /\
  boehm U6 P3 2 2 2 1 = [RV 0 0 0; RV (1 / 2) 0 0; RV (5 / 2) 0 0; RV 4 0 0].
Proof.
  split; [exact U6_data|]. split; [change (knot U6 2) with 0; change (knot U6 (2 + 1)) with 2; lra|]. split; [apply U6_domain; lra|].
  split; [reflexivity|].
  change (boehm U6 P3 2 2 2 1) with [boehm_point U6 P3 2 2 1 0; boehm_point U6 P3 2 2 1 1; boehm_point U6 P3 2 2 1 2; boehm_point U6 P3 2 2 1 3].
  assert (E1 : boehm_point U6 P3 2 2 1 1 = RV (1 / 2) 0 0).
  { change (boehm_point U6 P3 2 2 1 1) with (radd (rscale ((1 - 0) / (2 - 0)) (RV 1 0 0)) (rscale (1 - (1 - 0) / (2 - 0)) (RV 0 0 0))).
    apply rv_ext; cbn [radd rscale rx ry rz]; field. }
  assert (E2 : boehm_point U6 P3 2 2 1 2 = RV (5 / 2) 0 0).
  { change (boehm_point U6 P3 2 2 1 2) with (radd (rscale ((1 - 0) / (2 - 0)) (RV 4 0 0)) (rscale (1 - (1 - 0) / (2 - 0)) (RV 1 0 0))).
    apply rv_ext; cbn [radd rscale rx ry rz]; field. }
  rewrite E1, E2. reflexivity.
Qed.

(** ** C146 *)
(** Variation diminution: points of the curve that lie alternately on the two sides of a plane are matched, in order,
    by control points on the same sides. *)
Theorem C146_variation U P n p fuel w h us Cs : curve_data U P n p -> (Z.to_nat (n + 1 - p) <= fuel)%nat ->
  StronglySorted Rlt us -> Forall (in_domain U n p) us ->
  Forall2 (fun u C => curvePoint fuel n p U (map fv P) (Fin u : XR) = Ok (fv C)) us Cs ->
  alternating (map (side w h) Cs) ->
  exists ks, Forall (fun k => 0 <= k <= n)%Z ks /\ StronglySorted Z.lt ks /\
    Forall2 (fun C k => 0 < side w h C * side w h (ctrl P k)) Cs ks.
Proof. exact (curve_variation U P n p fuel w h us Cs). Qed.
Print Assumptions C146_variation.
(** three points of the parabola x = 4 (u - 1)^2 around the plane x = 1 *)
Example C146_nonvacuous : let P := [RV 4 0 0; RV (-4) 0 0; RV 4 0 0] in exists us Cs, curve_data U6 P 2 2 /\ length us = 3%nat /\
  StronglySorted Rlt us /\ Forall (in_domain U6 2 2) us /\
  Forall2 (fun u C => curvePoint 1 2 2 U6 (map fv P) (Fin u : XR) = Ok (fv C)) us Cs /\
  alternating (map (side (RV 1 0 0) 1) Cs).
Proof.
  cbv zeta. set (P := [RV 4 0 0; RV (-4) 0 0; RV 4 0 0]). assert (D : curve_data U6 P 2 2) by (destruct U6_data as (A & B); split; [exact A|exact B]).
  assert (S : forall u, 0 <= u <= 2 -> span_of U6 2 2 u 2) by (intros u Hu; unfold span_of; change (knot U6 2) with 0; change (knot U6 (2 + 1)) with 2; repeat split; try lia; try lra; intros; lra).
  assert (E : forall u, 0 <= u <= 2 -> dbpoint U6 P 2 2 u = RV (4 * (u - 1) * (u - 1)) 0 0).
  { intros u Hu. unfold dbpoint. change (Z.to_nat 2) with 2%nat.
    assert (G : forall c, deboor (knot U6) u 2 c 2 = (u * u * c 2%Z + 2 * u * (2 - u) * c 1%Z + (2 - u) * (2 - u) * c 0%Z) / 4).
    { intros c. change (deboor (knot U6) u 2 c 2) with
        (((u - 0) * (((u - 0) * c 2%Z + (2 - u) * c 1%Z) / (2 - 0)) + (2 - u) * (((u - 0) * c 1%Z + (2 - u) * c 0%Z) / (2 - 0))) / (2 - 0)). field. }
    rewrite !G. change (cp AX P 2) with 4. change (cp AX P 1) with (-4). change (cp AX P 0) with 4.
    change (cp AY P 2) with 0. change (cp AY P 1) with 0. change (cp AY P 0) with 0. change (cp AZ P 2) with 0. change (cp AZ P 1) with 0. change (cp AZ P 0) with 0.
    f_equal; field. }
  assert (C : forall u, 0 <= u <= 2 -> curvePoint 1 2 2 U6 (map fv P) (Fin u : XR) = Ok (fv (RV (4 * (u - 1) * (u - 1)) 0 0))).
  { intros u Hu. rewrite (curve_at U6 P 2 2 u 1 2 D ltac:(cbn; lia) (S u Hu)). rewrite E by auto. reflexivity. }
  exists [0; 1; 2], (map (fun u => RV (4 * (u - 1) * (u - 1)) 0 0) [0; 1; 2]). split; [exact D|]. split; [reflexivity|].
  split; [repeat constructor; lra|]. split.
  { repeat (apply Forall_cons; [apply U6_domain; lra|]). apply Forall_nil. }
  split; [cbn [map]; repeat (apply Forall2_cons; [apply C; lra|]); apply Forall2_nil|].
  cbn [map alternating]. unfold side, rdot. cbn [rx ry rz]. lra.
Qed.

(** ** C147 *)
(** Control values taken from a convex function at the Greville abscissae give a coordinate that is a convex function of the
    parameter and lies above that function. *)
Theorem C147_convex U P n p a fuel f u v s : curve_data U P n p -> (1 <= p)%Z -> (Z.to_nat (n + 1 - p) <= fuel)%nat -> convex f ->
  (forall k, (0 <= k <= n)%Z -> cp a P k = f (abscissa U p k)) ->
  in_domain U n p u -> in_domain U n p v -> 0 <= s <= 1 ->
  let x w := coordinate a (curvePoint fuel n p U (map fv P) (Fin w : XR)) in
  x (s * u + (1 - s) * v) <= s * x u + (1 - s) * x v /\ f u <= x u.
Proof.
  intros D Hp Hf Cf Hc Du Dv Hs x. split; [|apply (curve_above U P n p a fuel f u); auto].
  destruct (Req_dec s 0) as [->|N0]; [replace (0 * u + (1 - 0) * v) with v by ring; lra|].
  destruct (Req_dec s 1) as [->|N1]; [replace (1 * u + (1 - 1) * v) with u by ring; lra|].
  destruct (Rtotal_order u v) as [L|[->|L]].
  - apply (curve_convex U P n p a fuel f u v s); auto; lra.
  - replace (s * v + (1 - s) * v) with v by ring. lra.
  - pose proof (curve_convex U P n p a fuel f v u (1 - s) D Hp Hf Cf Hc Dv Du L ltac:(lra)) as Q.
    replace ((1 - s) * v + (1 - (1 - s)) * u) with (s * u + (1 - s) * v) in Q by ring. replace (1 - (1 - s)) with s in Q by ring.
    unfold x. lra.
Qed.
Print Assumptions C147_convex.
(** 0, 1, 4 are the squares of the abscissae 0, 1, 2 *)
Example C147_nonvacuous : convex (fun x => x * x) /\ (forall k, (0 <= k <= 2)%Z -> cp AX P3 k = abscissa U6 2 k * abscissa U6 2 k) /\
  in_domain U6 2 2 0 /\ in_domain U6 2 2 2.
Proof.
  split.
  { intros s a b Hs. cbv beta.
    assert (Q : s * (a * a) + (1 - s) * (b * b) - (s * a + (1 - s) * b) * (s * a + (1 - s) * b) = s * (1 - s) * ((a - b) * (a - b))) by ring.
    pose proof (Rmult_le_pos s (1 - s) ltac:(lra) ltac:(lra)). pose proof (Rle_0_sqr (a - b)) as Sq. unfold Rsqr in Sq.
    pose proof (Rmult_le_pos _ _ H Sq). lra. }
  split; [|split; apply U6_domain; lra].
  intros k Hk. assert (E : (k = 0 \/ k = 1 \/ k = 2)%Z) by lia. 
  destruct E as [->|[->| ->]].
  - change (cp AX P3 0) with 0. change (abscissa U6 2 0) with ((0 + 0 + 0) / 2). field.
  - change (cp AX P3 1) with 1. change (abscissa U6 2 1) with ((0 + 0 + 2) / 2). field.
  - change (cp AX P3 2) with 4. change (abscissa U6 2 2) with ((0 + 2 + 2) / 2). field.
Qed.
