(** Property theorems C174: smoothness of B-spline curves, their polynomial pieces and their tangents. *)
From Coq Require Import Reals Lra Lia ZArith List.
From Verif Require Import Base Arith M_r3 M_nurbs Spec_r3 Spec_nurbs Spec_spline Spec_smooth XRvec P_nurbs P_spline P_spline2 P_spline3 P_smooth Props_spline.
Import ListNotations.
Open Scope R_scope.

(** the derivative of the k-th derivative is the curve of degree p-k-1 of the next difference quotients, away from knots of multiplicity p-k or more *)
Theorem C174_higher U P n p a k Q Q' u fuel : curve_data U P n p -> (Z.of_nat k < p)%Z -> higher U P n p k Q -> higher U P n p (S k) Q' ->
  hodograph (skipn k U) Q (n - Z.of_nat k) (p - Z.of_nat k) Q' ->
  (Z.to_nat (n + 1 - p) <= fuel)%nat -> knot U p < u < knot U (n + 1) ->
  (forall j, (p < j)%Z -> (j + (p - Z.of_nat k) - 1 <= n)%Z -> ~ (knot U j = u /\ knot U (j + (p - Z.of_nat k) - 1) = u)) ->
  derivable_pt_lim (fun v => coordinate a (curvePoint fuel (n - Z.of_nat k) (p - Z.of_nat k) (skipn k U) (map fv Q) (Fin v : XR))) u
    (coordinate a (curvePoint fuel (n - Z.of_nat (S k)) (p - Z.of_nat (S k)) (skipn (S k) U) (map fv Q') (Fin u : XR))).
Proof. intros D L H _ HQ Hf Hu HM. exact (higher_derivative U P n p a k Q Q' u fuel D L H HQ Hf Hu HM). Qed.
Print Assumptions C174_higher.
(** inner knots of multiplicity at most m: the curve has p - m continuous derivatives *)
Theorem C174_smooth U P n p m a fuel : curve_data U P n p -> (1 <= m <= p)%Z -> multiplicity_at_most U n p m -> (Z.to_nat (n + 1 - p) <= fuel)%nat ->
  smooth (Z.to_nat (p - m)) (fun u => coordinate a (curvePoint fuel n p U (map fv P) (Fin u : XR))) (knot U p) (knot U (n + 1)).
Proof.
  intros D Hm HM Hf. pose proof D as (Mo & Hp & L1 & L2 & L3).
  exists (fun k => curve fuel (n - Z.of_nat k) (p - Z.of_nat k) (skipn k U) (hodos U P n p k) a). split; [|split].
  - intros u _. unfold curve. cbn [skipn hodos]. change (Z.of_nat 0) with 0%Z. rewrite !Z.sub_0_r. reflexivity.
  - intros k u Hk Hu. apply (higher_derivative U P n p a k (hodos U P n p k) (hodos U P n p (S k)) u fuel D); [lia|apply hodos_ok; lia|apply hodo_ok; lia|exact Hf|exact Hu|].
    intros j Hj1 Hj2 (E1 & E2). pose proof (HM j Hj1 ltac:(lia)). pose proof (Mo (j + m)%Z (j + (p - Z.of_nat k) - 1)%Z ltac:(lia) ltac:(lia)). lra.
  - intros u Hu. apply (higher_continuous U P n p a (Z.to_nat (p - m)) (hodos U P n p (Z.to_nat (p - m))) u fuel D); [lia|apply hodos_ok; lia| |exact Hf|exact Hu].
    rewrite Z2Nat.id by lia. replace (p - (p - m))%Z with m by lia. exact HM.
Qed.
Print Assumptions C174_smooth.
(** on every span the curve is a polynomial of degree at most p *)
Theorem C174_polynomial U P n p a i fuel : curve_data U P n p -> (Z.to_nat (n + 1 - p) <= fuel)%nat -> (p <= i <= n)%Z ->
  exists f, polynomial (Z.to_nat p) f /\ forall u, knot U i <= u < knot U (i + 1) -> coordinate a (curvePoint fuel n p U (map fv P) (Fin u : XR)) = f u.
Proof.
  intros D Hf Hi. pose proof D as (Mo & Hp & L1 & L2 & L3). exists (fun u => deboor (knot U) u (Z.to_nat p) (cp a P) i). split.
  - apply (deboor_poly (knot U) (Z.to_nat p) 0 (fun k _ => cp a P k)). intros k. apply poly_const.
  - intros u Hu. apply coord_at; auto. pose proof (Mo (i + 1)%Z (n + 1)%Z ltac:(lia) ltac:(lia)). split; [exact Hi|]. split; [lra|]. split; [lra|]. split; intros; lra.
Qed.
Print Assumptions C174_polynomial.
(** the start of a clamped curve: it leaves its first control point along the first leg of the control polygon *)
Theorem C174_start U P n p a fuel : curve_data U P n p -> (1 <= p)%Z -> (Z.to_nat (n + 1 - p) <= fuel)%nat ->
  (forall k, (1 <= k <= p)%Z -> knot U k = knot U p) -> knot U p < knot U (p + 1) ->
  let f u := coordinate a (curvePoint fuel n p U (map fv P) (Fin u : XR)) in
  f (knot U p) = cp a P 0 /\ right_slope f (knot U p) (IZR p * (cp a P 1 - cp a P 0) / (knot U (p + 1) - knot U p)).
Proof.
  intros D Hp1 Hf E L. cbv zeta. pose proof D as (Mo & Hp & L1 & L2 & L3). exact (right_at U P n p a 0 (knot U p) fuel D Hp1 Hf ltac:(lia) ltac:(lia) E L).
Qed.
Print Assumptions C174_start.
Theorem C174_end U P n p a fuel : curve_data U P n p -> (1 <= p)%Z -> (Z.to_nat (n + 1 - p) <= fuel)%nat ->
  (forall k, (n + 1 <= k <= n + p)%Z -> knot U k = knot U (n + 1)) -> knot U n < knot U (n + 1) ->
  let f u := coordinate a (curvePoint fuel n p U (map fv P) (Fin u : XR)) in
  f (knot U (n + 1)) = cp a P n /\ left_slope f (knot U (n + 1)) (IZR p * (cp a P n - cp a P (n - 1)) / (knot U (n + 1) - knot U n)).
Proof.
  intros D Hp1 Hf E L. cbv zeta. pose proof D as (Mo & Hp & L1 & L2 & L3). exact (left_at U P n p a n (knot U (n + 1)) fuel D Hp1 Hf ltac:(lia) E L (or_introl eq_refl)).
Qed.
Print Assumptions C174_end.
(** an inner knot of multiplicity p: the curve passes through a control point, arriving and leaving along the legs of the control polygon,
    and has a derivative there exactly if the two slopes agree *)
Theorem C174_corner U P n p a i fuel : curve_data U P n p -> (1 <= p)%Z -> (Z.to_nat (n + 1 - p) <= fuel)%nat -> (p <= i)%Z -> (i + p <= n)%Z ->
  (forall k, (i + 1 <= k <= i + p)%Z -> knot U k = knot U (i + 1)) -> knot U i < knot U (i + 1) < knot U (i + p + 1) ->
  let f u := coordinate a (curvePoint fuel n p U (map fv P) (Fin u : XR)) in
  let u := knot U (i + 1) in
  let before := IZR p * (cp a P i - cp a P (i - 1)) / (u - knot U i) in
  let behind := IZR p * (cp a P (i + 1) - cp a P i) / (knot U (i + p + 1) - u) in
  f u = cp a P i /\ left_slope f u before /\ right_slope f u behind /\ (forall l, derivable_pt_lim f u l <-> l = before /\ l = behind).
Proof.
  intros D Hp1 Hf Hi Hn E L. cbv zeta. pose proof (right_at U P n p a i (knot U (i + 1)) fuel D Hp1 Hf ltac:(lia) Hn E ltac:(lra)) as (V & R).
  pose proof (left_at U P n p a i (knot U (i + 1)) fuel D Hp1 Hf ltac:(lia) E ltac:(lra) (or_intror (conj Hn (proj2 L)))) as (_ & F).
  split; [exact V|]. split; [exact F|]. split; [exact R|]. intros l. split.
  - intros H. destruct (one_sided _ _ _ H) as (A & B). split; [exact (left_unique _ _ _ _ A F)|exact (right_unique _ _ _ _ B R)].
  - intros (-> & H). apply two_sided; [exact F|]. rewrite H. exact R.
Qed.
Print Assumptions C174_corner.

(** ** a cubic with an inner knot of multiplicity 1, and a corner *)
Definition U174 : list Z := [0; 0; 0; 0; 1; 2; 2; 2; 2]%Z.
Definition P174 : list rv := [RV 0 0 0; RV 1 2 0; RV 3 2 0; RV 4 0 1; RV 5 1 2].
Lemma mono_list U : forallb (fun k => Z.leb (nth k U 0%Z) (nth (S k) U 0%Z)) (seq 0 (length U - 1)) = true -> nondecreasing U.
Proof.
  intros H. rewrite forallb_forall in H. intros a b Hab Hb. unfold knot. apply IZR_le.
  assert (G : forall d k, (k + d < length U)%nat -> (nth k U 0 <= nth (k + d) U 0)%Z).
  { induction d as [|d IH]; intros k Hk; [rewrite Nat.add_0_r; lia|]. specialize (IH k ltac:(lia)). specialize (H (k + d)%nat ltac:(apply in_seq; lia)). apply Z.leb_le in H. replace (k + S d)%nat with (S (k + d)) by lia. lia. }
  specialize (G (Z.to_nat b - Z.to_nat a)%nat (Z.to_nat a) ltac:(lia)). replace (Z.to_nat a + (Z.to_nat b - Z.to_nat a))%nat with (Z.to_nat b) in G by lia. exact G.
Qed.
Example C174_nonvacuous : curve_data U174 P174 4 3 /\ multiplicity_at_most U174 4 3 1 /\
  smooth 2 (fun u => coordinate AX (curvePoint 2 4 3 U174 (map fv P174) (Fin u : XR))) 0 2.
Proof.
  assert (D : curve_data U174 P174 4 3) by (split; [apply mono_list; reflexivity|cbn; lia]).
  assert (M : multiplicity_at_most U174 4 3 1) by (intros k H1 H2; lia).
  split; [exact D|]. split; [exact M|]. exact (C174_smooth U174 P174 4 3 1 AX 2 D ltac:(lia) M ltac:(cbn; lia)).
Qed.
(** with multiplicity p the derivative can fail to exist *)
Example C174_needed : let U := [0; 0; 1; 2; 2]%Z in let P := [RV 0 0 0; RV 1 0 0; RV 0 0 0] in curve_data U P 2 1 /\ multiplicity_at_most U 2 1 1 /\
  forall l, ~ derivable_pt_lim (fun u => coordinate AX (curvePoint 2 2 1 U (map fv P) (Fin u : XR))) 1 l.
Proof.
  cbv zeta. set (U := [0; 0; 1; 2; 2]%Z). set (P := [RV 0 0 0; RV 1 0 0; RV 0 0 0]).
  assert (D : curve_data U P 2 1) by (split; [apply mono_list; reflexivity|cbn; lia]).
  split; [exact D|]. split; [intros k H1 H2; lia|].
  pose proof (C174_corner U P 2 1 AX 1 2 D ltac:(lia) ltac:(cbn; lia) ltac:(lia) ltac:(lia)) as C. cbv zeta in C. destruct C as (_ & _ & _ & C).
  - intros k Hk. replace k with 2%Z by lia. reflexivity.
  - change (IZR 0 < IZR 1 < IZR 2). lra.
  - intros l H. apply C in H. destruct H as (H1 & H2). change (l = 1 * (1 - 0) / (1 - 0)) in H1. change (l = 1 * (0 - 1) / (2 - 1)) in H2. unfold Rdiv in *.
    replace (2 - 1) with 1 in H2 by ring. replace (1 - 0) with 1 in H1 by ring. rewrite Rinv_1 in *. lra.
Qed.
