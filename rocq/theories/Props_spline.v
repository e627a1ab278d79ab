(** Theorems about B-spline curves (properties C127-C134). *)
From Coq Require Import Reals Lra Lia ZArith List Bool.
From Flocq Require Import BinarySingleNaN Core.Raux.
From Verif Require Import Base Arith M_r3 Spec_r3 XRvec M_nurbs Spec_nurbs P_nurbs P_nurbs2 Spec_spline
  P_spline P_spline2 P_spline3.
Import ListNotations.
Open Scope R_scope.

(** C127: curvePoint computes what de Boor's algorithm computes *)
Theorem C127_deboor U P n p u fuel i : curve_data U P n p -> (Z.to_nat (n + 1 - p) <= fuel)%nat ->
  (p <= i <= n)%Z -> (knot U i <= u < knot U (i + 1) \/ i = n /\ knot U n < u /\ u = knot U (n + 1)) ->
  curvePoint fuel n p U (map fv P) (Fin u : XR) =
  Ok (fv (RV (deboor (knot U) u (Z.to_nat p) (cp AX P) i) (deboor (knot U) u (Z.to_nat p) (cp AY P) i)
             (deboor (knot U) u (Z.to_nat p) (cp AZ P) i))).
Proof.
  intros D Hf Hi Hu. apply (curve_at U P n p u fuel i D Hf). pose proof D as (Mo & Hp & L1 & L2 & L3).
  destruct Hu as [Hu|(-> & H1 & ->)].
  - pose proof (Mo (i + 1)%Z (n + 1)%Z ltac:(lia) ltac:(lia)).
    split; [exact Hi|]. split; [lra|]. split; [lra|]. split; intros; lra.
  - split; [lia|]. split; [lra|]. split; [lra|]. split; [reflexivity|intros; lra].
Qed.
Print Assumptions C127_deboor.

(** C128: the basis reproduces polynomials *)
Theorem C128_marsden U i p u : nondecreasing U -> (0 <= p <= i)%Z -> (i + p < Z.of_nat (length U))%Z ->
  knot U i < knot U (i + 1) ->
  exists (N : list XR) (b : Z -> R), basisFuns (A := XR) i (Fin u) p U = Ok N /\
    (forall r, (0 <= r <= p)%Z -> zget N r = Ok (Fin (b r : R))) /\
    forall x, rsum (fun r => b r * knot_product (knot U) x (Z.to_nat p) (i - p + r)) (Z.to_nat (p + 1)) = (x - u) ^ Z.to_nat p.
Proof.
  intros M Hp HU Hs.
  destruct (basisFuns_get U i p ltac:(lia) ltac:(lia) ltac:(lia) M Hs u) as (N & E & L & G).
  pose proof (basis_mono U i p ltac:(lia) ltac:(lia) ltac:(lia) M) as BM.
  rewrite Z2Nat.id in G by lia.
  exists N, (fun r => bpiece (knot U) i (Z.to_nat p) (i - p + r) u). split; [exact E|]. split; [exact G|]. intros x.
  rewrite <- (marsden (knot U) i (Z.to_nat p) BM Hs u x (Z.to_nat p)) by lia.
  rewrite <- (sum_deboor (knot U) i (Z.to_nat p) BM Hs) by lia. rewrite Z2Nat.id by lia.
  replace (Z.to_nat (p + 1)) with (S (Z.to_nat p)) by lia. reflexivity.
Qed.
Print Assumptions C128_marsden.
Theorem C128_powers U P n p u fuel a x : curve_data U P n p -> in_domain U n p u -> (Z.to_nat (n + 1 - p) <= fuel)%nat ->
  (forall k, (0 <= k <= n)%Z -> cp a P k = knot_product (knot U) x (Z.to_nat p) k) ->
  coordinate a (curvePoint fuel n p U (map fv P) (Fin u : XR)) = (x - u) ^ Z.to_nat p.
Proof.
  intros D Hu Hf Hc. destruct (domain_span U P n p u fuel D Hu Hf) as (i & Si).
  rewrite (coord_at a U P n p u fuel i D Hf Si). pose proof Si as (I1 & I2 & I3 & _).
  rewrite <- (marsden (knot U) i (Z.to_nat p) (data_mono U P n p i D I1) I3 u x (Z.to_nat p)) by lia.
  pose proof D as (_ & Hp & _). apply deboor_ext. intros k Hk. apply Hc. lia.
Qed.
Print Assumptions C128_powers.
(** control points over the knot averages reproduce straight lines *)
Theorem C128_linear_precision U P n p u fuel a s h : curve_data U P n p -> in_domain U n p u ->
  (Z.to_nat (n + 1 - p) <= fuel)%nat -> (1 <= p)%Z ->
  (forall k, (0 <= k <= n)%Z -> cp a P k = h + s * (knot_sum (knot U) (Z.to_nat p) k / IZR p)) ->
  coordinate a (curvePoint fuel n p U (map fv P) (Fin u : XR)) = h + s * u.
Proof.
  intros D Hu Hf Hp1 Hc. destruct (domain_span U P n p u fuel D Hu Hf) as (i & Si).
  rewrite (coord_at a U P n p u fuel i D Hf Si). pose proof Si as (I1 & I2 & I3 & _).
  pose proof D as (_ & Hp & _). assert (Hz : 0 < IZR p) by (apply IZR_lt; lia).
  rewrite (deboor_ext _ _ _ _ (fun k => 1 * h + s / IZR p * knot_sum (knot U) (Z.to_nat p) k)).
  - rewrite (deboor_lin (knot U) u 1 (s / IZR p) (Z.to_nat p) (fun _ => h)).
    rewrite (deboor_const (knot U) i (Z.to_nat p) (data_mono U P n p i D I1) I3) by lia.
    rewrite (greville (knot U) i (Z.to_nat p) (data_mono U P n p i D I1) I3) by lia.
    rewrite INR_IZR_INZ, Z2Nat.id by lia. field. lra.
  - intros k Hk. rewrite Hc by lia. field. lra.
Qed.
Print Assumptions C128_linear_precision.

(** C129: between two knots of multiplicity p the curve is a Bezier curve *)
Theorem C129_bezier U P n p u fuel a i lo hi : curve_data U P n p -> (Z.to_nat (n + 1 - p) <= fuel)%nat ->
  (1 <= p <= i)%Z -> (i <= n)%Z -> lo < hi ->
  (forall k, (i + 1 - p <= k <= i)%Z -> knot U k = lo) -> (forall k, (i + 1 <= k <= i + p)%Z -> knot U k = hi) ->
  lo <= u <= hi -> (u = hi -> i = n) ->
  coordinate a (curvePoint fuel n p U (map fv P) (Fin u : XR)) =
  sum_f_R0 (fun r => bernstein (Z.to_nat p) r ((u - lo) / (hi - lo)) * cp a P (i - p + Z.of_nat r)) (Z.to_nat p).
Proof.
  intros D Hf Hi Hn Hlh Hlo Hhi Hu He. pose proof D as (Mo & Hp & L1 & L2 & L3).
  rewrite (coord_at a U P n p u fuel i D Hf).
  - rewrite (deboor_bezier (knot U) i (Z.to_nat p) lo hi u Hlh); [|intros; apply Hlo; lia|intros; apply Hhi; lia|lia].
    rewrite Z2Nat.id by lia. reflexivity.
  - pose proof (Hlo i ltac:(lia)) as E1. pose proof (Hhi (i + 1)%Z ltac:(lia)) as E2.
    pose proof (Mo (i + 1)%Z (n + 1)%Z ltac:(lia) ltac:(lia)).
    split; [lia|]. split; [lra|]. split; [lra|]. split.
    + intros E. apply He. lra.
    + intros N. destruct (Req_dec u hi) as [E|E]; [|lra]. specialize (He E). subst i. lra.
Qed.
Print Assumptions C129_bezier.

(** C130: the derivative is the curve of degree p-1 of the difference quotients *)
Theorem C130_derivative U P n p Q a u fuel : curve_data U P n p -> (1 <= p)%Z -> hodograph U P n p Q ->
  (Z.to_nat (n + 1 - p) <= fuel)%nat -> knot U p < u < knot U (n + 1) ->
  (* u is not a knot, or one of multiplicity below p *)
  (forall k, (p < k)%Z -> (k + p - 1 <= n)%Z -> ~ (knot U k = u /\ knot U (k + p - 1) = u)) ->
  derivable_pt_lim (fun v => coordinate a (curvePoint fuel n p U (map fv P) (Fin v : XR))) u
    (coordinate a (curvePoint fuel (n - 1) (p - 1) (tl U) (map fv Q) (Fin u : XR))).
Proof. exact (curve_derivative U P n p Q a u fuel). Qed.
Print Assumptions C130_derivative.

(** C131: a curve without inner knots of multiplicity p+1 moves at most p*L per unit of the parameter *)
Theorem C131_lipschitz U P n p a L u v fuel : curve_data U P n p -> (1 <= p)%Z -> multiplicity_at_most U n p p ->
  (Z.to_nat (n + 1 - p) <= fuel)%nat -> in_domain U n p u -> in_domain U n p v ->
  (forall k, (1 <= k <= n)%Z -> knot U k < knot U (k + p) ->
     Rabs (cp a P k - cp a P (k - 1)) <= L * (knot U (k + p) - knot U k)) ->
  Rabs (coordinate a (curvePoint fuel n p U (map fv P) (Fin v : XR)) -
        coordinate a (curvePoint fuel n p U (map fv P) (Fin u : XR))) <= IZR p * L * Rabs (v - u).
Proof.
  intros D Hp1 HM Hf Hu Hv HL.
  assert (B : forall k, (1 <= k <= n)%Z -> knot U k < knot U (k + p) ->
    - L <= slope (knot U) (Z.to_nat p) (cp a P) k <= L).
  { intros k Hk W. specialize (HL k Hk W). unfold slope. rewrite Z2Nat.id by lia. apply Raux.Rabs_le_inv.
    unfold Rdiv. rewrite Rabs_mult. rewrite (Rabs_pos_eq (/ _)) by (left; apply Rinv_0_lt_compat; lra).
    apply (Rmult_le_reg_r (knot U (k + p) - knot U k)); [lra|].
    rewrite Rmult_assoc, Rinv_l, Rmult_1_r by lra. exact HL. }
  assert (G : forall u v, in_domain U n p u -> in_domain U n p v -> u <= v ->
    Rabs (coordinate a (curvePoint fuel n p U (map fv P) (Fin v : XR)) -
          coordinate a (curvePoint fuel n p U (map fv P) (Fin u : XR))) <= IZR p * L * (v - u)).
  { intros x y Hx Hy Hxy. pose proof (curve_growth U P n p a (- L) L x y fuel D Hp1 HM Hf Hx Hy Hxy B) as [G1 G2].
    apply Rabs_le. split; [|exact G2].
    replace (- (IZR p * L * (y - x))) with (IZR p * - L * (y - x)) by ring. exact G1. }
  destruct (Rle_dec u v) as [Luv|Luv].
  - rewrite (Rabs_pos_eq (v - u)) by lra. apply G; auto.
  - rewrite (Rabs_minus_sym v u), (Rabs_minus_sym (coordinate _ _)). rewrite (Rabs_pos_eq (u - v)) by lra. apply G; auto. lra.
Qed.
Print Assumptions C131_lipschitz.
(** so it is continuous *)
Theorem C131_continuous U P n p a u fuel : curve_data U P n p -> (1 <= p)%Z -> multiplicity_at_most U n p p ->
  (Z.to_nat (n + 1 - p) <= fuel)%nat -> in_domain U n p u ->
  forall e, 0 < e -> exists d, 0 < d /\ forall v, in_domain U n p v -> Rabs (v - u) < d ->
    Rabs (coordinate a (curvePoint fuel n p U (map fv P) (Fin v : XR)) -
          coordinate a (curvePoint fuel n p U (map fv P) (Fin u : XR))) < e.
Proof.
  intros D Hp1 HM Hf Hu e He.
  assert (X : exists L, 0 < L /\ forall k, (1 <= k <= n)%Z -> knot U k < knot U (k + p) ->
     Rabs (cp a P k - cp a P (k - 1)) <= L * (knot U (k + p) - knot U k)).
  { assert (G : forall m : nat, (Z.of_nat m <= n)%Z -> exists L, 0 < L /\ forall k, (1 <= k <= Z.of_nat m)%Z ->
       knot U k < knot U (k + p) -> Rabs (cp a P k - cp a P (k - 1)) <= L * (knot U (k + p) - knot U k)).
    { induction m as [|m IH]; intros Hm; [exists 1; split; [lra|intros; lia]|].
      destruct IH as (L & HL & H); [lia|].
      set (k0 := Z.of_nat (S m)).
      set (L' := Rabs (cp a P k0 - cp a P (k0 - 1)) / (knot U (k0 + p) - knot U k0)).
      exists (Rmax L L'). split; [eapply Rlt_le_trans; [exact HL|apply Rmax_l]|]. intros k Hk W.
      destruct (Z.eq_dec k k0) as [->|N].
      - apply Rle_trans with (L' * (knot U (k0 + p) - knot U k0)).
        + right. unfold L'. field. lra.
        + apply Rmult_le_compat_r; [lra|apply Rmax_r].
      - apply Rle_trans with (L * (knot U (k + p) - knot U k)); [apply H; auto; lia|].
        apply Rmult_le_compat_r; [lra|apply Rmax_l]. }
    pose proof D as (_ & Hp & _).
    destruct (G (Z.to_nat n) ltac:(lia)) as (L & HL & H). exists L. split; [exact HL|]. intros; apply H; auto; lia. }
  destruct X as (L & HL & H). assert (0 < IZR p) by (apply IZR_lt; lia).
  assert (K : 0 < IZR p * L) by (apply Rmult_lt_0_compat; lra).
  exists (e / (IZR p * L)). split; [apply Rdiv_lt_0_compat; lra|]. intros v Hv Hd.
  eapply Rle_lt_trans; [apply (C131_lipschitz U P n p a L u v fuel); auto|].
  apply (Rmult_lt_compat_l (IZR p * L)) in Hd; [|exact K].
  replace (IZR p * L * (e / (IZR p * L))) with e in Hd by (field; split; lra). exact Hd.
Qed.
Print Assumptions C131_continuous.

(** C132: the reversed knots and control points give the reversed curve *)
Theorem C132_reversal U P n p u fuel : curve_data U P n p -> length U = Z.to_nat (n + p + 2) ->
  length P = Z.to_nat (n + 1) -> (Z.to_nat (n + 1 - p) <= fuel)%nat -> in_domain U n p u ->
  (u = knot U p -> u < knot U (p + 1)) ->
  (* u is not a knot, or one of multiplicity at most p *)
  (forall k, (p < k)%Z -> (k + p <= n)%Z -> ~ (knot U k = u /\ knot U (k + p) = u)) ->
  curvePoint fuel n p (rev (map Z.opp U)) (map fv (rev P)) (Fin (- u) : XR) = curvePoint fuel n p U (map fv P) (Fin u : XR).
Proof. exact (curve_reverse U P n p u fuel). Qed.
Print Assumptions C132_reversal.

(** C133: affine maps, local control and uniqueness of the control points *)
Theorem C133_affine U P n p u fuel f : affine f -> curve_data U P n p -> in_domain U n p u ->
  (Z.to_nat (n + 1 - p) <= fuel)%nat -> exists C,
  curvePoint fuel n p U (map fv P) (Fin u : XR) = Ok (fv C) /\
  curvePoint fuel n p U (map fv (map f P)) (Fin u : XR) = Ok (fv (f C)).
Proof. exact (curve_affine U P n p u fuel f). Qed.
Print Assumptions C133_affine.
(** control point k matters only between knots k and k+p+1 *)
Theorem C133_local_control U P P' n p u fuel : curve_data U P n p -> curve_data U P' n p -> in_domain U n p u ->
  (Z.to_nat (n + 1 - p) <= fuel)%nat ->
  (forall k, (0 <= k <= n)%Z -> nth (Z.to_nat k) P rzero <> nth (Z.to_nat k) P' rzero ->
     u < knot U k \/ (k + p < n)%Z /\ knot U (k + p + 1) < u) ->
  curvePoint fuel n p U (map fv P) (Fin u : XR) = curvePoint fuel n p U (map fv P') (Fin u : XR).
Proof.
  intros D D' Hu Hf H. destruct (domain_span U P n p u fuel D Hu Hf) as (i & Si).
  rewrite (curve_at U P n p u fuel i D Hf Si), (curve_at U P' n p u fuel i D' Hf Si).
  pose proof Si as (I1 & I2 & I3 & _). pose proof D as (Mo & Hp & L1 & L2 & L3).
  assert (E : forall a k, (i - Z.of_nat (Z.to_nat p) <= k <= i)%Z -> cp a P k = cp a P' k).
  { intros a k Hk. unfold cp. f_equal.
    assert (Dec : forall x y : rv, {x = y} + {x <> y}).
    { intros [x1 x2 x3] [y1 y2 y3]. destruct (Req_EM_T x1 y1), (Req_EM_T x2 y2), (Req_EM_T x3 y3);
        try (left; congruence); right; congruence. }
    destruct (Dec (nth (Z.to_nat k) P rzero) (nth (Z.to_nat k) P' rzero)) as [E|N]; [exact E|].
    exfalso. destruct (H k ltac:(lia) N) as [B|[B1 B2]].
    - pose proof (Mo k i ltac:(lia) ltac:(lia)). lra.
    - pose proof (Mo (i + 1)%Z (k + p + 1)%Z ltac:(lia) ltac:(lia)). lra. }
  do 2 f_equal. unfold dbpoint. f_equal; apply deboor_ext; intros k Hk; now apply E.
Qed.
Print Assumptions C133_local_control.
(** curves that agree inside one span have the same p+1 control points there *)
Theorem C133_unique U P P' n p fuel i : curve_data U P n p -> curve_data U P' n p ->
  (Z.to_nat (n + 1 - p) <= fuel)%nat -> (p <= i <= n)%Z -> knot U i < knot U (i + 1) ->
  (forall u, knot U i < u < knot U (i + 1) ->
     curvePoint fuel n p U (map fv P) (Fin u : XR) = curvePoint fuel n p U (map fv P') (Fin u : XR)) ->
  forall k, (i - p <= k <= i)%Z -> nth (Z.to_nat k) P rzero = nth (Z.to_nat k) P' rzero.
Proof.
  intros D D' Hf Hi Hl H k Hk. pose proof D as (Mo & Hp & L1 & L2 & L3).
  pose proof (Mo (i + 1)%Z (n + 1)%Z ltac:(lia) ltac:(lia)) as Mn.
  assert (Z0 : forall a, cp a P k = cp a P' k).
  { intros a. enough (E : 1 * cp a P k + (-1) * cp a P' k = 0) by lra.
    apply (deboor_zero (knot U) i (Z.to_nat p) (data_mono U P n p i D Hi) Hl (Z.to_nat p)
      (fun k => 1 * cp a P k + (-1) * cp a P' k)); try lia.
    intros u Hu. rewrite deboor_lin.
    assert (S : span_of U n p u i) by (split; [lia|]; split; [lra|]; split; [lra|]; split; intros; lra).
    rewrite <- (coord_at a U P n p u fuel i D Hf S), <- (coord_at a U P' n p u fuel i D' Hf S).
    rewrite (H u Hu). ring. }
  apply rv_ext; [apply (Z0 AX)|apply (Z0 AY)|apply (Z0 AZ)].
Qed.
Print Assumptions C133_unique.

(** C134: monotone control coordinates give a monotone curve *)
Theorem C134_monotone U P n p a u v fuel : curve_data U P n p -> (1 <= p)%Z -> multiplicity_at_most U n p p ->
  (Z.to_nat (n + 1 - p) <= fuel)%nat -> in_domain U n p u -> in_domain U n p v -> u <= v ->
  (forall k, (1 <= k <= n)%Z -> cp a P (k - 1) <= cp a P k) ->
  coordinate a (curvePoint fuel n p U (map fv P) (Fin u : XR)) <=
  coordinate a (curvePoint fuel n p U (map fv P) (Fin v : XR)).
Proof.
  intros D Hp1 HM Hf Hu Hv Huv Hc.
  set (lo := 0).
  assert (X : exists hi, forall k, (1 <= k <= n)%Z -> knot U k < knot U (k + p) ->
     lo <= slope (knot U) (Z.to_nat p) (cp a P) k <= hi).
  { assert (G : forall m : nat, (Z.of_nat m <= n)%Z -> exists hi, forall k, (1 <= k <= Z.of_nat m)%Z ->
       knot U k < knot U (k + p) -> lo <= slope (knot U) (Z.to_nat p) (cp a P) k <= hi).
    { induction m as [|m IH]; intros Hm; [exists 0; intros; lia|].
      destruct IH as (hi & H); [lia|].
      exists (Rmax hi (slope (knot U) (Z.to_nat p) (cp a P) (Z.of_nat (S m)))). intros k Hk W. split.
      - unfold slope, lo. rewrite Z2Nat.id by lia. specialize (Hc k ltac:(lia)).
        apply Rmult_le_pos; [lra|left; apply Rinv_0_lt_compat; lra].
      - destruct (Z.eq_dec k (Z.of_nat (S m))) as [->|N]; [apply Rmax_r|].
        eapply Rle_trans; [apply H; auto; lia|apply Rmax_l]. }
    pose proof D as (_ & Hp & _).
    destruct (G (Z.to_nat n) ltac:(lia)) as (hi & H). exists hi. intros; apply H; auto; lia. }
  destruct X as (hi & H).
  pose proof (curve_growth U P n p a lo hi u v fuel D Hp1 HM Hf Hu Hv Huv H) as [G _].
  unfold lo in G. lra.
Qed.
Print Assumptions C134_monotone.

(** the repository's test: nine control points, degree 3, knots 0..12; a Bezier knot vector *)
Definition U13 : list Z := [0;1;2;3;4;5;6;7;8;9;10;11;12]%Z.
Definition P9 : list rv := [RV 0 0 0; RV 1 0 0; RV 0 1 0; RV 1 1 0; RV 0 0 1; RV 1 0 1; RV 0 1 1; RV 1 1 1; RV 2 2 2].
Lemma U13_knot k : (0 <= k <= 12)%Z -> knot U13 k = IZR k.
Proof.
  intros H. unfold knot, U13. f_equal.
  assert (E : (k = 0 \/ k = 1 \/ k = 2 \/ k = 3 \/ k = 4 \/ k = 5 \/ k = 6 \/ k = 7 \/ k = 8 \/ k = 9 \/ k = 10 \/ k = 11 \/ k = 12)%Z) by lia.
  repeat (destruct E as [->|E]; [reflexivity|]). subst k. reflexivity.
Qed.
Example C127_134_nonvacuous : curve_data U13 P9 8 3 /\ multiplicity_at_most U13 8 3 3 /\ in_domain U13 8 3 (9 / 2) /\
  coordinate AX (curvePoint (A := XR) 6 8 3 U13 (map fv P9) (Fin (9 / 2))) = 1 / 2 /\
  (* degree 2 with knots 0 0 0 2 2 2: a parabola *)
  coordinate AX (curvePoint (A := XR) 1 2 2 [0;0;0;2;2;2]%Z (map fv [RV 0 0 0; RV 1 0 0; RV 4 0 0]) (Fin 1)) = 3 / 2.
Proof.
  assert (D : curve_data U13 P9 8 3).
  { split; [|cbn; lia]. intros a b Hab Hb. cbn in Hb. rewrite !U13_knot by lia. apply IZR_le. lia. }
  split; [exact D|]. split.
  { intros k H1 H2. rewrite !U13_knot by lia. apply IZR_lt. lia. }
  split.
  { unfold in_domain. change (8 + 1)%Z with 9%Z. rewrite !U13_knot by lia. split; [lra|intros; lra]. }
  split.
  - rewrite (C127_deboor U13 P9 8 3 (9 / 2) 6 4 D); [|cbn; lia|lia|left; change (4 + 1)%Z with 5%Z; rewrite !U13_knot by lia; lra].
    change (Z.to_nat 3) with 3%nat. cbn -[knot cp IZR Rdiv Rminus Rmult Rplus U13 P9]. unfold mix. cbn -[knot cp IZR Rdiv Rminus Rmult Rplus U13 P9].
    rewrite !U13_knot by lia.
    change (cp AX P9 1) with 1; change (cp AX P9 2) with 0; change (cp AX P9 3) with 1; change (cp AX P9 4) with 0.
    field.
  - assert (K : forall k, (0 <= k <= 5)%Z -> knot [0;0;0;2;2;2]%Z k = if Z_le_dec k 2 then 0 else 2).
    { intros k H. unfold knot.
      assert (E : (k = 0 \/ k = 1 \/ k = 2 \/ k = 3 \/ k = 4 \/ k = 5)%Z) by lia.
      repeat (destruct E as [->|E]; [reflexivity|]). subst k. reflexivity. }
    rewrite (C129_bezier [0;0;0;2;2;2]%Z [RV 0 0 0; RV 1 0 0; RV 4 0 0] 2 2 1 1 AX 2 0 2); try lia; try lra.
    + change (Z.to_nat 2) with 2%nat. cbn [sum_f_R0 Z.of_nat Pos.of_succ_nat Pos.succ].
      change (cp AX [RV 0 0 0; RV 1 0 0; RV 4 0 0] (2 - 2 + 0)) with 0.
      change (cp AX [RV 0 0 0; RV 1 0 0; RV 4 0 0] (2 - 2 + 1)) with 1.
      change (cp AX [RV 0 0 0; RV 1 0 0; RV 4 0 0] (2 - 2 + 2)) with 4.
      unfold bernstein, Binomial.C. simpl. field.
    + split; [|cbn; lia]. intros a b Hab Hb. cbn in Hb. rewrite !K by lia. destruct (Z_le_dec a 2), (Z_le_dec b 2); try lra; lia.
    + intros k Hk. rewrite K by lia. destruct (Z_le_dec k 2); [reflexivity|lia].
    + intros k Hk. rewrite K by lia. destruct (Z_le_dec k 2); [lia|reflexivity].
Qed.
