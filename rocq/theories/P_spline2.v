(** Curves: curvePoint through de Boor's algorithm. *)
From Coq Require Import Reals Lra Lia ZArith List Bool.
From Verif Require Import Base Arith M_r3 Spec_r3 XRvec M_nurbs Spec_nurbs P_nurbs P_nurbs2 Spec_spline P_spline.
Import ListNotations.
Open Scope R_scope.

Definition dbpoint (U : list Z) (P : list rv) (p i : Z) (u : R) : rv :=
  RV (deboor (knot U) u (Z.to_nat p) (cp AX P) i) (deboor (knot U) u (Z.to_nat p) (cp AY P) i)
       (deboor (knot U) u (Z.to_nat p) (cp AZ P) i).
Definition span_of (U : list Z) (n p : Z) (u : R) (i : Z) : Prop :=
  (p <= i <= n)%Z /\ knot U i <= u <= knot U (i + 1) /\ knot U i < knot U (i + 1) /\
  (u = knot U (n + 1) -> i = n) /\ (u <> knot U (n + 1) -> u < knot U (i + 1)).
Lemma span_unique U P n p u i j : curve_data U P n p -> span_of U n p u i -> span_of U n p u j -> i = j.
Proof.
  intros (Mo & Hp & L1 & L2 & L3) (I1 & I2 & I3 & I4 & I5) (J1 & J2 & J3 & J4 & J5).
  destruct (Req_dec u (knot U (n + 1))) as [Q|Q]; [rewrite I4, J4; auto|].
  specialize (I5 Q). specialize (J5 Q). destruct (Z.lt_trichotomy i j) as [L|[L|L]]; [|auto|].
  - pose proof (Mo (i + 1)%Z j ltac:(lia) ltac:(lia)). lra.
  - pose proof (Mo (j + 1)%Z i ltac:(lia) ltac:(lia)). lra.
Qed.
Lemma data_mono U P n p i : curve_data U P n p -> (p <= i <= n)%Z ->
  forall a b, (i + 1 - Z.of_nat (Z.to_nat p) <= a <= b)%Z -> (b <= i + Z.of_nat (Z.to_nat p))%Z -> knot U a <= knot U b.
Proof. intros (Mo & Hp & L1 & L2 & L3) Hi a b Ha Hb. apply Mo; lia. Qed.

Lemma curve_some U P n p u fuel : curve_data U P n p -> in_domain U n p u -> (Z.to_nat (n + 1 - p) <= fuel)%nat ->
  exists i, span_of U n p u i /\ curvePoint fuel n p U (map fv P) (Fin u : XR) = Ok (fv (dbpoint U P p i u)).
Proof.
  intros D [Hu He] Hf. pose proof D as (Mo & Hp & L1 & L2 & L3).
  destruct (curvePoint_ok U P n p u fuel Hp L1 L2 L3 Mo Hu He Hf) as (i & S0 & S1 & S2 & S3 & S4 & E).
  exists i. split; [repeat split; try tauto; lra|]. rewrite E. do 2 f_equal.
  pose proof (data_mono U P n p i D S0) as DM.
  assert (X : forall a, rc a (vsum (fun r => rscale (bpiece (knot U) i (Z.to_nat p) (i - p + r) u)
                             (nth (Z.to_nat (i - p + r)) P rzero)) (Z.to_nat (p + 1))) =
              deboor (knot U) u (Z.to_nat p) (cp a P) i).
  { intros a. rewrite (vsum_coord (rc a)); try (destruct a; reflexivity).
    rewrite <- (sum_deboor (knot U) i (Z.to_nat p) DM S2) by lia.
    replace (Z.to_nat (p + 1)) with (S (Z.to_nat p)) by lia. rewrite Z2Nat.id by lia. reflexivity. }
  apply rv_ext; cbn; [apply (X AX)|apply (X AY)|apply (X AZ)].
Qed.
Lemma curve_at U P n p u fuel i : curve_data U P n p -> (Z.to_nat (n + 1 - p) <= fuel)%nat -> span_of U n p u i ->
  curvePoint fuel n p U (map fv P) (Fin u : XR) = Ok (fv (dbpoint U P p i u)).
Proof.
  intros D Hf S. pose proof D as (Mo & Hp & L1 & L2 & L3). pose proof S as (I1 & I2 & I3 & I4 & I5).
  destruct (curve_some U P n p u fuel D) as (j & Sj & E); [|exact Hf|].
  - pose proof (Mo p i ltac:(lia) ltac:(lia)). pose proof (Mo (i + 1)%Z (n + 1)%Z ltac:(lia) ltac:(lia)).
    split; [lra|]. intros Q. specialize (I4 Q). subst i. lra.
  - now rewrite (span_unique U P n p u i j D S Sj).
Qed.
Lemma span_domain U P n p u i : curve_data U P n p -> span_of U n p u i -> in_domain U n p u.
Proof.
  intros (Mo & Hp & L1 & L2 & L3) (I1 & I2 & I3 & I4 & I5).
  pose proof (Mo p i ltac:(lia) ltac:(lia)). pose proof (Mo (i + 1)%Z (n + 1)%Z ltac:(lia) ltac:(lia)).
  split; [lra|]. intros Q. specialize (I4 Q). subst i. lra.
Qed.
Lemma domain_span U P n p u fuel : curve_data U P n p -> in_domain U n p u -> (Z.to_nat (n + 1 - p) <= fuel)%nat ->
  exists i, span_of U n p u i.
Proof. intros D Hu Hf. destruct (curve_some U P n p u fuel D Hu Hf) as (i & S & _). now exists i. Qed.
Lemma coordinate_db a U P p i u : coordinate a (Ok (fv (dbpoint U P p i u))) = deboor (knot U) u (Z.to_nat p) (cp a P) i.
Proof. destruct a; reflexivity. Qed.
Lemma coord_at a U P n p u fuel i : curve_data U P n p -> (Z.to_nat (n + 1 - p) <= fuel)%nat -> span_of U n p u i ->
  coordinate a (curvePoint fuel n p U (map fv P) (Fin u : XR)) = deboor (knot U) u (Z.to_nat p) (cp a P) i.
Proof. intros D Hf S. rewrite (curve_at U P n p u fuel i D Hf S). apply coordinate_db. Qed.

(** the next span *)
Lemma next_span U P n p i j : curve_data U P n p -> (p <= i < j)%Z -> (j <= n)%Z ->
  knot U i < knot U (i + 1) -> knot U j < knot U (j + 1) ->
  exists m : nat, (1 <= m)%nat /\ (i + Z.of_nat m <= j)%Z /\ knot U (i + Z.of_nat m) < knot U (i + Z.of_nat m + 1) /\
    (forall k, (i + 1 <= k <= i + Z.of_nat m)%Z -> knot U k = knot U (i + 1)).
Proof.
  intros D Hi Hj Hl Hr. pose proof D as (Mo & Hp & L1 & L2 & L3).
  assert (G : forall q : nat, (i + Z.of_nat q <= j)%Z -> (1 <= q)%nat ->
     (exists m : nat, (1 <= m <= q)%nat /\ knot U (i + Z.of_nat m) < knot U (i + Z.of_nat m + 1) /\
       (forall k, (i + 1 <= k <= i + Z.of_nat m)%Z -> knot U k = knot U (i + 1))) \/
     (forall k, (i + 1 <= k <= i + Z.of_nat q + 1)%Z -> knot U k = knot U (i + 1))).
  { induction q as [|q IH]; intros Hq H1; [lia|].
    assert (P0 : (exists m : nat, (1 <= m <= q)%nat /\ knot U (i + Z.of_nat m) < knot U (i + Z.of_nat m + 1) /\
       (forall k, (i + 1 <= k <= i + Z.of_nat m)%Z -> knot U k = knot U (i + 1))) \/
       (forall k, (i + 1 <= k <= i + Z.of_nat q + 1)%Z -> knot U k = knot U (i + 1))).
    { destruct q as [|q]; [right; intros k Hk; f_equal; lia|]. apply IH; lia. }
    destruct P0 as [(m & H2 & H3 & H4)|E]; [left; exists m; split; [lia|auto]|].
    destruct (Rlt_dec (knot U (i + Z.of_nat (S q))) (knot U (i + Z.of_nat (S q) + 1))) as [L|L].
    - left. exists (S q). split; [lia|]. split; [exact L|]. intros k Hk. apply E. lia.
    - right. intros k Hk. destruct (Z.eq_dec k (i + Z.of_nat (S q) + 1)) as [->|]; [|apply E; lia].
      pose proof (Mo (i + Z.of_nat (S q))%Z (i + Z.of_nat (S q) + 1)%Z ltac:(lia) ltac:(lia)).
      rewrite <- (E (i + Z.of_nat (S q))%Z) by lia. lra. }
  destruct (G (Z.to_nat (j - i)) ltac:(lia) ltac:(lia)) as [(m & H1 & H2 & H3)|E].
  - exists m. split; [lia|]. split; [lia|]. split; auto.
  - exfalso. rewrite (E j), (E (j + 1)%Z) in Hr by lia. lra.
Qed.
Lemma glue_curve U P n p i m c d : curve_data U P n p -> (p <= i)%Z -> (i + Z.of_nat m <= n)%Z ->
  (m <= d)%nat -> (d <= Z.to_nat p)%nat ->
  knot U i < knot U (i + 1) -> knot U (i + Z.of_nat m) < knot U (i + Z.of_nat m + 1) ->
  (forall k, (i + 1 <= k <= i + Z.of_nat m)%Z -> knot U k = knot U (i + 1)) -> (1 <= m)%nat ->
  deboor (knot U) (knot U (i + 1)) d c i = deboor (knot U) (knot U (i + 1)) d c (i + Z.of_nat m)%Z.
Proof.
  intros (Mo & Hp & L1 & L2 & L3) Hi Hn Hm Hd Hl Hr E H1. apply glue; [exact Hm|exact E| |].
  - intros k Hk. pose proof (Mo k i ltac:(lia) ltac:(lia)). lra.
  - intros k Hk. rewrite (E (i + Z.of_nat m)%Z) in Hr by lia.
    pose proof (Mo (i + Z.of_nat m + 1)%Z k ltac:(lia) ltac:(lia)). lra.
Qed.

(** a relation that holds along every span holds along the curve *)
Lemma chain (Q : R -> R -> R -> R -> Prop) U P n p c :
  (forall u v w x y z, u <= v <= w -> Q u v x y -> Q v w y z -> Q u w x z) ->
  curve_data U P n p -> multiplicity_at_most U n p p ->
  (forall i u v, (p <= i <= n)%Z -> knot U i < knot U (i + 1) -> knot U i <= u <= v -> v <= knot U (i + 1) ->
     Q u v (deboor (knot U) u (Z.to_nat p) c i) (deboor (knot U) v (Z.to_nat p) c i)) ->
  forall i j u v, (p <= i <= j)%Z -> (j <= n)%Z -> knot U i < knot U (i + 1) -> knot U j < knot U (j + 1) ->
    knot U i <= u <= knot U (i + 1) -> knot U j <= v <= knot U (j + 1) -> u <= v ->
    Q u v (deboor (knot U) u (Z.to_nat p) c i) (deboor (knot U) v (Z.to_nat p) c j).
Proof.
  intros T D HM HS. pose proof D as (Mo & Hp & L1 & L2 & L3).
  intros i j. remember (Z.to_nat (j - i)) as q. revert i Heqq.
  induction q as [q IH] using lt_wf_ind. intros i Hq u v Hi Hj Hl Hr Hu Hv Huv.
  destruct (Z.eq_dec i j) as [->|N]; [apply HS; auto; lia || lra|].
  destruct (next_span U P n p i j D ltac:(lia) Hj Hl Hr) as (m & H1 & H2 & H3 & H4).
  assert (Hm : (Z.of_nat m <= p)%Z).
  { destruct (Z_le_gt_dec (Z.of_nat m) p); [auto|]. exfalso.
    pose proof (HM (i + 1)%Z ltac:(lia) ltac:(lia)) as B. rewrite (H4 (i + 1 + p)%Z) in B by lia. lra. }
  pose proof (Mo (i + 1)%Z j ltac:(lia) ltac:(lia)) as B1.
  apply (T u (knot U (i + 1)) v _ (deboor (knot U) (knot U (i + 1)) (Z.to_nat p) c i)).
  - split; [lra|]. lra.
  - apply HS; auto; try lia; lra.
  - rewrite (glue_curve U P n p i m c (Z.to_nat p)) by (auto; lia).
    apply (IH (Z.to_nat (j - (i + Z.of_nat m)))); auto; try lia.
    + pose proof (H4 (i + Z.of_nat m)%Z ltac:(lia)) as E. lra.
    + lra.
Qed.

(** the derivative on a span is bounded by the slopes *)
Lemma slope_bounds U P n p c lo hi i u : curve_data U P n p -> (1 <= p)%Z -> (p <= i <= n)%Z ->
  knot U i < knot U (i + 1) -> knot U i <= u <= knot U (i + 1) ->
  (forall k, (1 <= k <= n)%Z -> knot U k < knot U (k + p) -> lo <= slope (knot U) (Z.to_nat p) c k <= hi) ->
  exists q, derivable_pt_lim (fun v => deboor (knot U) v (Z.to_nat p) c i) u (IZR p * q) /\ lo <= q <= hi.
Proof.
  intros D Hp1 Hi Hl Hu Hs. pose proof (data_mono U P n p i D Hi) as DM. pose proof D as (Mo & Hp & L1 & L2 & L3).
  exists (deboor (knot U) u (Z.to_nat p - 1) (slope (knot U) (Z.to_nat p) c) i). split.
  - pose proof (deboor_derivative (knot U) i (Z.to_nat p) DM Hl (Z.to_nat p - 1) c u ltac:(lia)) as H.
    replace (S (Z.to_nat p - 1)) with (Z.to_nat p) in H by lia. rewrite INR_IZR_INZ, Z2Nat.id in H by lia. exact H.
  - apply (deboor_bounds (knot U) i (Z.to_nat p) DM Hl u lo hi Hu); [lia|]. intros k Hk. apply Hs; [lia|].
    pose proof (width (knot U) i (Z.to_nat p) DM Hl k (Z.to_nat p) ltac:(lia) ltac:(lia)) as W.
    rewrite Z2Nat.id in W by lia. lra.
Qed.
Lemma span_growth U P n p c lo hi i u v : curve_data U P n p -> (1 <= p)%Z -> (p <= i <= n)%Z ->
  knot U i < knot U (i + 1) -> knot U i <= u <= v -> v <= knot U (i + 1) ->
  (forall k, (1 <= k <= n)%Z -> knot U k < knot U (k + p) -> lo <= slope (knot U) (Z.to_nat p) c k <= hi) ->
  IZR p * lo * (v - u) <= deboor (knot U) v (Z.to_nat p) c i - deboor (knot U) u (Z.to_nat p) c i <= IZR p * hi * (v - u).
Proof.
  intros D Hp1 Hi Hl Huv Hv Hs.
  destruct (Req_dec u v) as [->|Nuv]; [split; ring_simplify; lra|].
  set (g := fun v => deboor (knot U) v (Z.to_nat p) c i).
  assert (H : exists w, g v - g u = w * (v - u) /\ exists q, w = IZR p * q /\ lo <= q <= hi).
  { pose proof (data_mono U P n p i D Hi) as DM. pose proof D as (Mo & Hp & L1 & L2 & L3).
    set (g' := fun u => IZR p * deboor (knot U) u (Z.to_nat p - 1) (slope (knot U) (Z.to_nat p) c) i).
    destruct (MVT_cor2 g g' u v) as (w & E & Hw); [lra| |].
    - intros w Hw. pose proof (deboor_derivative (knot U) i (Z.to_nat p) DM Hl (Z.to_nat p - 1) c w ltac:(lia)) as H.
      replace (S (Z.to_nat p - 1)) with (Z.to_nat p) in H by lia. rewrite INR_IZR_INZ, Z2Nat.id in H by lia. exact H.
    - exists (g' w). split; [exact E|]. eexists. split; [reflexivity|].
      apply (deboor_bounds (knot U) i (Z.to_nat p) DM Hl w lo hi ltac:(lra)); [lia|]. intros k Hk. apply Hs; [lia|].
      pose proof (width (knot U) i (Z.to_nat p) DM Hl k (Z.to_nat p) ltac:(lia) ltac:(lia)) as W.
      rewrite Z2Nat.id in W by lia. lra. }
  destruct H as (w & E & q & -> & Hq). unfold g in E. rewrite E.
  assert (0 <= IZR p) by (apply IZR_le; lia).
  split; apply Rmult_le_compat_r; try lra; apply Rmult_le_compat_l; lra.
Qed.
Lemma curve_growth U P n p a lo hi u v fuel : curve_data U P n p -> (1 <= p)%Z -> multiplicity_at_most U n p p ->
  (Z.to_nat (n + 1 - p) <= fuel)%nat -> in_domain U n p u -> in_domain U n p v -> u <= v ->
  (forall k, (1 <= k <= n)%Z -> knot U k < knot U (k + p) -> lo <= slope (knot U) (Z.to_nat p) (cp a P) k <= hi) ->
  IZR p * lo * (v - u) <=
    coordinate a (curvePoint fuel n p U (map fv P) (Fin v : XR)) - coordinate a (curvePoint fuel n p U (map fv P) (Fin u : XR))
    <= IZR p * hi * (v - u).
Proof.
  intros D Hp1 HM Hf Du Dv Huv Hs.
  destruct (domain_span U P n p u fuel D Du Hf) as (i & Si). destruct (domain_span U P n p v fuel D Dv Hf) as (j & Sj).
  rewrite (coord_at a U P n p u fuel i D Hf Si), (coord_at a U P n p v fuel j D Hf Sj).
  pose proof D as (Mo & Hp & L1 & L2 & L3). pose proof Si as (I1 & I2 & I3 & I4 & I5). pose proof Sj as (J1 & J2 & J3 & J4 & J5).
  assert (Hij : (i <= j)%Z).
  { destruct (Z_le_gt_dec i j); [auto|]. exfalso. pose proof (Mo (j + 1)%Z i ltac:(lia) ltac:(lia)).
    destruct (Req_dec v (knot U (n + 1))) as [Q|Q]; [specialize (J4 Q); lia|specialize (J5 Q); lra]. }
  apply (chain (fun u v x y => IZR p * lo * (v - u) <= y - x <= IZR p * hi * (v - u)) U P n p (cp a P)); auto; try lia.
  - intros x y z q r s Hx H1 H2. split.
    + replace (IZR p * lo * (z - x)) with (IZR p * lo * (y - x) + IZR p * lo * (z - y)) by ring. lra.
    + replace (IZR p * hi * (z - x)) with (IZR p * hi * (y - x) + IZR p * hi * (z - y)) by ring. lra.
  - intros k x y Hk Hl Hx Hy. apply (span_growth U P n p (cp a P) lo hi k x y); auto.
Qed.
