(** Curves: Bezier segments, derivative, reversal, affine maps. *)
From Coq Require Import Reals Lra Lia ZArith List Bool.
From Verif Require Import Base Arith M_r3 Spec_r3 XRvec M_nurbs Spec_nurbs P_nurbs P_nurbs2 Spec_spline P_spline P_spline2.
Import ListNotations.
Open Scope R_scope.

(** ** Bezier segments *)
Lemma shifted_sum x d (b b' T : nat -> R) : b' O = (1 - x) * b O -> b' (S d) = x * b d ->
  (forall r, (r < d)%nat -> b' (S r) = x * b r + (1 - x) * b (S r)) ->
  sum_f_R0 (fun r => b' r * T r) (S d) = sum_f_R0 (fun r => b r * (x * T (S r) + (1 - x) * T r)) d.
Proof.
  intros H0 H1 H.
  assert (G : forall q, (q <= d)%nat -> sum_f_R0 (fun r => b' r * T r) q + x * b q * T (S q) =
     sum_f_R0 (fun r => b r * (x * T (S r) + (1 - x) * T r)) q).
  { induction q as [|q IH]; intros Hq; [cbn; rewrite H0; ring|].
    change (sum_f_R0 (fun r => b' r * T r) (S q)) with (sum_f_R0 (fun r => b' r * T r) q + b' (S q) * T (S q)).
    change (sum_f_R0 (fun r => b r * (x * T (S r) + (1 - x) * T r)) (S q)) with
      (sum_f_R0 (fun r => b r * (x * T (S r) + (1 - x) * T r)) q + b (S q) * (x * T (S (S q)) + (1 - x) * T (S q))).
    rewrite <- IH by lia. rewrite H by lia. ring. }
  rewrite <- G by lia. cbn [sum_f_R0]. rewrite H1. ring.
Qed.
Lemma C_n_0 n : Binomial.C n 0 = 1.
Proof. unfold Binomial.C. rewrite Nat.sub_0_r. cbn [fact]. simpl INR. field. apply INR_fact_neq_0. Qed.
Lemma C_n_n n : Binomial.C n n = 1.
Proof. unfold Binomial.C. rewrite Nat.sub_diag. cbn [fact]. simpl INR. field. apply INR_fact_neq_0. Qed.
Lemma bernstein_0 d x : bernstein (S d) 0 x = (1 - x) * bernstein d 0 x.
Proof. unfold bernstein. rewrite !C_n_0, !Nat.sub_0_r. simpl. ring. Qed.
Lemma bernstein_top d x : bernstein (S d) (S d) x = x * bernstein d d x.
Proof. unfold bernstein. rewrite !C_n_n, !Nat.sub_diag. simpl. ring. Qed.
Lemma bernstein_S d r x : (r < d)%nat -> bernstein (S d) (S r) x = x * bernstein d r x + (1 - x) * bernstein d (S r) x.
Proof.
  intros H. unfold bernstein. rewrite <- (pascal d r H). replace (S d - S r)%nat with (S (d - S r)) by lia.
  replace (d - r)%nat with (S (d - S r)) by lia. simpl. ring.
Qed.
Lemma deboor_bezier t i p a b u : a < b ->
  (forall k, (i + 1 - Z.of_nat p <= k <= i)%Z -> t k = a) -> (forall k, (i + 1 <= k <= i + Z.of_nat p)%Z -> t k = b) ->
  forall d c, (d <= p)%nat -> deboor t u d c i =
    sum_f_R0 (fun r => bernstein d r ((u - a) / (b - a)) * c (i - Z.of_nat d + Z.of_nat r)%Z) d.
Proof.
  intros Hab Ha Hb. set (x := (u - a) / (b - a)). induction d as [|d IH]; intros c Hd.
  - cbn [deboor sum_f_R0]. unfold bernstein. rewrite C_n_0. simpl. replace (i - 0 + 0)%Z with i by lia. ring.
  - cbn [deboor]. rewrite (deboor_ext t u d _ (fun k => x * c k + (1 - x) * c (k - 1)%Z)).
    + rewrite IH by lia.
      rewrite (shifted_sum x d (fun r => bernstein d r x) (fun r => bernstein (S d) r x)
        (fun r => c (i - Z.of_nat (S d) + Z.of_nat r)%Z)).
      * apply sum_eq. intros r Hr. f_equal. f_equal; f_equal; f_equal; lia.
      * apply bernstein_0.
      * apply bernstein_top.
      * intros; now apply bernstein_S.
    + intros k Hk. unfold mix, x. rewrite (Ha k), (Hb (k + Z.of_nat (S d))%Z) by lia. field. lra.
Qed.

(** ** changing the knots *)
Lemma deboor_knots t t' u : forall d c i, (forall k, (i + 1 - Z.of_nat d <= k <= i + Z.of_nat d)%Z -> t k = t' k) ->
  deboor t u d c i = deboor t' u d c i.
Proof.
  induction d as [|d IH]; intros c i H; cbn [deboor]; [reflexivity|].
  rewrite (IH (mix t u (S d) c) i) by (intros; apply H; lia). apply deboor_ext. intros k Hk. unfold mix.
  rewrite (H k), (H (k + Z.of_nat (S d))%Z) by lia. reflexivity.
Qed.
Lemma deboor_shift t u : forall d c i,
  deboor (fun k => t (k + 1)%Z) u d (fun k => c (k + 1)%Z) i = deboor t u d c (i + 1)%Z.
Proof.
  induction d as [|d IH]; intros c i; cbn [deboor]; [reflexivity|].
  rewrite <- IH. apply deboor_ext. intros k _. unfold mix.
  replace (k + Z.of_nat (S d) + 1)%Z with (k + 1 + Z.of_nat (S d))%Z by lia.
  replace (k - 1 + 1)%Z with (k + 1 - 1)%Z by lia. reflexivity.
Qed.
Lemma knot_tl U k : (0 <= k)%Z -> knot (tl U) k = knot U (k + 1).
Proof.
  intros H. unfold knot. replace (Z.to_nat (k + 1)) with (S (Z.to_nat k)) by lia.
  destruct U as [|z U]; [destruct (Z.to_nat k); reflexivity|reflexivity].
Qed.
Lemma tl_data U P n p Q : curve_data U P n p -> (1 <= p)%Z -> (n <= Z.of_nat (length Q))%Z ->
  curve_data (tl U) Q (n - 1) (p - 1).
Proof.
  intros (Mo & Hp & L1 & L2 & L3) Hp1 HQ.
  assert (L : Z.of_nat (length (tl U)) = (Z.of_nat (length U) - 1)%Z).
  { destruct U; cbn [length tl] in *; lia. }
  split; [|lia]. intros a b Hab Hb. rewrite !knot_tl by lia. apply Mo; lia.
Qed.
Lemma tl_span U n p u i : (1 <= p)%Z -> span_of U n p u i -> span_of (tl U) (n - 1) (p - 1) u (i - 1).
Proof.
  intros Hp1 (I1 & I2 & I3 & I4 & I5). unfold span_of. rewrite !knot_tl by lia.
  replace (i - 1 + 1)%Z with i by lia. replace (n - 1 + 1)%Z with n by lia.
  split; [lia|]. split; [exact I2|]. split; [exact I3|]. split; [intros E; specialize (I4 E); lia|exact I5].
Qed.
Lemma hodograph_piece U P n p Q a u i : curve_data U P n p -> (1 <= p)%Z -> hodograph U P n p Q ->
  (p <= i <= n)%Z -> knot U i < knot U (i + 1) ->
  IZR p * deboor (knot U) u (Z.to_nat p - 1) (slope (knot U) (Z.to_nat p) (cp a P)) i =
  deboor (knot (tl U)) u (Z.to_nat (p - 1)) (cp a Q) (i - 1).
Proof.
  intros D Hp1 [LQ HQ] Hi Hl. pose proof (data_mono U P n p i D Hi) as DM. pose proof D as (Mo & Hp & L1 & L2 & L3).
  rewrite <- deboor_scale.
  set (c := fun k => cp a Q (k - 1)).
  rewrite (deboor_ext (knot (tl U)) u _ (cp a Q) (fun k => c (k + 1)%Z))
    by (intros k Hk; unfold c; f_equal; lia).
  rewrite (deboor_knots (knot (tl U)) (fun k => knot U (k + 1))) by (intros k Hk; apply knot_tl; lia).
  rewrite deboor_shift. replace (i - 1 + 1)%Z with i by lia.
  replace (Z.to_nat (p - 1)) with (Z.to_nat p - 1)%nat by lia.
  apply deboor_ext. intros k Hk. unfold c, slope.
  pose proof (width (knot U) i (Z.to_nat p) DM Hl k (Z.to_nat p) ltac:(lia) ltac:(lia)) as W.
  rewrite Z2Nat.id in * by lia.
  rewrite HQ; replace (k - 1 + 1)%Z with k by lia; [|lia|lra].
  unfold Rdiv. ring.
Qed.

(** the span on the left of a knot *)
Lemma prev_span U P n p i : curve_data U P n p -> (p <= i <= n)%Z -> knot U p < knot U i ->
  exists m : nat, (1 <= m)%nat /\ (p <= i - Z.of_nat m)%Z /\ knot U (i - Z.of_nat m) < knot U i /\
    (forall k, (i - Z.of_nat m + 1 <= k <= i)%Z -> knot U k = knot U i).
Proof.
  intros (Mo & Hp & L1 & L2 & L3) Hi Hl.
  assert (G : forall q : nat, (Z.of_nat q <= i - p)%Z ->
     (exists m : nat, (1 <= m <= q)%nat /\ knot U (i - Z.of_nat m) < knot U i /\
       (forall k, (i - Z.of_nat m + 1 <= k <= i)%Z -> knot U k = knot U i)) \/
     (forall k, (i - Z.of_nat q <= k <= i)%Z -> knot U k = knot U i)).
  { induction q as [|q IH]; intros Hq; [right; intros k Hk; f_equal; lia|].
    destruct IH as [(m & H1 & H2 & H3)|E]; [lia|left; exists m; split; [lia|auto]|].
    destruct (Rlt_dec (knot U (i - Z.of_nat (S q))) (knot U i)) as [L|L].
    - left. exists (S q). split; [lia|]. split; [exact L|]. intros k Hk. apply E. lia.
    - right. intros k Hk. destruct (Z.eq_dec k (i - Z.of_nat (S q))) as [->|]; [|apply E; lia].
      pose proof (Mo (i - Z.of_nat (S q))%Z i ltac:(lia) ltac:(lia)). lra. }
  destruct (G (Z.to_nat (i - p)) ltac:(lia)) as [(m & H1 & H2 & H3)|E].
  - exists m. split; [lia|]. split; [lia|]. auto.
  - rewrite (E p) in Hl by lia. lra.
Qed.

(** ** derivative of a function made of two pieces *)
Lemma derivable_pieces f g h lo u hi L : lo < u < hi -> (forall v, lo < v <= u -> f v = g v) ->
  (forall v, u <= v < hi -> f v = h v) -> derivable_pt_lim g u L -> derivable_pt_lim h u L -> derivable_pt_lim f u L.
Proof.
  intros Hu Hg Hh Dg Dh e He. destruct (Dg e He) as (d1 & D1). destruct (Dh e He) as (d2 & D2).
  assert (Hd : 0 < Rmin (Rmin d1 d2) (Rmin (u - lo) (hi - u))).
  { repeat apply Rmin_glb_lt; try (apply cond_pos); lra. }
  exists (mkposreal _ Hd). intros w Hw Hlt. cbn in Hlt.
  assert (Rabs w < d1 /\ Rabs w < d2 /\ Rabs w < u - lo /\ Rabs w < hi - u) as (A1 & A2 & A3 & A4).
  { pose proof (Rmin_l (Rmin d1 d2) (Rmin (u - lo) (hi - u))). pose proof (Rmin_r (Rmin d1 d2) (Rmin (u - lo) (hi - u))).
    pose proof (Rmin_l d1 d2). pose proof (Rmin_r d1 d2).
    pose proof (Rmin_l (u - lo) (hi - u)). pose proof (Rmin_r (u - lo) (hi - u)). lra. }
  pose proof (Rle_abs w). pose proof (Rle_abs (- w)) as B. rewrite Rabs_Ropp in B.
  destruct (Rle_dec w 0) as [N|N].
  - rewrite (Hg (u + w)), (Hg u) by lra. apply D1; auto.
  - rewrite (Hh (u + w)), (Hh u) by lra. apply D2; auto.
Qed.

Lemma curve_derivative U P n p Q a u fuel : curve_data U P n p -> (1 <= p)%Z -> hodograph U P n p Q ->
  (Z.to_nat (n + 1 - p) <= fuel)%nat -> knot U p < u < knot U (n + 1) ->
  (forall k, (p < k)%Z -> (k + p - 1 <= n)%Z -> ~ (knot U k = u /\ knot U (k + p - 1) = u)) ->
  derivable_pt_lim (fun v => coordinate a (curvePoint fuel n p U (map fv P) (Fin v : XR))) u
    (coordinate a (curvePoint fuel (n - 1) (p - 1) (tl U) (map fv Q) (Fin u : XR))).
Proof.
  intros D Hp1 HQ Hf Hu HM. pose proof D as (Mo & Hp & L1 & L2 & L3).
  destruct (domain_span U P n p u fuel D ltac:(split; [lra|intros E; lra]) Hf) as (i & Si).
  pose proof Si as (I1 & I2 & I3 & I4 & I5). specialize (I5 ltac:(lra)).
  pose proof (Mo (i + 1)%Z (n + 1)%Z ltac:(lia) ltac:(lia)) as Mi.
  pose proof (tl_data U P n p Q D Hp1 (proj1 HQ)) as DQ.
  rewrite (coord_at a (tl U) Q (n - 1) (p - 1) u fuel (i - 1) DQ ltac:(lia) (tl_span U n p u i Hp1 Si)).
  assert (At : forall j v, (p <= j <= n)%Z -> knot U j <= v < knot U (j + 1) ->
    coordinate a (curvePoint fuel n p U (map fv P) (Fin v : XR)) = deboor (knot U) v (Z.to_nat p) (cp a P) j).
  { intros j v Hj Hv. apply coord_at; auto. pose proof (Mo (j + 1)%Z (n + 1)%Z ltac:(lia) ltac:(lia)).
    split; [exact Hj|]. split; [lra|]. split; [lra|]. split; [intros; lra|intros; lra]. }
  assert (Dj : forall j, (p <= j <= n)%Z -> knot U j < knot U (j + 1) ->
    derivable_pt_lim (fun v => deboor (knot U) v (Z.to_nat p) (cp a P) j) u
      (IZR p * deboor (knot U) u (Z.to_nat p - 1) (slope (knot U) (Z.to_nat p) (cp a P)) j)).
  { intros j Hj Hl. pose proof (data_mono U P n p j D Hj) as DM.
    pose proof (deboor_derivative (knot U) j (Z.to_nat p) DM Hl (Z.to_nat p - 1) (cp a P) u ltac:(lia)) as H.
    replace (S (Z.to_nat p - 1)) with (Z.to_nat p) in H by lia. rewrite INR_IZR_INZ, Z2Nat.id in H by lia. exact H. }
  rewrite <- (hodograph_piece U P n p Q a u i D Hp1 HQ I1 I3).
  destruct (Rlt_dec (knot U i) u) as [Lt|Nlt].
  - apply (derivable_pieces _ (fun v => deboor (knot U) v (Z.to_nat p) (cp a P) i)
      (fun v => deboor (knot U) v (Z.to_nat p) (cp a P) i) (knot U i) u (knot U (i + 1))); try lra;
      [intros v Hv; apply At; auto; lra|intros v Hv; apply At; auto; lra|apply Dj; auto|apply Dj; auto].
  - assert (Eu : u = knot U i) by lra.
    destruct (prev_span U P n p i D I1 ltac:(lra)) as (m & H1 & H2 & H3 & H4).
    set (j := (i - Z.of_nat m)%Z) in *.
    assert (Ej : knot U (j + 1) = u) by (rewrite H4 by lia; auto).
    assert (Hm : (Z.of_nat m <= p - 1)%Z).
    { destruct (Z_le_gt_dec (Z.of_nat m) (p - 1)); [auto|]. exfalso.
      apply (HM (j + 1)%Z ltac:(lia) ltac:(lia)). split; [exact Ej|rewrite H4 by lia; auto]. }
    assert (G : forall d, (m <= d)%nat -> (d <= Z.to_nat p)%nat -> forall c,
        deboor (knot U) u d c j = deboor (knot U) u d c i).
    { intros d Hd1 Hd2 c. rewrite <- Ej. replace i with (j + Z.of_nat m)%Z by lia.
      apply (glue_curve U P n p); auto; try lia.
      - lra.
      - replace (j + Z.of_nat m)%Z with i by lia. exact I3.
      - intros k Hk. rewrite Ej, Eu. apply H4. lia. }
    apply (derivable_pieces _ (fun v => deboor (knot U) v (Z.to_nat p) (cp a P) j)
      (fun v => deboor (knot U) v (Z.to_nat p) (cp a P) i) (knot U j) u (knot U (i + 1))); try lra.
    + intros v Hv. destruct (Req_dec v u) as [->|Nv].
      * rewrite (At i u) by (auto; lra). symmetry. apply G; lia.
      * apply At; [lia|]. lra.
    + intros v Hv. apply At; auto; lra.
    + rewrite <- (G (Z.to_nat p - 1)%nat) by lia. apply Dj; [lia|]. lra.
    + apply Dj; auto.
Qed.

(** ** reversal *)
Lemma knot_reverse U k : (0 <= k < Z.of_nat (length U))%Z ->
  knot (rev (map Z.opp U)) k = - knot U (Z.of_nat (length U) - 1 - k).
Proof.
  intros Hk. unfold knot. rewrite rev_nth by (rewrite map_length; lia). rewrite map_length.
  replace (length U - S (Z.to_nat k))%nat with (Z.to_nat (Z.of_nat (length U) - 1 - k)) by lia.
  rewrite <- opp_IZR. f_equal.
  rewrite (nth_indep _ 0%Z (Z.opp 0)) by (rewrite map_length; lia). apply map_nth.
Qed.
Lemma cp_reverse a P k : (0 <= k < Z.of_nat (length P))%Z -> cp a (rev P) k = cp a P (Z.of_nat (length P) - 1 - k).
Proof.
  intros Hk. unfold cp. rewrite rev_nth by lia. do 2 f_equal. lia.
Qed.
Lemma reverse_data U P n p : curve_data U P n p -> length U = Z.to_nat (n + p + 2) -> length P = Z.to_nat (n + 1) ->
  curve_data (rev (map Z.opp U)) (rev P) n p.
Proof.
  intros (Mo & Hp & L1 & L2 & L3) LU LP. split; [|rewrite !rev_length, map_length; lia].
  intros a b Hab Hb. rewrite rev_length, map_length in Hb. rewrite !knot_reverse by lia.
  apply Ropp_le_contravar. apply Mo; lia.
Qed.
Lemma reverse_piece U P n p a u i : curve_data U P n p -> length U = Z.to_nat (n + p + 2) -> length P = Z.to_nat (n + 1) ->
  (p <= i <= n)%Z ->
  deboor (knot (rev (map Z.opp U))) (- u) (Z.to_nat p) (cp a (rev P)) (n + p - i) = deboor (knot U) u (Z.to_nat p) (cp a P) i.
Proof.
  intros (Mo & Hp & L1 & L2 & L3) LU LP Hi.
  rewrite (deboor_knots _ (fun k => - knot U (n + p + 1 - k))).
  - rewrite (deboor_ext _ _ _ _ (fun k => cp a P (n - k))).
    + rewrite (deboor_reverse (knot U) _ (n + p + 1) u (fun k => eq_refl) (Z.to_nat p) (cp a P) _ n).
      * f_equal. lia.
      * lia.
      * intros; reflexivity.
    + intros k Hk. rewrite cp_reverse by lia. f_equal. lia.
  - intros k Hk. rewrite knot_reverse by lia. do 2 f_equal. lia.
Qed.
Lemma curve_reverse U P n p u fuel : curve_data U P n p -> length U = Z.to_nat (n + p + 2) -> length P = Z.to_nat (n + 1) ->
  (Z.to_nat (n + 1 - p) <= fuel)%nat -> in_domain U n p u -> (u = knot U p -> u < knot U (p + 1)) ->
  (forall k, (p < k)%Z -> (k + p <= n)%Z -> ~ (knot U k = u /\ knot U (k + p) = u)) ->
  curvePoint fuel n p (rev (map Z.opp U)) (map fv (rev P)) (Fin (- u) : XR) = curvePoint fuel n p U (map fv P) (Fin u : XR).
Proof.
  intros D LU LP Hf Hu Hstart HM. pose proof D as (Mo & Hp & L1 & L2 & L3).
  pose proof (reverse_data U P n p D LU LP) as DR.
  destruct (domain_span U P n p u fuel D Hu Hf) as (i & Si). rewrite (curve_at U P n p u fuel i D Hf Si).
  pose proof Si as (I1 & I2 & I3 & I4 & I5).
  (* the span on the left of u *)
  assert (J : exists j, (p <= j <= n)%Z /\ knot U j <= u <= knot U (j + 1) /\ knot U j < knot U (j + 1) /\
     (u = knot U p -> j = p) /\ (u <> knot U p -> knot U j < u) /\
     (forall c, deboor (knot U) u (Z.to_nat p) c j = deboor (knot U) u (Z.to_nat p) c i)).
  { destruct (Req_dec u (knot U p)) as [Ep|Np].
    - specialize (Hstart Ep). assert (i = p).
      { destruct (Z.eq_dec i p); [auto|]. pose proof (Mo (p + 1)%Z i ltac:(lia) ltac:(lia)). lra. }
      subst i. exists p. split; [lia|]. split; [lra|]. split; [lra|]. split; [auto|]. split; [intros; lra|reflexivity].
    - destruct (Rlt_dec (knot U i) u) as [Lt|Nlt].
      + exists i. split; [lia|]. split; [lra|]. split; [lra|]. split; [intros; lra|]. split; [auto|reflexivity].
      + assert (Eu : u = knot U i) by lra. destruct Hu as [Hu1 Hu2].
        destruct (prev_span U P n p i D I1 ltac:(lra)) as (m & H1 & H2 & H3 & H4).
        set (j := (i - Z.of_nat m)%Z) in *.
        assert (Ej : knot U (j + 1) = u) by (rewrite H4 by lia; auto).
        assert (Hm : (Z.of_nat m <= p)%Z).
        { destruct (Z_le_gt_dec (Z.of_nat m) p); [auto|]. exfalso.
          apply (HM (j + 1)%Z ltac:(lia) ltac:(lia)). split; [exact Ej|rewrite H4 by lia; auto]. }
        exists j. split; [lia|]. split; [lra|]. split; [lra|]. split; [intros; lra|]. split; [intros; lra|].
        intros c. rewrite <- Ej. replace i with (j + Z.of_nat m)%Z by lia.
        apply (glue_curve U P n p); auto; try lia.
        * lra.
        * replace (j + Z.of_nat m)%Z with i by lia. exact I3.
        * intros k Hk. rewrite Ej, Eu. apply H4. lia. }
  destruct J as (j & J1 & J2 & J3 & J4 & J5 & J6).
  rewrite (curve_at (rev (map Z.opp U)) (rev P) n p (- u) fuel (n + p - j) DR Hf).
  - unfold dbpoint. rewrite !(reverse_piece U P n p _ u j D LU LP J1). now rewrite !J6.
  - unfold span_of. rewrite !knot_reverse by (rewrite LU; lia). rewrite LU.
    replace (Z.of_nat (Z.to_nat (n + p + 2)) - 1 - (n + p - j))%Z with (j + 1)%Z by lia.
    replace (Z.of_nat (Z.to_nat (n + p + 2)) - 1 - (n + p - j + 1))%Z with j by lia.
    replace (Z.of_nat (Z.to_nat (n + p + 2)) - 1 - (n + 1))%Z with p by lia.
    split; [lia|]. split; [lra|]. split; [lra|]. split.
    + intros E. specialize (J4 ltac:(lra)). lia.
    + intros E. specialize (J5 ltac:(lra)). lra.
Qed.

(** ** affine maps *)
Lemma deboor_affine f t i p u : affine f ->
  (forall a b, (i + 1 - Z.of_nat p <= a <= b)%Z -> (b <= i + Z.of_nat p)%Z -> t a <= t b) -> t i < t (i + 1)%Z ->
  forall d (V : Z -> rv), (d <= p)%nat ->
  f (RV (deboor t u d (fun k => rx (V k)) i) (deboor t u d (fun k => ry (V k)) i) (deboor t u d (fun k => rz (V k)) i)) =
  RV (deboor t u d (fun k => rx (f (V k))) i) (deboor t u d (fun k => ry (f (V k))) i) (deboor t u d (fun k => rz (f (V k))) i).
Proof.
  intros Hf M Hi. induction d as [|d IH]; intros V Hd; cbn [deboor].
  - destruct (V i); destruct (f _); reflexivity.
  - set (s := fun k => (u - t k) / (t (k + Z.of_nat (S d))%Z - t k)).
    set (W := fun k => radd (rscale (s k) (V k)) (rscale (1 - s k) (V (k - 1)%Z))).
    assert (X : forall g : rv -> R, (forall a b, g (radd a b) = g a + g b) -> (forall q a, g (rscale q a) = q * g a) ->
      forall V : Z -> rv,
      deboor t u d (mix t u (S d) (fun k => g (V k))) i =
      deboor t u d (fun k => g (radd (rscale (s k) (V k)) (rscale (1 - s k) (V (k - 1)%Z)))) i).
    { intros g Ga Gs V0. apply deboor_ext. intros k Hk. rewrite Ga, !Gs. unfold mix, s.
      pose proof (width t i p M Hi k (S d) ltac:(lia) Hd). field. lra. }
    rewrite (X rx), (X ry), (X rz) by (intros; reflexivity).
    pose proof (IH W ltac:(lia)) as IW. unfold W in IW. rewrite IW.
    rewrite (X rx (fun _ _ => eq_refl) (fun _ _ => eq_refl) (fun k => f (V k))).
    rewrite (X ry (fun _ _ => eq_refl) (fun _ _ => eq_refl) (fun k => f (V k))).
    rewrite (X rz (fun _ _ => eq_refl) (fun _ _ => eq_refl) (fun k => f (V k))).
    f_equal; apply deboor_ext; intros k _; now rewrite Hf.
Qed.
Lemma curve_affine U P n p u fuel f : affine f -> curve_data U P n p -> in_domain U n p u ->
  (Z.to_nat (n + 1 - p) <= fuel)%nat -> exists C,
  curvePoint fuel n p U (map fv P) (Fin u : XR) = Ok (fv C) /\
  curvePoint fuel n p U (map fv (map f P)) (Fin u : XR) = Ok (fv (f C)).
Proof.
  intros Af D Hu Hf. pose proof D as (Mo & Hp & L1 & L2 & L3).
  destruct (domain_span U P n p u fuel D Hu Hf) as (i & Si). pose proof Si as (I1 & I2 & I3 & I4 & I5).
  exists (dbpoint U P p i u). split; [apply (curve_at U P n p u fuel i D Hf Si)|].
  assert (D' : curve_data U (map f P) n p).
  { split; [exact Mo|]. rewrite map_length. lia. }
  rewrite (curve_at U (map f P) n p u fuel i D' Hf Si). do 2 f_equal. unfold dbpoint, cp, rc.
  rewrite (deboor_affine f (knot U) i (Z.to_nat p) u Af (data_mono U P n p i D I1) I3 (Z.to_nat p)
    (fun k => nth (Z.to_nat k) P rzero)) by lia.
  f_equal; apply deboor_ext; intros k Hk;
    rewrite (nth_indep _ rzero (f rzero)) by (rewrite map_length; lia); now rewrite map_nth.
Qed.
