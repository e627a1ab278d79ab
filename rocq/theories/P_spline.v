(** B-spline curves by de Boor's algorithm: Marsden's identity, derivative, gluing of the pieces. *)
From Coq Require Import Reals Lra Lia ZArith List Bool.
From Verif Require Import Base Spec_r3 Spec_nurbs P_nurbs P_nurbs2 Spec_spline.
Import ListNotations.
Open Scope R_scope.

Lemma deboor_ext t u : forall d c c' i, (forall k, (i - Z.of_nat d <= k <= i)%Z -> c k = c' k) ->
  deboor t u d c i = deboor t u d c' i.
Proof.
  induction d as [|d IH]; intros c c' i H; cbn [deboor].
  - apply H. lia.
  - apply IH. intros k Hk. unfold mix. rewrite (H k), (H (k - 1)%Z) by lia. reflexivity.
Qed.
Lemma deboor_lin t u a b : forall d c c' i,
  deboor t u d (fun k => a * c k + b * c' k) i = a * deboor t u d c i + b * deboor t u d c' i.
Proof.
  induction d as [|d IH]; intros c c' i; cbn [deboor]; [reflexivity|].
  rewrite <- IH. apply deboor_ext. intros k _. unfold mix, Rdiv. ring.
Qed.
Lemma deboor_scale t u a d c i : deboor t u d (fun k => a * c k) i = a * deboor t u d c i.
Proof.
  rewrite <- (Rplus_0_r (a * _)). rewrite <- (Rmult_0_l (deboor t u d c i)). rewrite <- deboor_lin.
  apply deboor_ext. intros; ring.
Qed.

Section Span.
Variable t : Z -> R.
Variable i : Z.
Variable p : nat.
Hypothesis M : forall a b, (i + 1 - Z.of_nat p <= a <= b)%Z -> (b <= i + Z.of_nat p)%Z -> t a <= t b.
Hypothesis Hi : t i < t (i + 1)%Z.

Lemma width k d : (i + 1 - Z.of_nat d <= k <= i)%Z -> (d <= p)%nat -> 0 < t (k + Z.of_nat d)%Z - t k.
Proof.
  intros Hk Hd. pose proof (M (i + 1)%Z (k + Z.of_nat d)%Z ltac:(lia) ltac:(lia)).
  pose proof (M k i ltac:(lia) ltac:(lia)). lra.
Qed.
Lemma width_sides k d u : t i <= u <= t (i + 1)%Z -> (i + 1 - Z.of_nat d <= k <= i)%Z -> (d <= p)%nat ->
  0 <= u - t k /\ 0 <= t (k + Z.of_nat d)%Z - u.
Proof.
  intros Hu Hk Hd. pose proof (M (i + 1)%Z (k + Z.of_nat d)%Z ltac:(lia) ltac:(lia)).
  pose proof (M k i ltac:(lia) ltac:(lia)). lra.
Qed.

(** the B-spline combination is de Boor's value *)
Lemma sum_deboor u : forall d c, (d <= p)%nat ->
  rsum (fun r => bpiece t i d (i - Z.of_nat d + r)%Z u * c (i - Z.of_nat d + r)%Z) (S d) = deboor t u d c i.
Proof.
  induction d as [|d IH]; intros c Hd.
  - simpl. unfold bpiece; simpl. replace (i - 0 + 0)%Z with i by lia. destruct (Z.eq_dec i i); [ring|congruence].
  - cbn [deboor]. rewrite <- IH by lia.
    rewrite (rsum_ext _ (fun r => lterm t i u (S d) r * c (i - Z.of_nat (S d) + r)%Z +
                                  rterm t i u (S d) r * c (i - Z.of_nat (S d) + r)%Z))
      by (intros; rewrite (piece_split t i p M Hi u d k) by lia; ring).
    rewrite rsum_plus.
    rewrite (rsum_shift (fun r => lterm t i u (S d) r * c (i - Z.of_nat (S d) + r)%Z)).
    rewrite (rsum_S (fun r => rterm t i u (S d) r * c (i - Z.of_nat (S d) + r)%Z) (S d)).
    replace (lterm t i u (S d) 0) with 0 by reflexivity.
    replace (rterm t i u (S d) (Z.of_nat (S d))) with 0
      by (unfold rterm; destruct (Z.eq_dec (Z.of_nat (S d)) (Z.of_nat (S d))); [reflexivity|congruence]).
    rewrite !Rmult_0_l, Rplus_0_l, Rplus_0_r, <- rsum_plus. apply rsum_ext. intros r Hr.
    unfold rterm, lterm. destruct (Z.eq_dec r (Z.of_nat (S d))); [lia|]. destruct (Z.eq_dec (r + 1) 0); [lia|].
    replace (r + 1 - 1)%Z with r by lia.
    pose proof (denom_pos t i p M Hi (S d) r Hr Hd) as D. unfold denom in *. unfold mix.
    replace (i - Z.of_nat (S d) + (r + 1))%Z with (i - Z.of_nat d + r)%Z by lia.
    replace (i - Z.of_nat (S d) + r + 1)%Z with (i - Z.of_nat d + r)%Z in * by lia.
    replace (i - Z.of_nat d + r + Z.of_nat (S d))%Z with (i + r + 1)%Z by lia.
    replace (i - Z.of_nat d + r - 1)%Z with (i - Z.of_nat (S d) + r)%Z by lia.
    field. lra.
Qed.

Lemma deboor_const u a : forall d, (d <= p)%nat -> deboor t u d (fun _ => a) i = a.
Proof.
  induction d as [|d IH]; intros Hd; cbn [deboor]; [reflexivity|].
  transitivity (deboor t u d (fun _ => a) i); [|apply IH; lia]. apply deboor_ext. intros k Hk. unfold mix.
  pose proof (width k (S d) ltac:(lia) Hd). field. lra.
Qed.
Lemma deboor_nonneg u : t i <= u <= t (i + 1)%Z -> forall d c, (d <= p)%nat ->
  (forall k, (i - Z.of_nat d <= k <= i)%Z -> 0 <= c k) -> 0 <= deboor t u d c i.
Proof.
  intros Hu. induction d as [|d IH]; intros c Hd Hc; cbn [deboor]; [apply Hc; lia|].
  apply IH; [lia|]. intros k Hk. unfold mix.
  pose proof (width k (S d) ltac:(lia) Hd). destruct (width_sides k (S d) u Hu ltac:(lia) Hd) as [W1 W2].
  apply Rmult_le_pos; [|left; apply Rinv_0_lt_compat; lra].
  apply Rplus_le_le_0_compat; apply Rmult_le_pos; auto; apply Hc; lia.
Qed.
Lemma deboor_bounds u lo hi : t i <= u <= t (i + 1)%Z -> forall d c, (d <= p)%nat ->
  (forall k, (i - Z.of_nat d <= k <= i)%Z -> lo <= c k <= hi) -> lo <= deboor t u d c i <= hi.
Proof.
  intros Hu d c Hd Hc. split.
  - pose proof (deboor_nonneg u Hu d (fun k => 1 * c k + (-1) * lo) Hd) as H.
    rewrite (deboor_lin t u 1 (-1) d c (fun _ => lo)), deboor_const in H by exact Hd.
    cut (0 <= 1 * deboor t u d c i + -1 * lo); [lra|]. apply H. intros k Hk. specialize (Hc k Hk). lra.
  - pose proof (deboor_nonneg u Hu d (fun k => 1 * hi + (-1) * c k) Hd) as H.
    rewrite (deboor_lin t u 1 (-1) d (fun _ => hi) c), deboor_const in H by exact Hd.
    cut (0 <= 1 * hi + -1 * deboor t u d c i); [lra|]. apply H. intros k Hk. specialize (Hc k Hk). lra.
Qed.

(** Marsden's identity *)
Lemma knot_product_head x : forall d k, knot_product t x (S d) (k - 1)%Z = (x - t k) * knot_product t x d k.
Proof.
  induction d as [|d IH]; intros k.
  - cbn [knot_product]. replace (k - 1 + Z.of_nat 1)%Z with k by lia. ring.
  - change (knot_product t x (S (S d)) (k - 1)%Z) with
      (knot_product t x (S d) (k - 1)%Z * (x - t (k - 1 + Z.of_nat (S (S d)))%Z)).
    rewrite IH. change (knot_product t x (S d) k) with (knot_product t x d k * (x - t (k + Z.of_nat (S d))%Z)).
    replace (k - 1 + Z.of_nat (S (S d)))%Z with (k + Z.of_nat (S d))%Z by lia. ring.
Qed.
Lemma marsden u x : forall d, (d <= p)%nat -> deboor t u d (knot_product t x d) i = (x - u) ^ d.
Proof.
  induction d as [|d IH]; intros Hd; [reflexivity|]. cbn [deboor].
  rewrite (deboor_ext t u d _ (fun k => (x - u) * knot_product t x d k)).
  - rewrite deboor_scale, IH by lia. reflexivity.
  - intros k Hk. pose proof (width k (S d) ltac:(lia) Hd). unfold mix. rewrite knot_product_head.
    cbn [knot_product]. field. lra.
Qed.
Lemma knot_sum_head : forall d k, knot_sum t (S d) (k - 1)%Z = t k + knot_sum t d k.
Proof.
  induction d as [|d IH]; intros k.
  - cbn [knot_sum]. replace (k - 1 + Z.of_nat 1)%Z with k by lia. ring.
  - change (knot_sum t (S (S d)) (k - 1)%Z) with
      (knot_sum t (S d) (k - 1)%Z + t (k - 1 + Z.of_nat (S (S d)))%Z).
    rewrite IH. change (knot_sum t (S d) k) with (knot_sum t d k + t (k + Z.of_nat (S d))%Z).
    replace (k - 1 + Z.of_nat (S (S d)))%Z with (k + Z.of_nat (S d))%Z by lia. ring.
Qed.
Lemma greville u : forall d, (d <= p)%nat -> deboor t u d (knot_sum t d) i = INR d * u.
Proof.
  induction d as [|d IH]; intros Hd; [simpl; ring|]. cbn [deboor].
  rewrite (deboor_ext t u d _ (fun k => 1 * knot_sum t d k + 1 * u)).
  - rewrite (deboor_lin t u 1 1 d (knot_sum t d) (fun _ => u)), IH, deboor_const by lia. rewrite S_INR. ring.
  - intros k Hk. pose proof (width k (S d) ltac:(lia) Hd). unfold mix. rewrite knot_sum_head.
    cbn [knot_sum]. field. lra.
Qed.

(** derivative *)
Lemma mix_affine u v d c k : (i + 1 - Z.of_nat d <= k <= i)%Z -> (d <= p)%nat ->
  mix t v d c k = 1 * mix t u d c k + (v - u) * slope t d c k.
Proof. intros Hk Hd. pose proof (width k d Hk Hd). unfold mix, slope. field. lra. Qed.
Lemma mix_slope u d c k : (i + 1 - Z.of_nat d <= k <= i)%Z -> (S d <= p)%nat ->
  slope t d (mix t u (S d) c) k = mix t u d (slope t (S d) c) k.
Proof.
  intros Hk Hd. pose proof (width k d Hk ltac:(lia)) as W.
  pose proof (width k (S d) ltac:(lia) Hd) as W1. pose proof (width (k - 1) (S d) ltac:(lia) Hd) as W2.
  unfold slope, mix. replace (k - 1 + Z.of_nat (S d))%Z with (k + Z.of_nat d)%Z in * by lia.
  field. lra.
Qed.
Lemma deboor_derivative : forall d c u, (S d <= p)%nat ->
  derivable_pt_lim (fun v => deboor t v (S d) c i) u (INR (S d) * deboor t u d (slope t (S d) c) i).
Proof.
  induction d as [|d IH]; intros c u Hd.
  - cbn [deboor]. apply derivable_pt_lim_ext with (f := fun v => mix t u 1 c i + (v - u) * slope t 1 c i).
    { intros v. rewrite (mix_affine u v 1 c i) by lia. ring. }
    replace (INR 1 * slope t 1 c i) with (0 + ((1 - 0) * slope t 1 c i + (u - u) * 0)) by (simpl; ring).
    apply derivable_pt_lim_plus; [apply derivable_pt_lim_const|].
    apply (derivable_pt_lim_mult (fun v => v - u) (fun _ => slope t 1 c i)).
    + apply (derivable_pt_lim_minus (fun v => v) (fun _ => u)); [apply derivable_pt_lim_id|apply derivable_pt_lim_const].
    + apply derivable_pt_lim_const.
  - set (c' := mix t u (S (S d)) c).
    apply derivable_pt_lim_ext with
      (f := fun v => deboor t v (S d) c' i + (v - u) * deboor t v (S d) (slope t (S (S d)) c) i).
    { intros v. change (deboor t v (S (S d)) c i) with (deboor t v (S d) (mix t v (S (S d)) c) i).
      rewrite (deboor_ext t v (S d) (mix t v (S (S d)) c) (fun k => 1 * c' k + (v - u) * slope t (S (S d)) c k)).
      - rewrite deboor_lin. ring.
      - intros k Hk. apply mix_affine; lia. }
    assert (E : deboor t u d (slope t (S d) c') i = deboor t u (S d) (slope t (S (S d)) c) i).
    { change (deboor t u (S d) (slope t (S (S d)) c) i) with
        (deboor t u d (mix t u (S d) (slope t (S (S d)) c)) i).
      apply deboor_ext. intros k Hk. apply mix_slope; lia. }
    pose proof (IH c' u ltac:(lia)) as D1. pose proof (IH (slope t (S (S d)) c) u ltac:(lia)) as D2. rewrite E in D1.
    match goal with |- derivable_pt_lim _ _ ?L => replace L with
      (INR (S d) * deboor t u (S d) (slope t (S (S d)) c) i +
       ((1 - 0) * deboor t u (S d) (slope t (S (S d)) c) i +
        (u - u) * (INR (S d) * deboor t u d (slope t (S d) (slope t (S (S d)) c)) i)))
      by (rewrite (S_INR (S d)); ring) end.
    apply derivable_pt_lim_plus; [exact D1|].
    apply (derivable_pt_lim_mult (fun v => v - u) (fun v => deboor t v (S d) (slope t (S (S d)) c) i)); [|exact D2].
    apply (derivable_pt_lim_minus (fun v => v) (fun _ => u)); [apply derivable_pt_lim_id|apply derivable_pt_lim_const].
Qed.

(** a curve that vanishes on the span has zero coefficients *)
Lemma deboor_zero : forall d c, (d <= p)%nat -> (forall u, t i < u < t (i + 1)%Z -> deboor t u d c i = 0) ->
  forall k, (i - Z.of_nat d <= k <= i)%Z -> c k = 0.
Proof.
  induction d as [|d IH]; intros c Hd H k Hk.
  - replace k with i by lia. apply (H ((t i + t (i + 1)%Z) / 2)). lra.
  - assert (Z : forall k, (i - Z.of_nat d <= k <= i)%Z -> slope t (S d) c k = 0).
    { apply IH; [lia|]. intros u Hu. pose proof (deboor_derivative d c u Hd) as D.
      assert (D0 : derivable_pt_lim (fun v => deboor t v (S d) c i) u 0).
      { set (e0 := Rmin (u - t i) (t (i + 1)%Z - u)).
        assert (0 < e0) by (unfold e0; apply Rmin_glb_lt; lra).
        intros e He. exists (mkposreal e0 H0). intros h Hh Hd'. cbn in Hd'.
        assert (Rabs h < u - t i /\ Rabs h < t (i + 1)%Z - u) as [A1 A2].
        { unfold e0 in Hd'. split; eapply Rlt_le_trans; [exact Hd'|apply Rmin_l|exact Hd'|apply Rmin_r]. }
        pose proof (Rle_abs h). pose proof (Rle_abs (- h)). rewrite Rabs_Ropp in *.
        rewrite (H (u + h)) by lra. rewrite (H u) by lra.
        replace ((0 - 0) / h - 0) with 0 by (field; exact Hh). rewrite Rabs_R0. exact He. }
      pose proof (uniqueness_limite _ _ _ _ D D0) as E.
      apply Rmult_integral in E. destruct E as [E|E]; [|exact E].
      rewrite S_INR in E. pose proof (pos_INR d). lra. }
    assert (S1 : forall k, (i - Z.of_nat d <= k <= i)%Z -> c k = c (k - 1)%Z).
    { intros j Hj. specialize (Z j Hj). pose proof (width j (S d) ltac:(lia) Hd). unfold slope in Z.
      apply Rmult_integral in Z. destruct Z as [Z|Z]; [lra|].
      pose proof (Rinv_neq_0_compat (t (j + Z.of_nat (S d))%Z - t j) ltac:(lra)). contradiction. }
    assert (S2 : forall j : nat, (j <= S d)%nat -> c (i - Z.of_nat j)%Z = c i).
    { induction j as [|j IHj]; intros Hj; [f_equal; lia|]. rewrite <- IHj by lia.
      rewrite (S1 (i - Z.of_nat j)%Z) by lia. f_equal. lia. }
    assert (E : c i = 0).
    { rewrite <- (H ((t i + t (i + 1)%Z) / 2)) by lra. rewrite <- (deboor_const ((t i + t (i + 1)%Z) / 2) (c i) (S d) Hd) at 1.
      apply deboor_ext. intros j Hj. rewrite <- (S2 (Z.to_nat (i - j))) by lia. f_equal. lia. }
    rewrite <- E. rewrite <- (S2 (Z.to_nat (i - k))) by lia. f_equal. lia.
Qed.
End Span.

(** gluing at a knot of multiplicity m *)
Lemma glue_left t i m x : (forall k, (i + 1 <= k <= i + Z.of_nat m)%Z -> t k = x) -> forall d c,
  (d <= m)%nat -> (forall k, (i + 1 - Z.of_nat d <= k <= i)%Z -> t k < x) -> deboor t x d c i = c i.
Proof.
  intros Hx. induction d as [|d IH]; intros c Hd Hk; [reflexivity|]. cbn [deboor].
  rewrite (deboor_ext t x d _ c).
  - apply IH; [lia|]. intros; apply Hk; lia.
  - intros k Hk'. unfold mix. rewrite (Hx (k + Z.of_nat (S d))%Z) by lia. specialize (Hk k ltac:(lia)). field. lra.
Qed.
Lemma glue_right t i x : forall d c, (forall k, (i + 1 - Z.of_nat d <= k <= i)%Z -> t k = x) ->
  (forall k, (i + 1 <= k <= i + Z.of_nat d)%Z -> x < t k) -> deboor t x d c i = c (i - Z.of_nat d)%Z.
Proof.
  induction d as [|d IH]; intros c Hx Hk; [cbn [deboor]; f_equal; lia|]. cbn [deboor].
  rewrite (deboor_ext t x d _ (fun k => c (k - 1)%Z)).
  - rewrite IH; [f_equal; lia| |]; intros; [apply Hx|apply Hk]; lia.
  - intros k Hk'. unfold mix. rewrite (Hx k) by lia. specialize (Hk (k + Z.of_nat (S d))%Z ltac:(lia)). field. lra.
Qed.
Lemma glue t i m d c x : (m <= d)%nat ->
  (forall k, (i + 1 <= k <= i + Z.of_nat m)%Z -> t k = x) ->
  (forall k, (i + 1 - Z.of_nat m <= k <= i)%Z -> t k < x) ->
  (forall k, (i + Z.of_nat m + 1 <= k <= i + 2 * Z.of_nat m)%Z -> x < t k) ->
  deboor t x d c i = deboor t x d c (i + Z.of_nat m)%Z.
Proof.
  intros Hm Hx Hl Hr. revert c. induction d as [|d IH]; intros c.
  - replace m with O by lia. f_equal. lia.
  - destruct (Nat.eq_dec m (S d)) as [->|N].
    + rewrite (glue_left t i (S d) x Hx) by (auto with arith).
      rewrite (glue_right t (i + Z.of_nat (S d)) x).
      * f_equal. lia.
      * intros; apply Hx; lia.
      * intros; apply Hr; lia.
    + cbn [deboor]. apply IH. lia.
Qed.

(** reversal *)
Lemma deboor_reverse t t' K u : (forall k, t' k = - t (K - k)%Z) -> forall d c c' n,
  (K = n + Z.of_nat d + 1)%Z -> (forall k, c' k = c (n - k)%Z) -> forall i,
  deboor t' (- u) d c' i = deboor t u d c (K - 1 - i)%Z.
Proof.
  intros Ht. induction d as [|d IH]; intros c c' n HK Hc i; cbn [deboor].
  - rewrite Hc. f_equal. lia.
  - apply (IH _ _ (n + 1)%Z); [lia|]. intros k. unfold mix. rewrite !Ht, !Hc.
    replace (K - (k + Z.of_nat (S d)))%Z with (n + 1 - k)%Z by lia.
    replace (n + 1 - k + Z.of_nat (S d))%Z with (K - k)%Z by lia.
    replace (n - (k - 1))%Z with (n + 1 - k)%Z by lia. replace (n + 1 - k - 1)%Z with (n - k)%Z by lia.
    replace (- t (n + 1 - k)%Z - - t (K - k)%Z) with (t (K - k)%Z - t (n + 1 - k)%Z) by ring.
    unfold Rdiv. ring.
Qed.
