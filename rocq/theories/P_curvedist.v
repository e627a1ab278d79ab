(** Proofs about distances between points of B-spline curves (property C181). *)
From Coq Require Import Reals Lra Lia ZArith List Bool.
From Verif Require Import Base Arith M_r3 Spec_r3 XRvec M_nurbs Spec_nurbs P_r3 P_nurbs P_nurbs2 Spec_spline Spec_curvedist P_spline P_spline2 P_polylength.
Import ListNotations.
Open Scope R_scope.

(** the weights at u, the same for all control points *)
Lemma weights U P n p fuel u : curve_data U P n p -> in_domain U n p u -> (Z.to_nat (n + 1 - p) <= fuel)%nat ->
  exists i (w : Z -> R), (p <= i <= n)%Z /\ (forall r, (0 <= r <= p)%Z -> 0 <= w r) /\ rsum w (Z.to_nat (p + 1)) = 1 /\
    (forall r, (0 <= r <= p)%Z -> acts U n p u (i - p + r)) /\
    forall Q, curve_data U Q n p -> curvePoint fuel n p U (map fv Q) (Fin u : XR) =
      Ok (fv (vsum (fun r => rscale (w r) (control Q (i - p + r))) (Z.to_nat (p + 1)))).
Proof.
  intros D [Hu He] Hf. pose proof D as (Mo & Hp & L1 & L2 & L3).
  destruct (curvePoint_ok U P n p u fuel Hp L1 L2 L3 Mo Hu He Hf) as (i & S0 & S1 & S2 & S3 & S4 & _).
  exists i, (fun r => bpiece (knot U) i (Z.to_nat p) (i - p + r) u).
  pose proof (basis_mono U i p ltac:(lia) ltac:(lia) ltac:(lia) Mo) as BM.
  split; [exact S0|]. split.
  { intros r Hr. pose proof (piece_nonneg (knot U) i (Z.to_nat p) BM S2 u S1 (Z.to_nat p) r) as H. rewrite Z2Nat.id in H by lia. apply H; lia. }
  split.
  { replace (Z.to_nat (p + 1)) with (S (Z.to_nat p)) by lia. pose proof (piece_sum (knot U) i (Z.to_nat p) BM S2 u (Z.to_nat p)) as H.
    rewrite Z2Nat.id in H by lia. apply H; lia. }
  split.
  { intros r Hr. split; [lia|]. split; [apply (Rle_trans _ (knot U i)); [apply Mo; lia|apply S1]|].
    intros Hk. apply (Rle_trans _ (knot U (i + 1))); [apply S1|apply Mo; lia]. }
  intros Q DQ. pose proof DQ as (_ & _ & _ & _ & L4).
  destruct (curvePoint_ok U Q n p u fuel Hp L1 L2 L4 Mo Hu He Hf) as (j & J0 & J1 & J2 & J3 & J4 & E).
  assert (Ej : i = j). { apply (span_unique U P n p u i j D); unfold span_of; tauto. }
  subst j. exact E.
Qed.
Lemma vsum_sub (w : Z -> R) (a b : Z -> rv) m :
  rsub (vsum (fun r => rscale (w r) (a r)) m) (vsum (fun r => rscale (w r) (b r)) m) = vsum (fun r => rscale (w r) (rsub (a r) (b r))) m.
Proof.
  induction m as [|m IH]; cbn [vsum]; [unfold rsub, rzero; cbn; f_equal; ring|]. rewrite <- IH. unfold rsub, radd, rscale. cbn [rx ry rz]. f_equal; ring.
Qed.
(** weighted means of points that are pairwise within d are within d *)
Lemma means (w : Z -> R) (a b : Z -> rv) m d : (forall r, (0 <= r < Z.of_nat m)%Z -> 0 <= w r) -> rsum w m = 1 ->
  (forall r, (0 <= r < Z.of_nat m)%Z -> rdist (a r) (b r) <= d) ->
  rdist (vsum (fun r => rscale (w r) (a r)) m) (vsum (fun r => rscale (w r) (b r)) m) <= d.
Proof.
  intros W S H. rewrite rdist_rnorm, vsum_sub. apply (Rle_trans _ _ _ (rnorm_vsum w (fun r => rsub (a r) (b r)) m W)).
  replace d with (d * rsum w m) by (rewrite S; ring). rewrite <- rsum_scale. apply rsum_le. intros r Hr. specialize (W r Hr). specialize (H r Hr).
  rewrite rdist_rnorm in H. nra.
Qed.
Lemma mean_const (w : Z -> R) x m : vsum (fun r => rscale (w r) x) m = rscale (rsum w m) x.
Proof. induction m as [|m IH]; cbn [vsum rsum]; [unfold rscale, rzero; f_equal; ring|]. rewrite IH. unfold radd, rscale. cbn [rx ry rz]. f_equal; ring. Qed.
Lemma mean_ball (w : Z -> R) (a : Z -> rv) x m d : (forall r, (0 <= r < Z.of_nat m)%Z -> 0 <= w r) -> rsum w m = 1 ->
  (forall r, (0 <= r < Z.of_nat m)%Z -> rdist (a r) x <= d) -> rdist (vsum (fun r => rscale (w r) (a r)) m) x <= d.
Proof.
  intros W S H. replace x with (vsum (fun r => rscale (w r) x) m); [apply (means w a (fun _ => x)); assumption|].
  rewrite mean_const, S. destruct x as [a0 b0 c0]. unfold rscale. cbn [rx ry rz]. f_equal; ring.
Qed.
Lemma rdist_comm a b : rdist a b = rdist b a.
Proof. unfold rdist, rdist2, rdot, rsub. cbn [rx ry rz]. f_equal. ring. Qed.
Lemma rdist_self a : rdist a a = 0.
Proof. unfold rdist, rdist2, rdot, rsub. cbn [rx ry rz]. rewrite <- sqrt_0. f_equal. ring. Qed.
Lemma rdist_tri a b c : rdist a c <= rdist a b + rdist b c.
Proof.
  rewrite !rdist_rnorm. replace (rsub a c) with (radd (rsub a b) (rsub b c)); [apply rnorm_triangle|]. unfold radd, rsub. cbn [rx ry rz]. f_equal; ring.
Qed.
Lemma legs P n L : (forall k, (0 <= k < n)%Z -> rdist (control P k) (control P (k + 1)) <= L) ->
  forall m k, (0 <= k)%Z -> (k + Z.of_nat m <= n)%Z -> rdist (control P k) (control P (k + Z.of_nat m)) <= INR m * L.
Proof.
  intros H m. induction m as [|m IH]; intros k H0 H1.
  - rewrite Z.add_0_r, rdist_self. cbn [INR]. lra.
  - apply (Rle_trans _ _ _ (rdist_tri _ (control P (k + Z.of_nat m)) _)). rewrite S_INR. specialize (IH k H0 ltac:(lia)).
    specialize (H (k + Z.of_nat m)%Z ltac:(lia)). replace (k + Z.of_nat (S m))%Z with (k + Z.of_nat m + 1)%Z by lia. lra.
Qed.
Lemma ok_fv_inj a b : Ok (fv a) = Ok (fv b) -> a = b.
Proof. intros H. apply fv_inj. congruence. Qed.
Lemma boxdist a b e : Rabs (rx a - rx b) <= e -> Rabs (ry a - ry b) <= e -> Rabs (rz a - rz b) <= e -> rdist a b <= 2 * e.
Proof.
  intros X Y Z. pose proof (Rabs_pos (rx a - rx b)) as E. assert (I : forall x, Rabs x <= e -> - e <= x <= e) by (intros x; unfold Rabs; destruct (Rcase_abs x); lra). pose proof (I _ X). pose proof (I _ Y). pose proof (I _ Z). unfold rdist, rdist2, rdot, rsub. cbn [rx ry rz].
  rewrite <- (sqrt_square (2 * e)) by lra. apply sqrt_le_1_alt. nra.
Qed.
Lemma vsum_at (c : rv -> R) (w : Z -> R) (q : Z -> rv) m : c = rx \/ c = ry \/ c = rz -> c (vsum (fun r => rscale (w r) (q r)) m) = rsum (fun r => w r * c (q r)) m.
Proof. intros [->|[->| ->]]; (induction m as [|m IH]; cbn [vsum rsum]; [reflexivity|rewrite <- IH; reflexivity]). Qed.
