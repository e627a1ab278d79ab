(** Proofs about the length of B-spline curves (property C180). *)
From Coq Require Import Reals Lra Lia ZArith List Bool.
From Verif Require Import Base Arith M_r3 Spec_r3 XRvec M_nurbs Spec_nurbs P_r3 P_nurbs P_nurbs2 Spec_spline Spec_polylength P_spline P_spline2 P_spline3 Props_spline.
Import ListNotations.
Open Scope R_scope.

Definition stepc (j k : Z) : R := if (j <=? k)%Z then 1 else 0.
Definition jump (c : Z -> R) (j : Z) : R := if (j =? 0)%Z then c 0%Z else c j - c (j - 1)%Z.
Lemma jumps c k m : (0 <= k)%Z -> rsum (fun j => jump c j * stepc j k) (S m) = c (Z.min k (Z.of_nat m)).
Proof.
  intros Hk. induction m as [|m IH].
  - cbn [rsum]. unfold jump, stepc. change (Z.of_nat 0) with 0%Z. rewrite Z.eqb_refl. destruct (Z.leb_spec 0 k); [|lia]. replace (Z.min k 0) with 0%Z by lia. ring.
  - rewrite rsum_S, IH. unfold jump, stepc. destruct (Z.eqb_spec (Z.of_nat (S m)) 0); [lia|]. destruct (Z.leb_spec (Z.of_nat (S m)) k).
    + replace (Z.min k (Z.of_nat m)) with (Z.of_nat (S m) - 1)%Z by lia. replace (Z.min k (Z.of_nat (S m))) with (Z.of_nat (S m)) by lia. ring.
    + replace (Z.min k (Z.of_nat (S m))) with (Z.min k (Z.of_nat m)) by lia. ring.
Qed.
Lemma deboor_rsum t u d i (w : Z -> R) (c : Z -> Z -> R) m :
  deboor t u d (fun k => rsum (fun j => w j * c j k) m) i = rsum (fun j => w j * deboor t u d (c j) i) m.
Proof.
  induction m as [|m IH]; cbn [rsum].
  - transitivity (deboor t u d (fun k => 0 * (fun _ : Z => 0) k) i); [apply deboor_ext; intros; ring|]. rewrite deboor_scale. ring.
  - transitivity (deboor t u d (fun k => 1 * (fun k => rsum (fun j => w j * c j k) m) k + w (Z.of_nat m) * c (Z.of_nat m) k) i); [apply deboor_ext; intros; ring|].
    rewrite deboor_lin, IH. ring.
Qed.
Lemma rnorm_scale k a : 0 <= k -> rnorm (rscale k a) = k * rnorm a.
Proof.
  intros Hk. unfold rnorm. replace (rdot (rscale k a) (rscale k a)) with ((k * k) * rdot a a) by (unfold rdot, rscale; cbn [rx ry rz]; ring).
  rewrite sqrt_mult_alt by nra. now rewrite sqrt_square.
Qed.
Lemma rnorm_zero : rnorm rzero = 0.
Proof. unfold rnorm, rdot, rzero. cbn [rx ry rz]. replace (0 * 0 + 0 * 0 + 0 * 0) with 0 by ring. apply sqrt_0. Qed.
Lemma rnorm_vsum (w : Z -> R) (q : Z -> rv) m : (forall j, (0 <= j < Z.of_nat m)%Z -> 0 <= w j) ->
  rnorm (vsum (fun j => rscale (w j) (q j)) m) <= rsum (fun j => w j * rnorm (q j)) m.
Proof.
  induction m as [|m IH]; intros H; cbn [vsum rsum]; [rewrite rnorm_zero; lra|].
  apply (Rle_trans _ _ _ (rnorm_triangle _ _)). rewrite rnorm_scale by (apply H; lia). apply Rplus_le_compat_r, IH. intros; apply H; lia.
Qed.
Lemma vsum_rc a (q : Z -> rv) m : rc a (vsum q m) = rsum (fun j => rc a (q j)) m.
Proof. induction m as [|m IH]; cbn [vsum rsum]; [destruct a; reflexivity|]. rewrite <- IH. destruct a; reflexivity. Qed.
Lemma rv_ext a b : (forall x, rc x a = rc x b) -> a = b.
Proof. intros H. destruct a, b. pose proof (H AX). pose proof (H AY). pose proof (H AZ). cbn in *. congruence. Qed.

Section curve.
Variables (U : list Z) (P : list rv) (n p : Z) (fuel : nat).
Hypothesis D : curve_data U P n p.
Hypothesis Hp1 : (1 <= p)%Z.
Hypothesis HM : multiplicity_at_most U n p p.
Hypothesis Hf : (Z.to_nat (n + 1 - p) <= fuel)%nat.
Notation N := (Z.to_nat n).
Definition stepP (j : Z) : list rv := map (fun k => RV (stepc j (Z.of_nat k)) 0 0) (seq 0 (S N)).
Lemma step_cp j k : (0 <= k <= n)%Z -> cp AX (stepP j) k = stepc j k.
Proof.
  intros H. unfold cp, stepP. cbn [rc]. rewrite (nth_indep _ rzero (RV (stepc j (Z.of_nat 0)) 0 0)) by (rewrite map_length, seq_length; lia).
  rewrite (map_nth (fun k => RV (stepc j (Z.of_nat k)) 0 0)), seq_nth by lia. cbn [rx plus]. f_equal. lia.
Qed.
Lemma step_data j : curve_data U (stepP j) n p.
Proof. destruct D as (Mo & Hp & L1 & L2 & L3). unfold curve_data. repeat (split; [assumption|]). unfold stepP. rewrite map_length, seq_length. lia. Qed.
Definition level (j : Z) (u : R) : R := coordinate AX (curvePoint fuel n p U (map fv (stepP j)) (Fin u : XR)).
Lemma level_at j u i : span_of U n p u i -> level j u = deboor (knot U) u (Z.to_nat p) (stepc j) i.
Proof.
  intros S. unfold level. rewrite (coord_at AX U (stepP j) n p u fuel i (step_data j) Hf S). apply deboor_ext. intros k Hk.
  destruct S as (I1 & _). apply step_cp. lia.
Qed.
Lemma level_bounds j u : in_domain U n p u -> 0 <= level j u <= 1.
Proof.
  intros Hu. destruct (domain_span U P n p u fuel D Hu Hf) as (i & Si). rewrite (level_at j u i Si). pose proof Si as (I1 & I2 & I3 & _). destruct D as (Mo & Hp & L1 & L2 & L3).
  apply (deboor_bounds (knot U) i (Z.to_nat p)); [intros a b H1 H2; apply Mo; lia|exact I3|exact I2|lia|]. intros k _. unfold stepc. destruct (j <=? k)%Z; lra.
Qed.
Lemma level_0 u : in_domain U n p u -> level 0 u = 1.
Proof.
  intros Hu. destruct (domain_span U P n p u fuel D Hu Hf) as (i & Si). rewrite (level_at 0 u i Si). pose proof Si as (I1 & I2 & I3 & _). destruct D as (Mo & Hp & L1 & L2 & L3).
  rewrite (deboor_ext _ _ _ _ (fun _ => 1)); [apply (deboor_const (knot U) i (Z.to_nat p)); [intros a b H1 H2; apply Mo; lia|exact I3|lia]|].
  intros k Hk. unfold stepc. destruct (Z.leb_spec 0 k); [reflexivity|lia].
Qed.
Lemma level_mono j u v : in_domain U n p u -> in_domain U n p v -> u <= v -> level j u <= level j v.
Proof.
  intros Hu Hv L. unfold level. apply C134_monotone; auto using step_data. intros k Hk. rewrite !step_cp by lia. unfold stepc.
  destruct (Z.leb_spec j (k - 1)), (Z.leb_spec j k); lra || lia.
Qed.
Definition leg (j : Z) : rv := RV (jump (cp AX P) j) (jump (cp AY P) j) (jump (cp AZ P) j).
Lemma curve_levels u C : in_domain U n p u -> curvePoint fuel n p U (map fv P) (Fin u : XR) = Ok (fv C) ->
  C = vsum (fun j => rscale (level j u) (leg j)) (S N).
Proof.
  intros Hu E. destruct (domain_span U P n p u fuel D Hu Hf) as (i & Si). apply rv_ext. intros a.
  assert (X : rc a C = coordinate a (curvePoint fuel n p U (map fv P) (Fin u : XR))) by (rewrite E; destruct a; reflexivity).
  rewrite X, (coord_at a U P n p u fuel i D Hf Si), vsum_rc. pose proof Si as (I1 & _). destruct D as (Mo & Hp & L1 & L2 & L3).
  rewrite (deboor_ext _ _ _ _ (fun k => rsum (fun j => jump (cp a P) j * stepc j k) (S N))).
  - rewrite deboor_rsum. apply rsum_ext. intros j Hj. rewrite <- (level_at j u i Si). unfold leg, rscale. destruct a; cbn [rc rx ry rz]; ring.
  - intros k Hk. rewrite jumps by lia. f_equal. lia.
Qed.
Lemma chord u v A B : in_domain U n p u -> in_domain U n p v -> u <= v ->
  curvePoint fuel n p U (map fv P) (Fin u : XR) = Ok (fv A) -> curvePoint fuel n p U (map fv P) (Fin v : XR) = Ok (fv B) ->
  rdist A B <= rsum (fun j => (level j v - level j u) * rnorm (leg j)) (S N).
Proof.
  intros Hu Hv L EA EB. rewrite (curve_levels u A Hu EA), (curve_levels v B Hv EB).
  refine (Rle_trans _ _ _ _ (rnorm_vsum (fun j => level j v - level j u) leg (S N) _)).
  - right. rewrite rdist_rnorm. unfold rnorm. f_equal.
    assert (Q : forall a m, rc a (vsum (fun j => rscale (level j v - level j u) (leg j)) m) = - rc a (rsub (vsum (fun j => rscale (level j u) (leg j)) m) (vsum (fun j => rscale (level j v) (leg j)) m))).
    { intros a m. induction m as [|m IH]; cbn [vsum]; [destruct a; cbn; ring|]. destruct a; cbn [rc rsub radd rscale rx ry rz] in *; rewrite IH; ring. }
    pose proof (Q AX (S N)) as X. pose proof (Q AY (S N)) as Y. pose proof (Q AZ (S N)) as Z. cbn [rc] in X, Y, Z. unfold rdot. rewrite X, Y, Z. ring.
  - intros j _. pose proof (level_mono j u v Hu Hv L). lra.
Qed.
Lemma chords us : forall Cs, increasing us -> Forall (in_domain U n p) us ->
  Forall2 (fun u C => curvePoint fuel n p U (map fv P) (Fin u : XR) = Ok (fv C)) us Cs ->
  poly_length Cs <= rsum (fun j => (level j (last us 0) - level j (hd 0 us)) * rnorm (leg j)) (S N).
Proof.
  induction us as [|u us IH]; intros Cs I Dm F; inversion F as [|x C y Cs' E F']; subst.
  - cbn [poly_length last hd]. right. symmetry. rewrite (rsum_ext _ (fun j => 0 * rnorm (leg j))) by (intros; ring). rewrite rsum_scale. ring.
  - inversion Dm as [|? ? Du Dm']; subst. destruct I as (I1 & I2). specialize (IH Cs' I2 Dm' F'). destruct us as [|v us].
    + inversion F'; subst. cbn [poly_length last hd]. right. symmetry. rewrite (rsum_ext _ (fun j => 0 * rnorm (leg j))) by (intros; ring). rewrite rsum_scale. ring.
    + inversion F' as [|x B y Cs'' E' F'']; subst. inversion Dm' as [|? ? Dv _]; subst. change (last (u :: v :: us) 0) with (last (v :: us) 0). cbn [hd] in *.
      change (poly_length (C :: B :: Cs'')) with (rdist C B + poly_length (B :: Cs'')). pose proof (chord u v C B Du Dv I1 E E') as K.
      rewrite (rsum_ext _ (fun j => (level j v - level j u) * rnorm (leg j) + (level j (last (v :: us) 0) - level j v) * rnorm (leg j))) by (intros; ring).
      rewrite rsum_plus. lra.
Qed.
Lemma last_in (us : list R) (x : R) : us <> [] -> In (last us x) us.
Proof. induction us as [|a us IH]; [contradiction|]. intros _. destruct us as [|b us]; [left; reflexivity|right; apply IH; discriminate]. Qed.
Lemma poly_rsum (l : list rv) : forall m, length l = S m -> poly_length l = rsum (fun j => rdist (nth (Z.to_nat j) l rzero) (nth (Z.to_nat (j + 1)) l rzero)) m.
Proof.
  induction l as [|a l IH]; intros m L; [discriminate|]. destruct l as [|b l]; [injection L as <-; cbn; ring|]. destruct m as [|m]; [discriminate|].
  rewrite rsum_shift. change (poly_length (a :: b :: l)) with (rdist a b + poly_length (b :: l)). f_equal. rewrite (IH m) by (cbn [length] in *; lia).
  apply rsum_ext. intros k Hk. replace (Z.to_nat (k + 1 + 1)) with (S (S (Z.to_nat k))) by lia. replace (Z.to_nat (k + 1)) with (S (Z.to_nat k)) by lia. reflexivity.
Qed.
Lemma polygon_legs : poly_length (firstn (S N) P) = rsum (fun j => rnorm (leg (j + 1))) N.
Proof.
  pose proof D as (Mo & Hp & L1 & L2 & L3). rewrite (poly_rsum _ N) by (rewrite firstn_length; lia). apply rsum_ext. intros k Hk.
  assert (F : forall q, (q < S N)%nat -> nth q (firstn (S N) P) rzero = nth q P rzero).
  { intros q Hq. rewrite <- (firstn_skipn (S N) P) at 2. rewrite app_nth1; [reflexivity|rewrite firstn_length; lia]. }
  rewrite !F by lia. rewrite rdist_rnorm. unfold rnorm, leg, jump. destruct (Z.eqb_spec (k + 1) 0); [lia|]. f_equal. replace (k + 1 - 1)%Z with k by lia.
  unfold rdot, rsub, cp. cbn [rc rx ry rz]. ring.
Qed.
Lemma curve_length us Cs : increasing us -> Forall (in_domain U n p) us ->
  Forall2 (fun u C => curvePoint fuel n p U (map fv P) (Fin u : XR) = Ok (fv C)) us Cs -> poly_length Cs <= poly_length (firstn (S N) P).
Proof.
  intros I Dm F. rewrite polygon_legs. apply (Rle_trans _ _ _ (chords us Cs I Dm F)). rewrite rsum_shift.
  assert (R0 : forall a, 0 <= rnorm a) by (intros; apply sqrt_pos).
  destruct us as [|u us].
  - cbn [last hd]. replace (level 0 0 - level 0 0) with 0 by ring. rewrite Rmult_0_l, Rplus_0_l. apply rsum_le. intros k _. pose proof (R0 (leg (k + 1))). replace (level (k + 1) 0 - level (k + 1) 0) with 0 by ring. lra.
  - assert (Du : in_domain U n p u) by (inversion Dm; assumption). assert (Dl : in_domain U n p (last (u :: us) 0)) by (rewrite Forall_forall in Dm; apply Dm, last_in; discriminate).
    cbn [hd]. rewrite (level_0 _ Du), (level_0 _ Dl). replace (1 - 1) with 0 by ring. rewrite Rmult_0_l, Rplus_0_l. apply rsum_le. intros k _.
    pose proof (level_bounds (k + 1) _ Du). pose proof (level_bounds (k + 1) _ Dl). pose proof (R0 (leg (k + 1))). nra.
Qed.
End curve.
