(** Proofs about package r3. *)
From Coq Require Import Reals Lra Psatz ZArith QArith Qreals Bool.
From Flocq Require Import BinarySingleNaN.
From Verif Require Import Base Arith M_r3 Spec_r3 XRvec.
Open Scope R_scope.

Lemma rnorm_pos v : v <> rzero -> 0 < rnorm v.
Proof. intros H; apply sqrt_lt_R0, rdot_pos, H. Qed.
Lemma rnorm_sqr v : rnorm v * rnorm v = rdot v v.
Proof. apply sqrt_sqrt, rdot_nonneg. Qed.

(** C01 *)
Lemma normalize_unit v :
  (v <> rzero -> exists u, Normalize (fv v) = fv u /\ rnorm u = 1 /\
                  exists k, 0 < k /\ u = rscale k v) /\
  (v = rzero -> Normalize (fv v) = fv rzero).
Proof.
  split.
  - intros H. rewrite Normalize_fv.
    destruct (Reqb_spec (rdot v v) 0) as [E|E].
    { apply rdot_zero in E; contradiction. }
    exists (rscale (/ rnorm v) v). split; [reflexivity|].
    pose proof (rnorm_pos v H) as Hp. split.
    + unfold rnorm at 1.
      replace (rdot (rscale (/ rnorm v) v) (rscale (/ rnorm v) v)) with 1; [apply sqrt_1|].
      replace (rdot (rscale (/ rnorm v) v) (rscale (/ rnorm v) v))
        with (rdot v v * / (rnorm v * rnorm v)).
      * rewrite rnorm_sqr. field. pose proof (rdot_pos v H); lra.
      * unfold rdot, rscale; simpl. field. lra.
    + exists (/ rnorm v). split; [apply Rinv_0_lt_compat; auto|reflexivity].
  - intros ->. rewrite Normalize_fv.
    destruct (Reqb_spec (rdot rzero rzero) 0) as [E|E]; [reflexivity|].
    exfalso; apply E; unfold rdot; simpl; ring.
Qed.

(** C02 *)
Lemma normalize_method_partial {A : Arith} (v : vec A) :
  feq A (Norm2 v) (fofZ A 0) = false -> Normalize_method v = Normalize v.
Proof. unfold Normalize_method, Normalize. intros ->. reflexivity. Qed.

Lemma normalize_method_refuted_lemma :
  let v := @Zero B64 in
  vsf (Normalize v) = vsf (@Zero B64) /\
  vsf (Normalize_method v) = (SpecFloat.S754_nan, SpecFloat.S754_nan, SpecFloat.S754_nan).
Proof. split; vm_compute; reflexivity. Qed.

(** C03 *)
Lemma intersect_correct p d n q :
  (rdot n d = 0 <-> IntersectPlane (mkLine (A:=XR) (fv p) (fv d)) (mkPlane3D (A:=XR) (fv n) (fv q)) = Panic) /\
  (rdot n d <> 0 -> exists x,
     IntersectPlane (mkLine (A:=XR) (fv p) (fv d)) (mkPlane3D (A:=XR) (fv n) (fv q)) = Ok (fv x) /\
     on_line p d x /\ on_plane n q x /\
     forall y, on_line p d y -> on_plane n q y -> y = x).
Proof.
  assert (Hpar : d <> rzero -> rdot n (rscale (/ rnorm d) d) = rdot n d / rnorm d).
  { intros H. unfold rdot, rscale; simpl. field. pose proof (rnorm_pos d H); lra. }
  assert (Hz : forall a, rdot a rzero = 0) by (intros; unfold rdot; simpl; ring).
  unfold IntersectPlane; cbn [lVector lDirection p3Normal p3Vector].
  rewrite Normalize_fv.
  destruct (Reqb_spec (rdot d d) 0) as [E|E].
  - apply rdot_zero in E. subst d. rewrite Dot_fv. xr_cbn. rewrite !Hz.
    destruct (Reqb_spec 0 0) as [_|H]; [|lra]. split; [tauto|]. intros H; lra.
  - assert (Hd : d <> rzero) by (intros ->; apply E; unfold rdot; simpl; ring).
    pose proof (rnorm_pos d Hd) as Hp.
    rewrite !Dot_fv. xr_cbn. rewrite !(Hpar Hd).
    destruct (Reqb_spec (rdot n d / rnorm d) 0) as [E1|E1].
    + assert (rdot n d = 0).
      { replace (rdot n d) with (rdot n d / rnorm d * rnorm d) by (field; lra).
        rewrite E1; ring. }
      split; [tauto|]. intros; lra.
    + assert (Hnd : rdot n d <> 0).
      { intros H; apply E1; rewrite H; unfold Rdiv; ring. }
      split; [split; [lra|discriminate]|]. intros _.
      unfold xdiv. destruct (Reqb_spec (rdot n d / rnorm d) 0) as [?|_]; [contradiction|].
      rewrite Scaled_fv, Add_fv.
      set (T := (rdot n q - rdot n p) / (rdot n d / rnorm d)).
      assert (HT : T * / rnorm d = (rdot n q - rdot n p) / rdot n d).
      { unfold T; field. split; lra. }
      eexists; split; [reflexivity|].
      assert (Hx : radd p (rscale T (rscale (/ rnorm d) d)) =
                   radd p (rscale ((rdot n q - rdot n p) / rdot n d) d)).
      { rewrite <- HT. unfold radd, rscale; simpl; f_equal; ring. }
      rewrite Hx.
      split; [eexists; reflexivity|].
      split.
      * unfold on_plane.
        transitivity (rdot n p - rdot n q + (rdot n q - rdot n p) / rdot n d * rdot n d).
        { unfold rdot, radd, rsub, rscale; simpl; ring. }
        field; auto.
      * intros y [t ->] Hy. unfold on_plane in Hy.
        assert (Ht : rdot n p - rdot n q + t * rdot n d = 0).
        { rewrite <- Hy. unfold rdot, radd, rsub, rscale; simpl; ring. }
        replace ((rdot n q - rdot n p) / rdot n d) with t; [reflexivity|].
        apply Rmult_eq_reg_r with (rdot n d); auto. field_simplify; auto. lra.
Qed.

(** C04 *)
Lemma cauchy_schwarz a b : rdot a b * rdot a b <= rdot a a * rdot b b.
Proof.
  assert (H : rdot a a * rdot b b - rdot a b * rdot a b =
     Rsqr (ry a * rz b - rz a * ry b) + Rsqr (rz a * rx b - rx a * rz b)
     + Rsqr (rx a * ry b - ry a * rx b)).
  { unfold rdot, Rsqr; ring. }
  pose proof (Rle_0_sqr (ry a * rz b - rz a * ry b)).
  pose proof (Rle_0_sqr (rz a * rx b - rx a * rz b)).
  pose proof (Rle_0_sqr (rx a * ry b - ry a * rx b)). lra.
Qed.
Lemma rdot_le_norms a b : rdot a b <= rnorm a * rnorm b.
Proof.
  unfold rnorm. rewrite <- sqrt_mult by apply rdot_nonneg.
  destruct (Rle_dec (rdot a b) 0) as [H|H].
  - eapply Rle_trans; [exact H|apply sqrt_pos].
  - rewrite <- (sqrt_square (rdot a b)) by lra.
    apply sqrt_le_1_alt, cauchy_schwarz.
Qed.
Lemma rnorm_triangle a b : rnorm (radd a b) <= rnorm a + rnorm b.
Proof.
  assert (0 <= rnorm a) by apply sqrt_pos. assert (0 <= rnorm b) by apply sqrt_pos.
  apply Rsqr_incr_0_var; [|lra].
  unfold Rsqr. rewrite rnorm_sqr.
  replace (rdot (radd a b) (radd a b)) with (rdot a a + rdot b b + 2 * rdot a b)
    by (unfold rdot, radd; simpl; ring).
  rewrite <- (rnorm_sqr a), <- (rnorm_sqr b).
  pose proof (rdot_le_norms a b). nra.
Qed.
Lemma rdist_rnorm a b : rdist a b = rnorm (rsub a b).
Proof. reflexivity. Qed.
Lemma rsub_zero a b : rsub a b = rzero <-> a = b.
Proof.
  split.
  - unfold rsub, rzero; intros [= H1 H2 H3]; apply rv_ext; lra.
  - intros ->; unfold rsub, rzero; f_equal; ring.
Qed.

Lemma distance_metric a b c :
  exists dab dba dbc dac,
    Distance (fv a) (fv b) = Fin dab /\ Distance (fv b) (fv a) = Fin dba /\
    Distance (fv b) (fv c) = Fin dbc /\ Distance (fv a) (fv c) = Fin dac /\
    0 <= dab /\ dab = dba /\ (dab = 0 <-> a = b) /\ dac <= dab + dbc /\
    SquaredDistance (fv a) (fv b) = Fin (dab * dab) /\
    dab * dab = (rx a - rx b) * (rx a - rx b) + (ry a - ry b) * (ry a - ry b)
                + (rz a - rz b) * (rz a - rz b).
Proof.
  rewrite !Distance_fv. do 4 eexists. repeat (split; [reflexivity|]).
  split; [apply sqrt_pos|].
  split. { unfold rdist; f_equal; unfold rdist2, rdot, rsub; simpl; ring. }
  split.
  { split.
    - intros H. apply sqrt_eq_0 in H; [|apply rdot_nonneg].
      apply rsub_zero. apply rdot_zero. exact H.
    - intros ->. unfold rdist, rdist2.
      replace (rsub b b) with rzero by (symmetry; apply rsub_zero; auto).
      replace (rdot rzero rzero) with 0 by (unfold rdot; simpl; ring). apply sqrt_0. }
  split.
  { rewrite !rdist_rnorm.
    replace (rsub a c) with (radd (rsub a b) (rsub b c)).
    - apply rnorm_triangle.
    - unfold radd, rsub; simpl; f_equal; ring. }
  split.
  - rewrite SquaredDistance_fv. f_equal. symmetry. apply rnorm_sqr.
  - unfold rdist, rdist2. rewrite sqrt_sqrt by apply rdot_nonneg.
    unfold rdot, rsub; reflexivity.
Qed.
Lemma norm_magnitude {A : Arith} (v : vec A) : Norm v = Magnitude v.
Proof. reflexivity. Qed.

(** C05 *)
Definition rcross (a b : rv) : rv :=
  RV (ry a * rz b - ry b * rz a) (rz a * rx b - rz b * rx a) (rx a * ry b - rx b * ry a).
Lemma Cross_fv a b : Cross (fv a) (fv b) = fv (rcross a b).
Proof. reflexivity. Qed.

Lemma cross_laws a b :
  exists c, Cross (fv a) (fv b) = fv c /\
    orthogonal c a /\ orthogonal c b /\
    Cross (fv b) (fv a) = fv (rscale (-1) c) /\
    rdot c c = rdot a a * rdot b b - rdot a b * rdot a b /\
    (c = rzero <-> parallel a b) /\
    Dot (fv a) (fv b) = Dot (fv b) (fv a).
Proof.
  exists (rcross a b). split; [reflexivity|].
  unfold orthogonal. split; [unfold rdot, rcross; simpl; ring|].
  split; [unfold rdot, rcross; simpl; ring|].
  split. { rewrite Cross_fv; f_equal. unfold rcross, rscale; simpl; f_equal; ring. }
  split. { unfold rdot, rcross; simpl; ring. }
  split.
  - split.
    + unfold rcross, rzero; intros [= H1 H2 H3].
      assert (D : {a = rzero} + {a <> rzero}).
      { destruct (Req_EM_T (rdot a a) 0) as [E|E].
        - left; apply rdot_zero; auto.
        - right; intros ->; apply E; unfold rdot; simpl; ring. }
      destruct D as [->|H].
      { exists 1, 0. split; [left; lra|]. unfold rscale; simpl; f_equal; ring. }
      exists (rdot a b), (rdot a a).
      split; [right; pose proof (rdot_pos a H); lra|].
      unfold rscale, rdot. apply rv_ext; simpl.
      * apply Rminus_diag_uniq.
        transitivity (ry a * (rx a * ry b - rx b * ry a) - rz a * (rz a * rx b - rz b * rx a));
          [ring|rewrite H2, H3; ring].
      * apply Rminus_diag_uniq.
        transitivity (rz a * (ry a * rz b - ry b * rz a) - rx a * (rx a * ry b - rx b * ry a));
          [ring|rewrite H1, H3; ring].
      * apply Rminus_diag_uniq.
        transitivity (rx a * (rz a * rx b - rz b * rx a) - ry a * (ry a * rz b - ry b * rz a));
          [ring|rewrite H1, H2; ring].
    + intros (s & t & Hst & E). unfold rscale in E. injection E as E1 E2 E3.
      unfold rcross. apply rv_ext; simpl.
      all: destruct Hst as [Hs|Ht]; [apply Rmult_eq_reg_l with s; auto|apply Rmult_eq_reg_l with t; auto].
      * transitivity ((s * ry a) * rz b - ry b * (s * rz a)); [ring|rewrite E2, E3; ring].
      * transitivity (ry a * (t * rz b) - (t * ry b) * rz a); [ring|rewrite <- E2, <- E3; ring].
      * transitivity ((s * rz a) * rx b - rz b * (s * rx a)); [ring|rewrite E1, E3; ring].
      * transitivity (rz a * (t * rx b) - (t * rz b) * rx a); [ring|rewrite <- E1, <- E3; ring].
      * transitivity ((s * rx a) * ry b - rx b * (s * ry a)); [ring|rewrite E1, E2; ring].
      * transitivity (rx a * (t * ry b) - (t * rx b) * ry a); [ring|rewrite <- E1, <- E2; ring].
  - rewrite !Dot_fv; f_equal; unfold rdot; ring.
Qed.

Lemma calculateNormal_laws a b c :
  exists n, calculateNormal (fv a) (fv b) (fv c) = fv n /\
    rdot n (rsub b a) = 0 /\ rdot n (rsub c a) = 0 /\ rdot n (rsub c b) = 0 /\
    (n = rzero <-> parallel (rsub b a) (rsub c a)).
Proof.
  exists (rcross (rsub b a) (rsub c a)).
  split. { unfold calculateNormal, createVector, fv, rcross; simpl. f_equal; f_equal; ring. }
  split; [unfold rdot, rcross, rsub; simpl; ring|].
  split; [unfold rdot, rcross, rsub; simpl; ring|].
  split; [unfold rdot, rcross, rsub; simpl; ring|].
  destruct (cross_laws (rsub b a) (rsub c a)) as (k & Hk & _ & _ & _ & _ & H & _).
  rewrite Cross_fv in Hk. apply fv_inj in Hk. subst k. exact H.
Qed.

(** C06 *)
Lemma distance_to_plane_never_zero n v :
  on_plane n rzero v -> n <> rzero ->
  exists d, CalculateDistanceToPlane (fv v) (newPlane (fv n) (fv rzero)) = Fin d /\ 0 < d.
Proof.
  intros H Hn. unfold CalculateDistanceToPlane, newPlane; cbn [pNormal].
  rewrite Dot_fv, Norm2_fv. xr_cbn. eexists; split; [reflexivity|].
  unfold on_plane in H. replace (rsub v rzero) with v in H.
  - pose proof (rdot_pos n Hn). lra.
  - unfold rsub, rzero; apply rv_ext; simpl; ring.
Qed.
(** what it does compute: the signed distance (scaled by |n|) to the plane through -n *)
Lemma distance_to_plane_char n o v :
  exists d, CalculateDistanceToPlane (fv v) (newPlane (fv n) (fv o)) = Fin d /\
    (d = 0 <-> on_plane n (rscale (-1) n) v).
Proof.
  unfold CalculateDistanceToPlane, newPlane; cbn [pNormal].
  rewrite Dot_fv, Norm2_fv. xr_cbn. eexists; split; [reflexivity|].
  unfold on_plane.
  replace (rdot n (rsub v (rscale (-1) n))) with (rdot n v + rdot n n)
    by (unfold rdot, rsub, rscale; simpl; ring). tauto.
Qed.

Lemma distance_to_plane_iff n o :
  (forall v, on_plane n o v ->
     CalculateDistanceToPlane (fv v) (newPlane (fv n) (fv o)) = Fin 0) <->
  rdot n o = - rdot n n.
Proof.
  unfold CalculateDistanceToPlane, newPlane; cbn [pNormal].
  split.
  - intros H. specialize (H o). rewrite Dot_fv, Norm2_fv in H. xr_cbn.
    assert (Ho : on_plane n o o) by (unfold on_plane, rdot, rsub; simpl; ring).
    specialize (H Ho). injection H as H. lra.
  - intros H v Hv. rewrite Dot_fv, Norm2_fv. xr_cbn. f_equal.
    unfold on_plane in Hv.
    replace (rdot n (rsub v o)) with (rdot n v - rdot n o) in Hv
      by (unfold rdot, rsub; simpl; ring). lra.
Qed.
Lemma distance_to_plane_refuted_lemma :
  exists n o v : rv, rdot n n = 1 /\ on_plane n o v /\
    CalculateDistanceToPlane (fv v) (newPlane (fv n) (fv o)) <> Fin 0.
Proof.
  exists (RV 0 0 1), rzero, (RV 5 7 0).
  split; [unfold rdot; simpl; ring|]. split; [unfold on_plane, rdot, rsub; simpl; ring|].
  unfold CalculateDistanceToPlane, newPlane; cbn [pNormal]. rewrite Dot_fv, Norm2_fv. xr_cbn.
  unfold rdot; simpl. intros [= H]. lra.
Qed.

(** C07 *)
Lemma interpolate_laws a b t :
  exists x, Interpolate (fv a) (fv b) (Fin t) = fv x /\
    (t = 0 -> x = a) /\ (t = 1 -> x = b) /\
    x = radd (rscale (1 - t) a) (rscale t b) /\
    (0 <= t <= 1 -> rdist a x = t * rdist a b /\ rdist x b = (1 - t) * rdist a b) /\
    GetInterpolationVector (fv b) (fv a) (Fin t) = fv x.
Proof.
  exists (radd (rscale (1 - t) a) (rscale t b)).
  split. { unfold Interpolate, fv, radd, rscale; simpl. f_equal; f_equal; ring. }
  split. { intros ->; unfold radd, rscale; apply rv_ext; simpl; ring. }
  split. { intros ->; unfold radd, rscale; apply rv_ext; simpl; ring. }
  split; [reflexivity|].
  split.
  - intros Ht.
    assert (G : forall k u, 0 <= k -> rnorm (rscale k u) = k * rnorm u).
    { intros k u Hk. unfold rnorm.
      replace (rdot (rscale k u) (rscale k u)) with (k * k * rdot u u)
        by (unfold rdot, rscale; simpl; ring).
      rewrite sqrt_mult; [|nra|apply rdot_nonneg]. rewrite sqrt_square by auto. reflexivity. }
    rewrite !rdist_rnorm. split; rewrite <- G by lra; f_equal;
      unfold rsub, radd, rscale; simpl; f_equal; ring.
  - unfold GetInterpolationVector, fv, radd, rscale; simpl. f_equal; f_equal; ring.
Qed.

(** C08 *)
Lemma methods_agree {A : Arith} (v w : vec A) (k : A) :
  Add_method v w = Add v w /\ Sub_method v w = Sub v w /\
  Scale_method v k = Scaled v k /\ Abs_method v = Abs v.
Proof. repeat split. Qed.

Lemma isunit_iff v :
  @IsUnit XR (fv v) = true <-> Rabs (rdot v v - 1) <= 5 / 10 ^ 14.
Proof.
  unfold IsUnit. rewrite Norm2_fv. xr_cbn. rewrite Rleb_true.
  replace (Q2R (5 # 100000000000000)) with (5 / 10 ^ 14); [reflexivity|].
  unfold Q2R; simpl. lra.
Qed.
