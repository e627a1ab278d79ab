(** Property theorems C01-C08 (package r3). *)
From Coq Require Import Reals Lra ZArith QArith.
From Flocq Require Import BinarySingleNaN.
From Verif Require Import Base Arith M_r3 Spec_r3 Spec_plane XRvec P_r3.
Open Scope R_scope.

(** ** C01 *)
Theorem C01_normalize_unit v :
  (v <> rzero -> exists u, Normalize (fv v) = fv u /\ rnorm u = 1 /\
                  exists k, 0 < k /\ u = rscale k v) /\
  (v = rzero -> Normalize (fv v) = fv rzero).
Proof. exact (normalize_unit v). Qed.
Print Assumptions C01_normalize_unit.
Example C01_nonvacuous : RV 3 0 4 <> rzero.
Proof. intros [=]; lra. Qed.

(** ** C02: false for the zero vector, true otherwise *)
Theorem C02_normalize_method_refuted :
  let v := @Zero B64 in
  vsf (Normalize v) = vsf (@Zero B64) /\
  vsf (Normalize_method v) = (SpecFloat.S754_nan, SpecFloat.S754_nan, SpecFloat.S754_nan).
Proof. exact normalize_method_refuted_lemma. Qed.
Print Assumptions C02_normalize_method_refuted.
Theorem C02_normalize_method_nonzero_partial {A : Arith} (v : vec A) :
  feq A (Norm2 v) (fofZ A 0) = false -> Normalize_method v = Normalize v.
Proof. exact (normalize_method_partial v). Qed.
Print Assumptions C02_normalize_method_nonzero_partial.
Example C02_nonvacuous : feq B64 (@Norm2 B64 (mkvec (fofZ B64 3) (fofZ B64 0) (fofZ B64 4))) (fofZ B64 0) = false.
Proof. vm_compute; reflexivity. Qed.

(** ** C03 *)
Theorem C03_intersect_plane p d n q :
  (rdot n d = 0 <->
   IntersectPlane (mkLine (A:=XR) (fv p) (fv d)) (mkPlane3D (A:=XR) (fv n) (fv q)) = Panic) /\
  (rdot n d <> 0 -> exists x,
     IntersectPlane (mkLine (A:=XR) (fv p) (fv d)) (mkPlane3D (A:=XR) (fv n) (fv q)) = Ok (fv x) /\
     on_line p d x /\ on_plane n q x /\
     forall y, on_line p d y -> on_plane n q y -> y = x).
Proof. exact (intersect_correct p d n q). Qed.
Print Assumptions C03_intersect_plane.
Example C03_nonvacuous : rdot (RV 1 2 3) (RV 0 1 1) <> 0.
Proof. unfold rdot; simpl; lra. Qed.

(** ** C04 *)
Theorem C04_distance_metric a b c :
  exists dab dba dbc dac,
    Distance (fv a) (fv b) = Fin dab /\ Distance (fv b) (fv a) = Fin dba /\
    Distance (fv b) (fv c) = Fin dbc /\ Distance (fv a) (fv c) = Fin dac /\
    0 <= dab /\ dab = dba /\ (dab = 0 <-> a = b) /\ dac <= dab + dbc /\
    SquaredDistance (fv a) (fv b) = Fin (dab * dab) /\
    dab * dab = (rx a - rx b) * (rx a - rx b) + (ry a - ry b) * (ry a - ry b)
                + (rz a - rz b) * (rz a - rz b).
Proof. exact (distance_metric a b c). Qed.
Print Assumptions C04_distance_metric.
Theorem C04_norm_is_magnitude {A : Arith} (v : vec A) : Norm v = Magnitude v.
Proof. exact (norm_magnitude v). Qed.
Print Assumptions C04_norm_is_magnitude.

(** ** C05 *)
Theorem C05_cross_laws a b :
  exists c, Cross (fv a) (fv b) = fv c /\
    orthogonal c a /\ orthogonal c b /\
    Cross (fv b) (fv a) = fv (rscale (-1) c) /\
    rdot c c = rdot a a * rdot b b - rdot a b * rdot a b /\
    (c = rzero <-> parallel a b) /\
    Dot (fv a) (fv b) = Dot (fv b) (fv a).
Proof. exact (cross_laws a b). Qed.
Print Assumptions C05_cross_laws.
Theorem C05_triangle_normal a b c :
  exists n, calculateNormal (fv a) (fv b) (fv c) = fv n /\
    rdot n (rsub b a) = 0 /\ rdot n (rsub c a) = 0 /\ rdot n (rsub c b) = 0 /\
    (n = rzero <-> parallel (rsub b a) (rsub c a)).
Proof. exact (calculateNormal_laws a b c). Qed.
Print Assumptions C05_triangle_normal.
(** the cross product and the triangle normal are right-handed *)
Theorem C05_right_handed a b c :
  (exists n, Cross (fv a) (fv b) = fv n /\ rdet3 a b n = rdot n n) /\
  (exists n, calculateNormal (fv a) (fv b) (fv c) = fv n /\ rdet3 (rsub b a) (rsub c a) n = rdot n n /\
     rdot n n = rdist2 b a * rdist2 c a - rdot (rsub b a) (rsub c a) * rdot (rsub b a) (rsub c a)).
Proof.
  split.
  - exists (rcross a b). split; [apply Cross_fv|]. unfold rdet3, rdot, rcross; simpl; ring.
  - exists (rcross (rsub b a) (rsub c a)).
    split. { unfold calculateNormal, createVector, fv, rcross; simpl. f_equal; f_equal; ring. }
    split; unfold rdist2, rdet3, rdot, rcross, rsub; simpl; ring.
Qed.
Print Assumptions C05_right_handed.
Example C05_right_handed_nonvacuous : Cross (fv (RV 1 0 0)) (fv (RV 0 1 0)) = fv (RV 0 0 1).
Proof. rewrite Cross_fv. f_equal. apply rv_ext; unfold rcross; simpl; ring. Qed.

(** ** C06: false; the function measures against the plane through -normal *)
Theorem C06_distance_to_plane_refuted :
  exists n o v : rv, rdot n n = 1 /\ on_plane n o v /\
    CalculateDistanceToPlane (fv v) (newPlane (fv n) (fv o)) <> Fin 0.
Proof. exact distance_to_plane_refuted_lemma. Qed.
Print Assumptions C06_distance_to_plane_refuted.
(** no point of any plane through the origin is at distance 0 from it *)
Theorem C06_plane_through_origin n v :
  on_plane n rzero v -> n <> rzero ->
  exists d, CalculateDistanceToPlane (fv v) (newPlane (fv n) (fv rzero)) = Fin d /\ 0 < d.
Proof. exact (distance_to_plane_never_zero n v). Qed.
Print Assumptions C06_plane_through_origin.
Theorem C06_zero_set n o v :
  exists d, CalculateDistanceToPlane (fv v) (newPlane (fv n) (fv o)) = Fin d /\
    (d = 0 <-> on_plane n (rscale (-1) n) v).
Proof. exact (distance_to_plane_char n o v). Qed.
Print Assumptions C06_zero_set.
(** the claim holds exactly for the planes that happen to contain -normal *)
Theorem C06_when_correct n o :
  (forall v, on_plane n o v ->
     CalculateDistanceToPlane (fv v) (newPlane (fv n) (fv o)) = Fin 0) <->
  rdot n o = - rdot n n.
Proof. exact (distance_to_plane_iff n o). Qed.
Print Assumptions C06_when_correct.
(** newPlane itself is right: its normal and distance are the plane's equation *)
Theorem C06_newPlane n o v :
  pNormal (newPlane (fv n) (fv o)) = fv n /\
  exists d, pDistance (newPlane (fv n) (fv o)) = Fin d /\ (on_plane n o v <-> rdot n v + d = 0).
Proof.
  split; [reflexivity|]. unfold newPlane; cbn [pDistance]. rewrite Dot_fv. xr_cbn. eexists. split; [reflexivity|].
  unfold on_plane. replace (rdot n (rsub v o)) with (rdot n v - rdot n o) by (unfold rdot, rsub; simpl; ring). lra.
Qed.
Print Assumptions C06_newPlane.
(** det2D is the oriented area spanned by the XY projections *)
Theorem C06_det2D a b c : exists d, det2D (fv (rsub b a)) (fv (rsub c a)) = Fin d /\ d = ccw a b c.
Proof. eexists. split; [reflexivity|]. unfold ccw, rsub; simpl; ring. Qed.
Print Assumptions C06_det2D.
Example C06_nonvacuous : on_plane (RV 0 0 1) rzero (RV 5 7 0) /\ RV 0 0 1 <> rzero.
Proof. split; [unfold on_plane, rdot, rsub; simpl; ring|intros [=]; lra]. Qed.

(** ** C07 *)
Theorem C07_interpolate a b t :
  exists x, Interpolate (fv a) (fv b) (Fin t) = fv x /\
    (t = 0 -> x = a) /\ (t = 1 -> x = b) /\
    x = radd (rscale (1 - t) a) (rscale t b) /\
    (0 <= t <= 1 -> rdist a x = t * rdist a b /\ rdist x b = (1 - t) * rdist a b) /\
    GetInterpolationVector (fv b) (fv a) (Fin t) = fv x.
Proof. exact (interpolate_laws a b t). Qed.
Print Assumptions C07_interpolate.

(** ** C08 *)
Theorem C08_methods_agree {A : Arith} (v w : vec A) (k : A) :
  Add_method v w = Add v w /\ Sub_method v w = Sub v w /\
  Scale_method v k = Scaled v k /\ Abs_method v = Abs v.
Proof. exact (methods_agree v w k). Qed.
Print Assumptions C08_methods_agree.
Theorem C08_isunit v :
  @IsUnit XR (fv v) = true <-> Rabs (rdot v v - 1) <= 5 / 10 ^ 14.
Proof. exact (isunit_iff v). Qed.
Print Assumptions C08_isunit.
