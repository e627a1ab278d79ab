(** Property theorems C09-C12 (package predicates). *)
From Coq Require Import Reals Lra ZArith QArith Qreals Bool.
From Flocq Require Import Core BinarySingleNaN.
From Verif Require Import Base Arith M_r3 M_predicates Spec_r3 Spec_sphere XRvec P_predicates P_insphere_b64.
Open Scope R_scope.

(** ** C09 *)
Theorem C09_orient3d a b c d t :
  exists o, orient3dfast (fv a) (fv b) (fv c) (fv d) = Fin o /\
    o = rdet3 (rsub a d) (rsub b d) (rsub c d) /\
    (o = 0 <-> coplanar a b c d) /\
    orient3dfast (fv b) (fv a) (fv c) (fv d) = Fin (- o) /\
    orient3dfast (fv a) (fv c) (fv b) (fv d) = Fin (- o) /\
    orient3dfast (fv a) (fv b) (fv d) (fv c) = Fin (- o) /\
    orient3dfast (fv (radd a t)) (fv (radd b t)) (fv (radd c t)) (fv (radd d t)) = Fin o.
Proof. exact (orient3d_laws a b c d t). Qed.
Print Assumptions C09_orient3d.

(** ** C10 *)
Theorem C10_insphere a b c d e o r2 :
  circumsphere o r2 a b c d ->
  exists s, InSphereFast (fv a) (fv b) (fv c) (fv d) (fv e) = Fin s /\
   (signed_volume a b c d < 0 ->
      (s > 0 <-> inside_sphere o r2 e) /\ (s = 0 <-> on_sphere o r2 e) /\
      (s < 0 <-> outside_sphere o r2 e)) /\
   (signed_volume a b c d > 0 ->
      (s < 0 <-> inside_sphere o r2 e) /\ (s = 0 <-> on_sphere o r2 e) /\
      (s > 0 <-> outside_sphere o r2 e)) /\
   (signed_volume a b c d = 0 -> s = 0).
Proof. exact (insphere_sign a b c d e o r2). Qed.
Print Assumptions C10_insphere.
(** every non-degenerate tetrahedron has a circumsphere, so C10 is never vacuous *)
Theorem C10_circumsphere_exists a b c d :
  signed_volume a b c d <> 0 -> exists o r2, circumsphere o r2 a b c d.
Proof. exact (circumsphere_exists a b c d). Qed.
Print Assumptions C10_circumsphere_exists.
Theorem C10_insphere_determinant a b c d e :
  InSphereFast (fv a) (fv b) (fv c) (fv d) (fv e) = Fin (insphere_det a b c d e).
Proof. exact (insphere_fast_det a b c d e). Qed.
Print Assumptions C10_insphere_determinant.
Example C10_nonvacuous :
  circumsphere rzero 3 (RV 1 1 1) (RV 1 (-1) (-1)) (RV (-1) (-1) 1) (RV (-1) 1 (-1)) /\
  signed_volume (RV 1 1 1) (RV 1 (-1) (-1)) (RV (-1) (-1) 1) (RV (-1) 1 (-1)) < 0.
Proof.
  unfold circumsphere, on_sphere, rdist2, signed_volume, rdet3, rdot, rsub; simpl.
  repeat split; lra.
Qed.

(** ** C11 *)
Theorem C11_fast_or_zero {A : Arith} (a b c d e : vec A) :
  let r := inSphere (vx a) (vy a) (vz a) (vx b) (vy b) (vz b) (vx c) (vy c) (vz c)
                    (vx d) (vy d) (vz d) (vx e) (vy e) (vz e) in
  r = InSphereFast a b c d e \/ r = fneg A (fofQ A 0).
Proof. exact (inSphere_fast_or_zero a b c d e). Qed.
Print Assumptions C11_fast_or_zero.
Theorem C11_exact a b c d e :
  inSphere (A:=XR) (Fin (rx a)) (Fin (ry a)) (Fin (rz a)) (Fin (rx b)) (Fin (ry b)) (Fin (rz b))
     (Fin (rx c)) (Fin (ry c)) (Fin (rz c)) (Fin (rx d)) (Fin (ry d)) (Fin (rz d))
     (Fin (rx e)) (Fin (ry e)) (Fin (rz e)) =
  Fin (if Rltb (Q2R isperrboundAQ * permanent5 a b c d e) (Rabs (insphere_det a b c d e))
       then insphere_det a b c d e else 0).
Proof. exact (inSphere_exact a b c d e). Qed.
Print Assumptions C11_exact.

(** ** C12: binary64, coordinates multiples of 2^-180 of magnitude at most 2^200 *)
Theorem C12_filter_sign (a b c d e : vec B64) :
  tame_vec a -> tame_vec b -> tame_vec c -> tame_vec d -> tame_vec e ->
  let r : b64 := inSphere (vx a) (vy a) (vz a) (vx b) (vy b) (vz b) (vx c) (vy c) (vz c)
     (vx d) (vy d) (vz d) (vx e) (vy e) (vz e) in
  is_finite r = true /\
  (0 < B2R r -> 0 < insphere_det (rvec a) (rvec b) (rvec c) (rvec d) (rvec e)) /\
  (B2R r < 0 -> insphere_det (rvec a) (rvec b) (rvec c) (rvec d) (rvec e) < 0).
Proof. exact (inSphere_b64_sign a b c d e). Qed.
Print Assumptions C12_filter_sign.
Theorem C12_filter_geometric (a b c d e : vec B64) (o : rv) (r2 : R) :
  tame_vec a -> tame_vec b -> tame_vec c -> tame_vec d -> tame_vec e ->
  circumsphere o r2 (rvec a) (rvec b) (rvec c) (rvec d) ->
  signed_volume (rvec a) (rvec b) (rvec c) (rvec d) < 0 ->
  let r : b64 := inSphere (vx a) (vy a) (vz a) (vx b) (vy b) (vz b) (vx c) (vy c) (vz c)
     (vx d) (vy d) (vz d) (vx e) (vy e) (vz e) in
  (0 < B2R r -> inside_sphere o r2 (rvec e)) /\ (B2R r < 0 -> outside_sphere o r2 (rvec e)).
Proof. exact (inSphere_b64_geometric a b c d e o r2). Qed.
Print Assumptions C12_filter_geometric.
(** non-vacuity: a tame vector, and a run where the filter answers with a non-zero value *)
Definition tv (x y z : Z) : vec B64 := mkvec (fofZ B64 x) (fofZ B64 y) (fofZ B64 z).
Example C12_nonvacuous_value :
  let f (v : vec B64) := vx v in
  let a := tv 1 1 1 in let b := tv 1 (-1) (-1) in let c := tv (-1) (-1) 1 in
  let d := tv (-1) 1 (-1) in let e := tv 0 0 0 in
  sf (inSphere (vx a) (vy a) (vz a) (vx b) (vy b) (vz b) (vx c) (vy c) (vz c)
     (vx d) (vy d) (vz d) (vx e) (vy e) (vz e)) = SpecFloat.S754_finite false 6755399441055744 (-47).
Proof. vm_compute. reflexivity. Qed.
Example C12_nonvacuous_tame : tame_vec (mkvec (A:=B64) (B754_zero true) (fofZ B64 0) (b64_lit 1 (-3))).
Proof.
  assert (Z : forall s, tame (B754_zero s)).
  { intros s. repeat split; [exists 0%Z; simpl; ring|simpl; rewrite Rabs_R0; lra]. }
  assert (E : B2R (b64_lit 1 (-3) : b64) = / 8).
  { rewrite <- SF2R_B2SF.
    replace (B2SF (b64_lit 1 (-3) : b64)) with (SpecFloat.S754_finite false 4503599627370496 (-55))
      by (vm_compute; reflexivity).
    simpl. unfold F2R; simpl. lra. }
  split; [apply Z|]. split; [apply Z|]. cbn [vz]. split; [reflexivity|]. split.
  - exists (radix_val radix2 ^ 177)%Z. rewrite E, (IZR_Zpower radix2 177) by discriminate.
    rewrite <- bpow_plus. simpl. lra.
  - rewrite E, Rabs_pos_eq by lra. simpl. lra.
Qed.
