(** Theorems about package glTF (properties C60, C61). *)
From Coq Require Import Reals Lra Lia ZArith List Bool.
From Flocq Require Import Core BinarySingleNaN.
From Verif Require Import Base Arith M_r3 M_shape M_gltf P_meshgeom P_gltf.
Import ListNotations.
Open Scope R_scope.

(** C60 *)
Theorem C60_export_structure (mesh : @Mesh B64) :
  let '(positions, indices, colors) := exportArgs mesh in
  length positions = length (mVertices mesh) /\ length colors = length (mVertices mesh) /\
  indices = mIndices mesh /\
  (forall k (v : vec B64), nth_error (mVertices mesh) k = Some v ->
     nth_error positions k = Some (b32_of_b64 (vx v), b32_of_b64 (vy v), b32_of_b64 (vz v))) /\
  (forall k c, nth_error colors k = Some c -> c = (255, 255, 255)%Z).
Proof.
  unfold exportArgs. rewrite transferModel_value, exportColors_value. cbn [moPositions moIndices].
  rewrite map_length, repeat_length. repeat split.
  - intros k v H. rewrite nth_error_map, H. reflexivity.
  - intros k c H. apply nth_error_In in H. apply repeat_spec in H. exact H.
Qed.
Print Assumptions C60_export_structure.
Definition zp (x y z : Z) : vec B64 := @mkvec B64 (b64_of_Z x) (b64_of_Z y) (b64_of_Z z).
Example C60_nonvacuous :
  let '(p, i, c) := exportArgs (mkMesh [zp 1 2 3; zp 4 5 16777217] [] [] [0; 1; 0]%Z) in
  map (fun '(x, y, z) => (B2SF x, B2SF y, B2SF z)) p =
    map (fun '(x, y, z) => (B2SF x, B2SF y, B2SF z))
      (let f z := @binary_normalize 24 128 b32_prec b32_pe mode_NE z 0 false in [(f 1, f 2, f 3); (f 4, f 5, f 16777216)]%Z) /\
  i = [0; 1; 0]%Z /\ c = [(255, 255, 255); (255, 255, 255)]%Z.
Proof. vm_compute. auto. Qed.

(** C61: what holds.  The result is finite exactly below the overflow threshold, and then it is a nearest float32;
    zeros, infinities and NaN are kept. *)
Theorem C61_float32_partial (x : B64) :
  (bfin x -> Rabs (bR x) < lim32 ->
     bfin32 (b32_of_b64 x) /\
     forall z : b32, bfin32 z -> Rabs (bR32 (b32_of_b64 x) - bR x) <= Rabs (bR32 z - bR x)) /\
  (is_nan (b32_of_b64 x) = is_nan (x : b64)).
Proof.
  split.
  - intros Hx H. assert (F : bfin32 (b32_of_b64 x)) by (apply b32_finite_iff; assumption).
    split; [exact F|]. intros z Hz. apply b32_nearest; assumption.
  - assert (D : bfin x \/ ~ bfin x) by (unfold bfin; destruct (is_finite _); auto).
    destruct D as [Hx|Hx].
    + assert (E : is_nan (x : b64) = false) by (destruct x; auto; discriminate). rewrite E.
      pose proof (b32_correct x Hx) as C. destruct (Rlt_bool _ _).
      * destruct C as (_ & C). destruct (b32_of_b64 x); auto; discriminate.
      * destruct C as (s & -> & _). reflexivity.
    + destruct x as [s|s| |s m e He]; try reflexivity; exfalso; apply Hx; reflexivity.
Qed.
Print Assumptions C61_float32_partial.
(** large finite coordinates become infinite *)
Theorem C61_float32_overflow_refuted (x : B64) : bfin x -> lim32 <= Rabs (bR x) ->
  ~ bfin32 (b32_of_b64 x) /\ b32_of_b64 x = B754_infinity (Rlt_bool (bR x) 0).
Proof.
  intros Hx H. split; [|apply b32_overflow; assumption]. intros F. apply b32_finite_iff in F; [lra|exact Hx].
Qed.
Print Assumptions C61_float32_overflow_refuted.
Example C61_nonvacuous : is_finite (b32_of_b64 (b64_lit 1 127)) = true /\ is_finite (b32_of_b64 (b64_lit 1 128)) = false /\
  is_finite (b32_of_b64 mid64) = false /\ is_finite (b32_of_b64 (b64_lit (2 ^ 53 - 2 ^ 28 - 1) 75)) = true.
Proof. repeat split; vm_compute; reflexivity. Qed.
