(** Model of package glTF (/repo/glTF/model.go, /repo/glTF/export.go).  The gltf library that serialises the
    document is not modelled: [exportArgs] are the arguments Export hands to modeler.WritePosition,
    modeler.WriteIndices and modeler.WriteColor. *)
From Coq Require Import ZArith List.
From Flocq Require Import BinarySingleNaN.
From Verif Require Import Base Arith M_r3 M_shape.
Import ListNotations.

Notation b32 := (binary_float 24 128).
Definition b32_prec : FLX.Prec_gt_0 24 := eq_refl.
Definition b32_pe : Prec_lt_emax 24 128 := eq_refl.
(* Go conversion float32(x): round to nearest even *)
Definition b32_of_b64 (x : b64) : b32 :=
  match x with
  | B754_zero s => B754_zero s
  | B754_infinity s => B754_infinity s
  | B754_nan => B754_nan
  | B754_finite s m e _ =>
      @binary_normalize 24 128 b32_prec b32_pe mode_NE (SpecFloat.cond_Zopp s (Zpos m)) e s
  end.
(* glTF/model.go:5-8 *)
Record Model := mkModel { moPositions : list (b32 * b32 * b32); moIndices : list Z }.
(* glTF/model.go:10-26 *)
Definition transferModel (mesh : @Mesh B64) : Model :=
  mkModel (fold_left (fun positions (v : vec B64) => positions ++ [(b32_of_b64 (vx v), b32_of_b64 (vy v), b32_of_b64 (vz v))])
             (mVertices mesh) []) (mIndices mesh).
(* glTF/export.go:16-34 *)
Definition exportColors (mesh : @Mesh B64) : list (Z * Z * Z) :=
  let fix go n colors := match n with O => colors | S k => go k (colors ++ [(255, 255, 255)%Z]) end in
  go (length (mVertices mesh)) [].
Definition exportArgs (mesh : @Mesh B64) : list (b32 * b32 * b32) * list Z * list (Z * Z * Z) :=
  let model := transferModel mesh in
  (moPositions model, moIndices model, exportColors mesh).
