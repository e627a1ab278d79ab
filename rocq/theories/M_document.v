(** Model of Export in package glTF (/repo/glTF/export.go) with the document it builds.  The library qmuntal/gltf is not in
    /repo; the parts used are modelled after its documentation: NewDocument returns a document with one scene that has no
    nodes, which is also the default scene, and modeler.WritePosition / WriteIndices / WriteColor append one accessor holding
    the data and return its index.  How SaveBinary turns the document into bytes is not modelled. *)
From Coq Require Import ZArith List String.
From Verif Require Import Base Arith GoLoop M_r3 M_shape M_gltf.
Import ListNotations.
Open Scope res_scope.

Inductive Accessor :=
  | APositions (l : list (b32 * b32 * b32))
  | AIndices (l : list Z)
  | AColors (l : list (Z * Z * Z)).
Record Primitive := mkPrimitive { pIndices : option Z; pAttributes : list (string * Z) }.
Record GMesh := mkGMesh { gmName : string; gmPrimitives : list Primitive }.
Record Node := mkNode { nodeName : string; nodeMesh : option Z }.
(* a scene is the list of its root nodes *)
Record Document := mkDocument {
  dAccessors : list Accessor; dMeshes : list GMesh; dNodes : list Node; dScenes : list (list Z); dScene : option Z }.
(* gltf.NewDocument *)
Definition NewDocument : Document := mkDocument [] [] [] [[]] (Some 0%Z).
(* modeler.WriteXxx *)
Definition writeAccessor (doc : Document) (a : Accessor) : Document * Z :=
  (mkDocument (dAccessors doc ++ [a]) (dMeshes doc) (dNodes doc) (dScenes doc) (dScene doc), Z.of_nat (List.length (dAccessors doc))).
(* glTF/export.go:11-53, without the messages and the file *)
Definition Export (mesh : @Mesh B64) : res Document :=
  let doc := NewDocument in
  let model := transferModel mesh in                                                        (* export.go:16 *)
  let '(doc, positionAccessor) := writeAccessor doc (APositions (moPositions model)) in     (* export.go:18 *)
  let '(doc, indicesAccessor) := writeAccessor doc (AIndices (moIndices model)) in          (* export.go:19 *)
  let '(doc, colorIndices) := writeAccessor doc (AColors (exportColors mesh)) in            (* export.go:24-34 *)
  let meshes := [mkGMesh "drawTriangle"
    [mkPrimitive (Some indicesAccessor) [("POSITION", positionAccessor); ("COLOR_0", colorIndices)]]]%string in  (* export.go:36-47 *)
  let nodes := [mkNode "Root" (Some 0%Z)] in                                                (* export.go:48 *)
  let! s := zget (dScenes doc) 0 in
  let! scenes := zset (dScenes doc) 0 (s ++ [0%Z]) in                                       (* export.go:49 *)
  Ok (mkDocument (dAccessors doc) meshes nodes scenes (dScene doc)).
