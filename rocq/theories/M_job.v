(** step/job.go and the handler of B_SPLINE_SURFACE_WITH_KNOTS with the value it builds and what it prints. *)
From Coq Require Import Ascii String ZArith List Bool.
From Verif Require Import Base GoMap M_step.
Import ListNotations.
Open Scope Z_scope.

(* step/job.go:5-18 *)
Record bSplineSurface := mkJob {
  name : bytes; uDegree : bytes; vDegree : bytes; controlPointsList : list (list bytes); surfaceForm : bytes;
  uClosed : bool; vClosed : bool; selfIntersect : bool;
  uMultiplicities : list bytes; vMultiplicities : list bytes; uKnots : list bytes; vKnots : list bytes }.
(* step/template.go:161-187: the surface built by the handler (runFn of M_step.v only says whether it panics) *)
Definition surfaceJob (lexemes : SymbolTable) (key : string) : res bSplineSurface :=
  let! name := argument lexemes key 0 in
  let! uDegree := argument lexemes key 1 in
  let! vDegree := argument lexemes key 2 in
  let! a := argument lexemes key 3 in
  let! controlPointsList := getMatrix a in
  let! surfaceForm := argument lexemes key 4 in
  let! a := argument lexemes key 5 in
  let uClosed := getLogical a in
  let! a := argument lexemes key 6 in
  let vClosed := getLogical a in
  let! a := argument lexemes key 7 in
  let selfIntersect := getLogical a in
  let! a := argument lexemes key 8 in
  let! uMultiplicities := getArray a in
  let! a := argument lexemes key 9 in
  let! vMultiplicities := getArray a in
  let! a := argument lexemes key 10 in
  let! uKnots := getArray a in
  let! a := argument lexemes key 11 in
  let! vKnots := getArray a in
  Ok (mkJob name uDegree vDegree controlPointsList surfaceForm uClosed vClosed selfIntersect
        uMultiplicities vMultiplicities uKnots vKnots).
(* fmt.Println of strings, bools, []string and [][]string: operands separated by a space, slices as [a b c] *)
Fixpoint spaced (l : list bytes) : bytes :=
  match l with [] => [] | [a] => a | a :: l' => a ++ " "%char :: spaced l' end.
Definition showSlice (l : list bytes) : bytes := "["%char :: spaced l ++ ["]"%char].
Definition showBool (b : bool) : bytes := lit (if b then "true" else "false").
Definition println (label : string) (v : bytes) : bytes := lit label ++ " "%char :: v ++ [LF].
(* step/job.go:20-35 *)
Definition print (nurb : bSplineSurface) : bytes :=
  println "name:" (name nurb) ++
  println "uDegree:" (uDegree nurb) ++
  println "vDegree:" (vDegree nurb) ++
  println "controlPointsList:" (showSlice (map showSlice (controlPointsList nurb))) ++
  println "surfaceForm:" (surfaceForm nurb) ++
  println "uClosed:" (showBool (uClosed nurb)) ++
  println "vClosed" (showBool (vClosed nurb)) ++
  println "selfIntersect:" (showBool (selfIntersect nurb)) ++
  println "uMultiplicities:" (showSlice (uMultiplicities nurb)) ++
  println "vMultiplicities:" (showSlice (vMultiplicities nurb)) ++
  println "uKnots:" (showSlice (uKnots nurb)) ++
  println "vKnots:" (showSlice (vKnots nurb)).
