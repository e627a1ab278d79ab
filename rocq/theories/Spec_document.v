(** What a glTF 2.0 file must satisfy, and what a viewer reads from it, for the parts of the format Export uses (property
    C175).  Written from the format, without reference to how the document is built. *)
From Coq Require Import Reals ZArith List String.
From Flocq Require Import BinarySingleNaN.
From Verif Require Import Base Arith M_gltf M_document.
Import ListNotations.

Definition at_ {X} (l : list X) (i : Z) (x : X) : Prop := (0 <= i)%Z /\ nth_error l (Z.to_nat i) = Some x.
Definition finite3 (p : b32 * b32 * b32) : Prop :=
  let '(x, y, z) := p in is_finite x = true /\ is_finite y = true /\ is_finite z = true.
(** a primitive drawn as triangles: positions [P], triangle corners [I], one colour per position *)
Definition prim_shows (d : Document) (p : Primitive) (P : list (b32 * b32 * b32)) (I : list Z) : Prop :=
  (exists k, In ("POSITION"%string, k) (pAttributes p) /\ at_ (dAccessors d) k (APositions P)) /\
  (exists k, pIndices p = Some k /\ at_ (dAccessors d) k (AIndices I)) /\
  (forall name k, In (name, k) (pAttributes p) -> name = "POSITION"%string \/
     name = "COLOR_0"%string /\ exists C, at_ (dAccessors d) k (AColors C) /\ List.length C = List.length P).
(** the numbers a primitive may contain *)
Definition prim_data (P : list (b32 * b32 * b32)) (I : list Z) : Prop :=
  P <> [] /\ I <> [] /\ (exists n, List.length I = 3 * n)%nat /\
  (forall x, In x I -> (0 <= x < Z.of_nat (List.length P))%Z /\ x <> (2 ^ 32 - 1)%Z) /\
  (forall p, In p P -> finite3 p).
(** every reference in the document leads somewhere and every primitive is well formed *)
Definition valid_doc (d : Document) : Prop :=
  (exists k s, dScene d = Some k /\ at_ (dScenes d) k s) /\
  (forall s k, In s (dScenes d) -> In k s -> exists n, at_ (dNodes d) k n) /\
  (forall n k, In n (dNodes d) -> nodeMesh n = Some k -> exists m, at_ (dMeshes d) k m) /\
  (forall m, In m (dMeshes d) -> gmPrimitives m <> [] /\
     forall p, In p (gmPrimitives m) -> exists P I, prim_shows d p P I /\ prim_data P I).
(** opening the document shows exactly one primitive, with positions P and corners I *)
Definition shows (d : Document) (P : list (b32 * b32 * b32)) (I : list Z) : Prop :=
  exists k n m p, dScene d = Some k /\ at_ (dScenes d) k [n] /\
    (exists nd, at_ (dNodes d) n nd /\ nodeMesh nd = Some m) /\
    (exists g, at_ (dMeshes d) m g /\ gmPrimitives g = [p]) /\ prim_shows d p P I.
(** a float32 point within e of a real point *)
Definition near32 (p : b32 * b32 * b32) (x y z e : R) : Prop :=
  let '(a, b, c) := p in finite3 p /\ (Rabs (B2R a - x) <= e /\ Rabs (B2R b - y) <= e /\ Rabs (B2R c - z) <= e)%R.
