(** Property theorems C13-C15 and C28-C32 (package triangulate2, without the triangulator). *)
From Coq Require Import Reals Lra Lia ZArith QArith Qreals Bool List Permutation Sorted.
From Flocq Require Import Core BinarySingleNaN.
From Verif Require Import Base Arith M_r3 M_tri2 Spec_r3 Spec_plane XRvec P_tri2 P_polygon P_hull.
Import ListNotations.
Open Scope R_scope.

(** ** C13 *)
Theorem C13_area a b c :
  exists s, area (fv a) (fv b) (fv c) = Fin s /\
    (s = 0 <-> collinear2 a b c) /\
    area (fv b) (fv a) (fv c) = Fin (- s) /\ area (fv a) (fv c) (fv b) = Fin (- s) /\
    area (fv b) (fv c) (fv a) = Fin s /\
    s = - ccw a b c.
Proof. exact (area_laws a b c). Qed.
Print Assumptions C13_area.
Theorem C13_inCircle a b c p o r2 :
  circle3 o r2 a b c ->
  (ccw a b c < 0 -> (inCircle (fv a) (fv b) (fv c) (fv p) = true <-> dist2xy p o < r2)) /\
  (ccw a b c > 0 -> (inCircle (fv a) (fv b) (fv c) (fv p) = true <-> dist2xy p o > r2)).
Proof. exact (inCircle_correct a b c p o r2). Qed.
Print Assumptions C13_inCircle.
Example C13_nonvacuous :
  circle3 (RV 0 0 0) 1 (RV 1 0 0) (RV 0 (-1) 0) (RV 0 1 0) /\ ccw (RV 1 0 0) (RV 0 (-1) 0) (RV 0 1 0) < 0 /\
  dist2xy (RV 0 0 0) (RV 0 0 0) < 1 /\ dist2xy (RV 2 0 0) (RV 0 0 0) > 1.
Proof. unfold circle3, dist2xy, ccw; simpl. repeat split; lra. Qed.

(** ** C14 *)
Theorem C14_circumcircle a b c :
  (~ collinear2 a b c -> exists o r2,
     circumcenter (fv a) (fv b) (fv c) = fv o /\ rz o = 0 /\
     circumradius (fv a) (fv b) (fv c) = Fin r2 /\ circle3 o r2 a b c /\ 0 < r2) /\
  (collinear2 a b c <-> circumradius (fv a) (fv b) (fv c) = PInf).
Proof. exact (circum_correct a b c). Qed.
Print Assumptions C14_circumcircle.
Example C14_nonvacuous : ~ collinear2 (RV 0 0 0) (RV 1 0 0) (RV 0 1 0) /\ collinear2 (RV 0 0 0) (RV 1 1 0) (RV 2 2 7).
Proof.
  split.
  - intros (nx & ny & k & H & H1 & H2 & H3); simpl in *. lra.
  - exists 1, (-1), 0. simpl. repeat split; lra.
Qed.

(** ** C15 *)
Theorem C15_hashKey_valid (center v : rv) (n : Z) :
  ~ samexy center v -> (0 < n < 2 ^ 63)%Z ->
  (0 <= hashKey (A:=XR) (fv center) n (fv v) < n)%Z.
Proof. exact (hashKey_range center v n). Qed.
Print Assumptions C15_hashKey_valid.
Theorem C15_pseudoAngle_monotone r1 t1 r2 t2 :
  0 < r1 -> 0 < r2 -> - PI <= t1 -> t1 <= t2 -> t2 < PI ->
  exists p1 p2,
    pseudoAngle (A:=XR) (Fin (r1 * cos t1)) (Fin (r1 * sin t1)) = Fin p1 /\
    pseudoAngle (A:=XR) (Fin (r2 * cos t2)) (Fin (r2 * sin t2)) = Fin p2 /\ p1 <= p2.
Proof. exact (pseudoAngle_monotone r1 t1 r2 t2). Qed.
Print Assumptions C15_pseudoAngle_monotone.
Example C15_nonvacuous : ~ samexy (RV 0 0 0) (RV (-1) 0 3) /\ (0 < 3 < 2 ^ 63)%Z.
Proof. split; [intros [H _]; simpl in H; lra|lia]. Qed.

(** ** C28 *)
Theorem C28_convex_hull srt vs :
  sorts lessXY (map fv vs) (srt (map fv vs)) ->
  separated vs ->
  (exists p q, In p vs /\ In q vs /\ p <> q) ->
  exists h, ConvexHull srt (map fv vs) = Ok (map fv h) /\
    incl h vs /\ encloses h vs /\
    (exists a b, In a h /\ In b h /\ a <> b /\
       (forall q, In q vs -> q <> a -> lexlt a q) /\ (forall q, In q vs -> q <> b -> lexlt q b)).
Proof. exact (convex_hull_correct srt vs). Qed.
Print Assumptions C28_convex_hull.
Example C28_nonvacuous :
  let vs := [RV 0 0 0; RV 1 1 3; RV 2 0 0; RV 2 0 0] in
  separated vs /\ sorts lessXY (map fv vs) (map fv vs) /\ exists p q, In p vs /\ In q vs /\ p <> q.
Proof.
  split; [|split; [split; [apply Permutation_refl|]|]].
  - intros a b Ha Hb Hne. simpl in Ha, Hb.
    repeat (destruct Ha as [<-|Ha]); try destruct Ha;
    repeat (destruct Hb as [<-|Hb]); try destruct Hb; try congruence;
    (split; [intros [E1 E2]; simpl in *; lra|unfold rdist2, rdot, rsub, epsR; simpl; lra]).
  - assert (G : StronglySorted (fun a b => ~ lexlt b a) [RV 0 0 0; RV 1 1 3; RV 2 0 0; RV 2 0 0]).
    { repeat constructor; unfold lexlt; simpl; lra. }
    revert G. generalize [RV 0 0 0; RV 1 1 3; RV 2 0 0; RV 2 0 0]. intros l G.
    induction G as [|x l Hs IH Hf]; [constructor|]. simpl. constructor; auto.
    rewrite Forall_forall in *. intros y Hy. apply in_map_iff in Hy. destruct Hy as (z & <- & Hz).
    destruct (lessXY (fv z) (fv x)) eqn:E; auto. apply lessXY_fv in E. exfalso. apply (Hf z Hz E).
  - exists (RV 0 0 0), (RV 1 1 3). simpl. repeat split; auto. intros [= ?]; lra.
Qed.

(** ** C75: the hull of points stacked above each other does not enclose the input *)
Theorem C75_hull_stacked_refuted :
  ~ (forall srt vs,
      sorts lessXY (map fv vs) (srt (map fv vs)) ->
      (forall a b, In a vs -> In b vs -> a <> b -> epsR <= rdist2 a b) ->
      exists h, ConvexHull srt (map fv vs) = Ok (map fv h) /\ encloses h vs).
Proof.
  intros H. destruct stacked_hull as (srt & h & H1 & H2 & H3 & H4).
  destruct (H srt stacked H1) as (h' & E & He).
  { intros a b Ha Hb Hne. specialize (H2 a b Ha Hb Hne). unfold epsR. lra. }
  apply H4. rewrite H3 in E. injection E as E.
  assert (h = h') as ->; [|exact He].
  clear -E. revert h' E. induction h as [|x h IH]; intros [|y h'] E; try discriminate; auto.
  injection E as Ex Ey Ez El. f_equal; [apply rv_ext; auto|auto].
Qed.
Print Assumptions C75_hull_stacked_refuted.

(** ** C29 *)
Theorem C29_dropped_points_refuted D : exists vs srt p q,
  sorts lessXY (map fv vs) (srt (map fv vs)) /\ NoDup vs /\ In p vs /\ In q vs /\ D < rdist p q /\
  ConvexHull srt (map fv vs) = Ok [].
Proof. exact (hull_of_chain_empty D). Qed.
Print Assumptions C29_dropped_points_refuted.
Theorem C29_hull_linked_partial srt vs :
  sorts lessXY (map fv vs) (srt (map fv vs)) ->
  (forall a b, In a vs -> In b vs -> samexy a b -> a = b) ->
  exists h ds, ConvexHull srt (map fv vs) = Ok (map fv h) /\
    incl ds vs /\ incl h ds /\ encloses h ds /\
    (forall x, In x vs -> exists z, In z ds /\ linked vs z x).
Proof. exact (convex_hull_near srt vs). Qed.
Print Assumptions C29_hull_linked_partial.
(** the same collapse in binary64: 0, 2^-27, 2^-26, ... all vanish *)
Example C29_binary64 :
  is_ok (ConvexHull (A:=B64) (fun l => l)
    [mkvec (b64_lit 0 0) (b64_lit 0 0) (b64_lit 0 0);
     mkvec (b64_lit 1 (-27)) (b64_lit 0 0) (b64_lit 0 0);
     mkvec (b64_lit 1 (-26)) (b64_lit 0 0) (b64_lit 0 0);
     mkvec (b64_lit 3 (-27)) (b64_lit 0 0) (b64_lit 0 0)]) = true /\
  match ConvexHull (A:=B64) (fun l => l)
    [mkvec (b64_lit 0 0) (b64_lit 0 0) (b64_lit 0 0);
     mkvec (b64_lit 1 (-27)) (b64_lit 0 0) (b64_lit 0 0);
     mkvec (b64_lit 1 (-26)) (b64_lit 0 0) (b64_lit 0 0);
     mkvec (b64_lit 3 (-27)) (b64_lit 0 0) (b64_lit 0 0)] with Ok [] => true | _ => false end = true.
Proof. split; vm_compute; reflexivity. Qed.

(** ** C30 *)
Theorem C30_single_point_refuted {A : Arith} srt (p : vec A) :
  sorts lessXY [p] (srt [p]) -> ConvexHull srt [p] = Ok [].
Proof. exact (hull_single srt p). Qed.
Print Assumptions C30_single_point_refuted.
(** collinear points: the inner vertices are listed twice *)
Theorem C30_collinear_refuted srt vs :
  sorts lessXY (map fv vs) (srt (map fv vs)) -> separated vs -> NoDup vs ->
  (forall a b c, In a vs -> In b vs -> In c vs -> ccw a b c = 0) ->
  exists ss h, Permutation vs ss /\ ConvexHull srt (map fv vs) = Ok (map fv h) /\
     h = removelast ss ++ removelast (rev ss) /\ StronglySorted lexlt ss.
Proof. exact (hull_collinear_repeats srt vs). Qed.
Print Assumptions C30_collinear_refuted.
Example C30_nonvacuous :
  exists h, ConvexHull (fun l => l) (map fv [RV 0 0 0; RV 1 0 0; RV 2 0 0]) = Ok (map fv h) /\
   h = [RV 0 0 0; RV 1 0 0; RV 2 0 0; RV 1 0 0].
Proof.
  exists (hullR (farR None [RV 0 0 0; RV 1 0 0; RV 2 0 0])).
  split; [apply ConvexHull_fv; reflexivity|].
  cbn [farR]. unfold rdist2, rdot, rsub, epsR; cbn [rx ry rz].
  repeat (match goal with |- context [Rltb ?a ?b] => destruct (Rltb_spec a b); [exfalso; lra|] end; cbn iota).
  rewrite hullR_collinear; [reflexivity|].
  intros a b c Ha Hb Hc. simpl in Ha, Hb, Hc.
  repeat (destruct Ha as [<-|Ha]); try destruct Ha;
  repeat (destruct Hb as [<-|Hb]); try destruct Hb;
  repeat (destruct Hc as [<-|Hc]); try destruct Hc; unfold ccw; simpl; lra.
Qed.

(** ** C31 *)
Theorem C31_validate_sound {A : Arith} srt (t : Triangulation A) :
  Validate srt t = Ok true ->
  forall (k : nat) (h : Z), nth_error (tHalfedges t) k = Some h -> h <> (-1)%Z ->
    (0 <= h)%Z /\ nth_error (tHalfedges t) (Z.to_nat h) = Some (Z.of_nat k).
Proof. exact (validate_sound srt t). Qed.
Print Assumptions C31_validate_sound.
(** two triangles 0,2,1 / 1,2,3 of a unit square (library orientation: clockwise) *)
Definition b64v (x y : Z) : vec B64 := mkvec (b64_lit x 0) (b64_lit y 0) (b64_lit 0 0).
Example C31_nonvacuous :
  match Validate (A:=B64) (fun l => l)
    (mkTriangulation [b64v 0 0; b64v 0 1; b64v 1 0; b64v 1 1]
       [b64v 0 0; b64v 1 0; b64v 1 1; b64v 0 1]
       [0; 1; 2; 2; 1; 3]%Z [-1; 3; -1; 1; -1; -1]%Z) with Ok b => b | _ => false end = true.
Proof. vm_compute; reflexivity. Qed.

(** ** C32 *)
Theorem C32_polygonArea l1 l2 t :
  polygonArea (map fv (l1 ++ l2)) = polygonArea (map fv (l2 ++ l1)) /\
  polygonArea (map fv (map (fun p => radd p t) l1)) = polygonArea (map fv l1) /\
  polygonArea (map fv l1) = Ok (Fin (shoelace l1)) /\
  polygonArea (map fv (rev l1)) = Ok (Fin (- shoelace l1)).
Proof. exact (polygon_area_laws l1 l2 t). Qed.
Print Assumptions C32_polygonArea.
Theorem C32_polygonArea_fan p l :
  polygonArea (map fv (p :: l)) =
  Ok (Fin (Rsum (map (fun e => ccw p (fst e) (snd e)) (combine l (tl l))) / 2)).
Proof. exact (polygon_area_fan_pairs p l). Qed.
Print Assumptions C32_polygonArea_fan.
Theorem C32_polygonPerimeter l1 l2 :
  polygonPerimeter (map fv l1) = Ok (Fin (perimeter3 l1)) /\ 0 <= perimeter3 l1 /\
  polygonPerimeter (map fv (l1 ++ l2)) = polygonPerimeter (map fv (l2 ++ l1)) /\
  polygonPerimeter (map fv (rev l1)) = polygonPerimeter (map fv l1).
Proof. exact (polygon_perimeter_laws l1 l2). Qed.
Print Assumptions C32_polygonPerimeter.
Example C32_nonvacuous : shoelace [RV 0 0 0; RV 2 0 0; RV 2 3 0; RV 0 3 0] = 6 /\
  perimeter3 [RV 0 0 0; RV 3 0 4] = 10.
Proof.
  split; [unfold shoelace; simpl; lra|].
  unfold perimeter3, rdist, rdist2, rdot, rsub; simpl.
  replace ((0 - 3) * (0 - 3) + (0 - 0) * (0 - 0) + (0 - 4) * (0 - 4)) with (Rsqr 5) by (unfold Rsqr; ring).
  replace ((3 - 0) * (3 - 0) + (0 - 0) * (0 - 0) + (4 - 0) * (4 - 0)) with (Rsqr 5) by (unfold Rsqr; ring).
  rewrite sqrt_Rsqr by lra. lra.
Qed.
