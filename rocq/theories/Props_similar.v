(** Property theorems C171: the triangulation does not depend on the unit of length or on the place of the origin. *)
From Coq Require Import Reals Lra Lia ZArith QArith Qreals List Bool.
From Flocq Require Import Core BinarySingleNaN.
From Verif Require Import Base Arith M_r3 M_tri2 M_triangulator Spec_r3 Spec_plane Spec_acc64 XRvec P_flipterm P_insphere_err P_insphere_b64 P_acc64 P_b64hash P_b64hull
  Spec_similar Spec_scale64 P_same P_similar P_scale64 Props_grid Props_acc64 Props_clearhull.
Import ListNotations.
Open Scope R_scope.

(** the second call has the result of the first, with its hull points moved by f *)
Definition same_result {A : Arith} (f : vec A -> vec A) (r r' : res (Triangulation A * bool)) : Prop :=
  match r, r' with
  | Ok (t, err), Ok (t', err') => tTriangles t' = tTriangles t /\ tHalfedges t' = tHalfedges t /\ tConvexHull t' = map f (tConvexHull t) /\ err' = err
  | Panic, Panic => True
  | Diverge, Diverge => True
  | _, _ => False
  end.
(** moving a point of exact arithmetic *)
Definition movev (k tx ty : R) (v : vec XR) : vec XR :=
  @mkvec XR (fadd XR (fmul XR (Fin k : XR) (vx v)) (Fin tx : XR)) (fadd XR (fmul XR (Fin k : XR) (vy v)) (Fin ty : XR)) (fmul XR (Fin k : XR) (vz v)).
Lemma movev_fv k tx ty p : movev k tx ty (fv p) = fv (similar k tx ty p). Proof. reflexivity. Qed.

Lemma eps_Q : Q2R (1 # 4503599627370496) = epsR. Proof. unfold Q2R, epsR. cbn [Qnum Qden]. lra. Qed.

(** exact arithmetic, scaling by k > 0 and moving: whenever the near-duplicate test is not affected *)
Theorem C171_similar sort k tx ty pts : 0 < k -> sort_local sort ->
  (forall p q, In p pts -> In q pts -> (rdist2 p q < epsR <-> k * k * rdist2 p q < epsR)) ->
  same_result (movev k tx ty) (Triangulate sort (map fv pts)) (Triangulate sort (map fv (map (similar k tx ty) pts))).
Proof.
  intros Hk Hs Hn.
  assert (N : forall p q, In p pts -> In q pts -> (rdist2 p q < Q2R (1 # 4503599627370496) <-> rdist2 (similar k tx ty p) (similar k tx ty q) < Q2R (1 # 4503599627370496))).
  { intros p q Hp Hq. rewrite eps_Q, rdist2_S. apply Hn; assumption. }
  pose proof (Triangulate_S k tx ty Hk pts N sort Hs) as T. unfold same_result.
  destruct (Triangulate sort (map fv pts)) as [(t, e1)| |], (Triangulate sort (map fv (map (similar k tx ty) pts))) as [(t', e2)| |]; try exact T; try exact I.
  destruct T as (T1 & T2 & T3 & h & E & E'). split; [exact T1|]. split; [exact T2|]. split; [|exact T3]. rewrite E, E', !map_map. reflexivity.
Qed.
Print Assumptions C171_similar.

(** moving alone *)
Theorem C171_translate sort tx ty pts : sort_local sort ->
  same_result (movev 1 tx ty) (Triangulate sort (map fv pts)) (Triangulate sort (map fv (map (fun p => RV (rx p + tx) (ry p + ty) (rz p)) pts))).
Proof.
  intros Hs. replace (map (fun p => RV (rx p + tx) (ry p + ty) (rz p)) pts) with (map (similar 1 tx ty) pts).
  - apply C171_similar; [lra|exact Hs|]. intros p q _ _. rewrite !Rmult_1_l. reflexivity.
  - apply map_ext. intros p. unfold similar. rewrite !Rmult_1_l. reflexivity.
Qed.
Print Assumptions C171_translate.

(** larger units are harmless when distinct points are at least sqrt(2^-52) apart *)
Theorem C171_enlarge sort k tx ty pts : 1 <= k -> sort_local sort ->
  (forall p q, In p pts -> In q pts -> p <> q -> epsR <= rdist2 p q) ->
  same_result (movev k tx ty) (Triangulate sort (map fv pts)) (Triangulate sort (map fv (map (similar k tx ty) pts))).
Proof.
  intros Hk Hs Hn. apply C171_similar; [lra|exact Hs|]. intros p q Hp Hq. destruct (Req_dec (rdist2 p q) 0) as [->|N]; [rewrite Rmult_0_r; reflexivity|].
  assert (p <> q) by (intros ->; apply N; unfold rdist2, rdot, rsub; cbn [rx ry rz]; ring).
  pose proof (Hn p q Hp Hq H) as L. assert (P : 0 < epsR) by (unfold epsR; lra). assert (1 <= k * k) by nra.
  split; intros C; [lra|]. exfalso. assert (1 * rdist2 p q <= k * k * rdist2 p q) by (apply Rmult_le_compat_r; lra). lra.
Qed.
Print Assumptions C171_enlarge.

(** ** binary64, scaling by a power of two *)
Lemma grid90_tame x : is_finite x = true -> grid90 (B2R x) -> tame x.
Proof.
  intros F ((n & E) & B). split; [exact F|]. split.
  - exists (n * 2 ^ 90)%Z. rewrite mult_IZR. change (2 ^ 90)%Z with (Zpower radix2 90). rewrite IZR_Zpower by lia. rewrite E, Rmult_assoc, <- bpow_plus. reflexivity.
  - eapply Rle_trans; [exact B|]. apply bpow_le. lia.
Qed.
Lemma gamma5_small : gamma 5 <= / 8.
Proof. eapply Rle_trans; [apply gamma_lin; lia|]. cbn [INR]. lra. Qed.
Lemma near_acc (p q : vec B64) d : tame_vec p -> tame_vec q -> d = rdist2 (rvec p) (rvec q) ->
  (bpow radix2 (- 51) <= d -> flt B64 (SquaredDistance p q) eps = false) /\ (d <= bpow radix2 (- 53) -> flt B64 (SquaredDistance p q) eps = true).
Proof.
  intros Tp Tq ->. destruct (acc_bound _ _ _ _ _ _ (sqdist_acc p q Tp Tq)) as (F & B). destruct eps_b64 as (Fe & Ee). pose proof gamma5_small as G.
  assert (P0 : 0 <= rdist2 (rvec p) (rvec q)) by (unfold rdist2, rdot; nra). set (d := rdist2 (rvec p) (rvec q)) in *.
  assert (G1 : gamma 5 * d <= / 8 * d) by (apply Rmult_le_compat_r; assumption). apply Rabs_le_inv in B.
  assert (E1 : bpow radix2 (- 51) = 2 * epsR) by (unfold epsR; cbn -[IZR Rinv]; lra). assert (E3 : bpow radix2 (- 53) = epsR / 2) by (unfold epsR; cbn -[IZR Rinv]; lra).
  assert (Pe : 0 < epsR) by (unfold epsR; lra). cbn [flt B64]. rewrite Bltb_correct by assumption. rewrite Ee, E1, E3. split; intros H; [apply Rlt_bool_false|apply Rlt_bool_true]; lra.
Qed.
Theorem C171_scale64 sort e vs : sort_local sort -> Forall (scalable_vec e) vs ->
  (forall p q, In p vs -> In q vs -> same_side (rdist2 (rvec p) (rvec q)) (bpow radix2 (2 * e) * rdist2 (rvec p) (rvec q))) ->
  same_result (scale64 e) (Triangulate sort vs) (Triangulate sort (map (scale64 e) vs)).
Proof.
  intros Hs Hv Hn. rewrite Forall_forall in Hv.
  assert (HP : Forall2 (PT e) vs (map (scale64 e) vs)).
  { assert (G : forall l, incl l vs -> Forall2 (PT e) l (map (scale64 e) l)); [|apply G, incl_refl].
    induction l as [|v l IH]; intros Hi; cbn [map]; constructor; [apply scale_PT, Hv, Hi; left; reflexivity|]. apply IH. intros z Hz. apply Hi. right. exact Hz. }
  assert (TP : forall v v', PT e v v' -> tame_vec v /\ tame_vec v').
  { assert (T1 : forall x, rel x (B2R x) 90 90 -> tame x) by (intros x (F & _ & G & B); apply grid90_tame; [exact F|split; assumption]).
    intros v v' ((X1 & X2 & _) & (Y1 & Y2 & _) & (Z1 & Z2 & _)). split; (split; [|split]); apply T1; assumption. }
  assert (RP : forall p p' q q', PT e p p' -> PT e q q' -> rdist2 (rvec p') (rvec q') = bpow radix2 (2 * e) * rdist2 (rvec p) (rvec q)).
  { intros p p' q q' ((_ & _ & X) & (_ & _ & Y) & (_ & _ & Z)) ((_ & _ & X') & (_ & _ & Y') & (_ & _ & Z')). unfold rdist2, rdot, rsub, rvec. cbn [rx ry rz].
    rewrite X, Y, Z, X', Y', Z'. replace (2 * e)%Z with (1 * e + 1 * e)%Z by ring. rewrite bpow_plus. ring. }
  assert (E : triangulate sort vs = triangulate sort (map (scale64 e) vs)).
  { apply (triangulate_scaled e); [exact HP| |exact Hs]. intros p p' q q' Ip Iq Pp Pq. destruct (TP _ _ Pp) as (Tp & Tp'), (TP _ _ Pq) as (Tq & Tq').
    destruct (near_acc p q _ Tp Tq eq_refl) as (F1 & C1). destruct (near_acc p' q' _ Tp' Tq' eq_refl) as (F2 & C2). rewrite (RP _ _ _ _ Pp Pq) in F2, C2.
    destruct (Hn p q Ip Iq) as [(H & H')|(H & H')]; [rewrite (F1 H), (F2 H')|rewrite (C1 H), (C2 H')]; reflexivity. }
  unfold Triangulate. rewrite <- E. destruct (triangulate sort vs) as [(s, err)| |]; cbn [rbind]; try exact I.
  assert (HM : Forall2 (fun v v' => v' = scale64 e v) vs (map (scale64 e) vs)) by (clear; induction vs; constructor; [reflexivity|assumption]).
  pose proof (convexHull_same _ vs _ HM s) as H. destruct (convexHull vs s) as [h| |], (convexHull (map (scale64 e) vs) s) as [h'| |]; try contradiction; cbn [rbind]; try exact I.
  cbn [same_result tTriangles tHalfedges tConvexHull]. split; [reflexivity|]. split; [reflexivity|]. split; [|reflexivity].
  clear - H. induction H as [|a b l l' Hab H IH]; [reflexivity|]. cbn [map]. rewrite Hab, IH. reflexivity.
Qed.
Print Assumptions C171_scale64.

(** ** a sort of this kind, and six points whose coordinates are shrunk 2^20 times *)
Lemma ins_local (less less' : Z -> Z -> bool) x l : (forall a b, In a (x :: l) -> In b (x :: l) -> less a b = less' a b) -> ins less x l = ins less' x l.
Proof.
  induction l as [|y l IH]; intros H; cbn [ins]; [reflexivity|]. rewrite <- (H y x) by (cbn; auto). destruct (less y x); [|reflexivity]. f_equal. apply IH.
  intros a b Ha Hb. apply H; cbn in *; tauto.
Qed.
Lemma isort_local : sort_local isort.
Proof.
  intros less less' l. unfold isort. induction l as [|x l IH]; intros H; [reflexivity|]. cbn [fold_right].
  rewrite <- IH by (intros a b Ha Hb; apply H; right; assumption). apply ins_local. intros a b Ha Hb.
  assert (I : forall z, In z (x :: fold_right (ins less) [] l) -> In z (x :: l)).
  { intros z [->|Hz]; [left; reflexivity|right]. eapply Permutation.Permutation_in; [apply Permutation.Permutation_sym, (isort_perm less l)|exact Hz]. }
  apply H; apply I; assumption.
Qed.
Definition tris {A : Arith} (r : res (Triangulation A * bool)) : option (list Z) := match r with Ok (t, false) => Some (tTriangles t) | _ => None end.
Definition ex171 : list zpt := [(81, 13, 7); (-40, 75, 7); (9, -64, 7); (3, 10, 7); (-77, -25, 7)]%Z.
Lemma scalable_small e n : (- 60 <= e <= 60)%Z -> (Z.abs n <= 1024)%Z -> scalable e (fofZ B64 n : b64).
Proof.
  intros He Hn. destruct (fr_ofZ n) as (F & E); [lia|]. split; [exact F|]. rewrite E.
  assert (B : Rabs (IZR n) <= bpow radix2 10) by (rewrite <- abs_IZR; apply IZR_le; exact Hn).
  assert (G : forall k, (- 60 <= k <= 60)%Z -> grid90 (IZR n * bpow radix2 k)).
  { intros k Hk. split.
    - exists (n * 2 ^ (90 + k))%Z. rewrite mult_IZR. change 2%Z with (radix_val radix2) at 1. rewrite IZR_Zpower by lia. rewrite Rmult_assoc, <- bpow_plus. f_equal. f_equal. lia.
    - rewrite Rabs_mult, (Rabs_pos_eq (bpow _ _)) by apply bpow_ge_0. eapply Rle_trans; [apply Rmult_le_compat_r; [apply bpow_ge_0|exact B]|]. rewrite <- bpow_plus. apply bpow_le. lia. }
  split; [|apply G; lia]. pose proof (G 0%Z ltac:(lia)) as G0. change (bpow radix2 0) with 1 in G0. rewrite Rmult_1_r in G0. exact G0.
Qed.
Definition far_ints (l : list zpt) (n : Z) : bool :=
  forallb (fun p => forallb (fun q => let '(a, b, c) := p in let '(x, y, z) := q in let d := ((a - x) * (a - x) + (b - y) * (b - y) + (c - z) * (c - z))%Z in (Z.eqb d 0 || Z.leb n d)%bool) l) l.
Example C171_nonvacuous : let vs := map zv ex171 in sort_local isort /\ Forall (scalable_vec (- 20)) vs /\
  (forall p q, In p vs -> In q vs -> same_side (rdist2 (rvec p) (rvec q)) (bpow radix2 (2 * - 20) * rdist2 (rvec p) (rvec q))) /\
  tris (Triangulate isort vs) = Some [3; 2; 4; 4; 1; 3; 3; 0; 2; 1; 0; 3]%Z /\
  tris (Triangulate isort (map (scale64 (- 20)) vs)) = Some [3; 2; 4; 4; 1; 3; 3; 0; 2; 1; 0; 3]%Z.
Proof.
  intros vs. split; [exact isort_local|]. split; [|split; [|split]].
  - unfold vs, ex171. cbn [map]. repeat apply Forall_cons; try apply Forall_nil; (split; [|split]); apply scalable_small; cbn; lia.
  - assert (FI : far_ints ex171 1 = true) by reflexivity. unfold far_ints in FI. rewrite forallb_forall in FI.
    intros p q Hp Hq. apply in_map_iff in Hp. destruct Hp as (((a, b), c) & <- & Ip). apply in_map_iff in Hq. destruct Hq as (((x, y), z) & <- & Iq).
    pose proof (FI _ Ip) as FI'. rewrite forallb_forall in FI'. specialize (FI' _ Iq). cbn beta iota in FI'.
    assert (S : forall a b c, In (a, b, c) ex171 -> (Z.abs a <= 1024 /\ Z.abs b <= 1024 /\ Z.abs c <= 1024)%Z).
    { intros a0 b0 c0 H. cbn in H. repeat (destruct H as [H|H]; [inversion H; lia|]). destruct H. }
    destruct (S _ _ _ Ip) as (? & ? & ?), (S _ _ _ Iq) as (? & ? & ?).
    assert (E : rdist2 (rvec (zv (a, b, c))) (rvec (zv (x, y, z))) = IZR ((a - x) * (a - x) + (b - y) * (b - y) + (c - z) * (c - z))).
    { unfold rdist2, rdot, rsub, rvec, zv, iv. cbn [rx ry rz vx vy vz fst snd].
      rewrite (proj2 (fr_ofZ a ltac:(lia))), (proj2 (fr_ofZ b ltac:(lia))), (proj2 (fr_ofZ c ltac:(lia))), (proj2 (fr_ofZ x ltac:(lia))), (proj2 (fr_ofZ y ltac:(lia))), (proj2 (fr_ofZ z ltac:(lia))).
      rewrite !plus_IZR, !mult_IZR, !minus_IZR. ring. }
    rewrite E. set (d := ((a - x) * (a - x) + (b - y) * (b - y) + (c - z) * (c - z))%Z) in *. apply orb_true_iff in FI'. destruct FI' as [D|D].
    + apply Z.eqb_eq in D. rewrite D. right. rewrite Rmult_0_r. split; apply bpow_ge_0.
    + apply Z.leb_le in D. apply IZR_le in D. left. assert (L : bpow radix2 (- 51) <= bpow radix2 (2 * - 20)) by (apply bpow_le; lia). assert (L1 : bpow radix2 (2 * - 20) <= bpow radix2 0) by (apply bpow_le; lia). change (bpow radix2 0) with 1 in L1.
      pose proof (bpow_gt_0 radix2 (2 * - 20)). split; [lra|]. assert (bpow radix2 (2 * - 20) * 1 <= bpow radix2 (2 * - 20) * IZR d) by (apply Rmult_le_compat_l; lra). lra.
  - vm_compute. reflexivity.
  - vm_compute. reflexivity.
Qed.
(** without the condition on near-duplicates it fails: the same points shrunk 2^36 times lose an interior point *)
Example C171_condition_needed : tris (Triangulate isort (map (scale64 (- 36)) (map zv ex171))) <> tris (Triangulate isort (map zv ex171)).
Proof. vm_compute. discriminate. Qed.
