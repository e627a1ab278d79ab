(** Theorems about package nurbs (properties C48-C52, C80, C81, C85). *)
From Coq Require Import Reals Lra Lia ZArith List Bool.
From Flocq Require Import BinarySingleNaN.
From Verif Require Import Base Arith M_r3 Spec_r3 XRvec P_meshgeom P_tri3 M_nurbs Spec_nurbs P_nurbs P_nurbs2.
Import ListNotations.
Open Scope R_scope.

(** C48 *)
Theorem C48_findSpan (U : list Z) n p u fuel : nondecreasing U ->
  (0 <= p <= n)%Z -> (n + 1 < Z.of_nat (length U))%Z -> knot U p <= u <= knot U (n + 1) ->
  (Z.to_nat (n + 1 - p) <= fuel)%nat ->
  exists i, findSpan (A := XR) fuel n p (Fin u) U = Ok i /\ (p <= i <= n)%Z /\
    (u = knot U (n + 1) -> i = n) /\ (u <> knot U (n + 1) -> knot U i <= u < knot U (i + 1)).
Proof.
  intros _. exact (findSpan_ok U (Fin u : XR) u (fun k _ => XR_lt u k) (fun k _ => XR_le u k) (fun k _ => XR_eq u k) n p fuel).
Qed.
Print Assumptions C48_findSpan.
Theorem C48_findSpan_b64 (U : list Z) n p (u : B64) fuel :
  (forall k, In k U -> (Z.abs k < 2 ^ 53)%Z) -> bfin u ->
  (0 <= p <= n)%Z -> (n + 1 < Z.of_nat (length U))%Z -> knot U p <= bR u <= knot U (n + 1) ->
  (Z.to_nat (n + 1 - p) <= fuel)%nat ->
  exists i, findSpan (A := B64) fuel n p u U = Ok i /\ (p <= i <= n)%Z /\
    (bR u = knot U (n + 1) -> i = n) /\ (bR u <> knot U (n + 1) -> knot U i <= bR u < knot U (i + 1)).
Proof.
  intros HU Hu. apply (findSpan_ok (A := B64) U u (bR u)); intros k Hk; specialize (HU k Hk); cbn [fofZ B64].
  - rewrite flt_bR by (auto using bfin_ofZ). now rewrite bR_ofZ.
  - rewrite fle_bR by (auto using bfin_ofZ). now rewrite bR_ofZ.
  - rewrite feq_bR by (auto using bfin_ofZ). now rewrite bR_ofZ.
Qed.
Print Assumptions C48_findSpan_b64.
Definition U13 : list Z := [0;1;2;3;4;5;6;7;8;9;10;11;12]%Z.
Example C48_nonvacuous : findSpan (A := B64) 8 8 3 (b64_lit 9 (-1)) U13 = Ok 4%Z /\
  findSpan (A := B64) 8 8 3 (b64_of_Z 9) U13 = Ok 8%Z.
Proof. split; vm_compute; reflexivity. Qed.

(** C49: outside the domain findSpan never returns *)
Theorem C49_findSpan_diverges_refuted (U : list Z) n p u fuel : nondecreasing U ->
  (0 <= p <= n)%Z -> (n + 1 < Z.of_nat (length U))%Z -> u < knot U p \/ knot U (n + 1) < u ->
  findSpan (A := XR) fuel n p (Fin u) U = Diverge.
Proof.
  intros M. exact (findSpan_diverges U (Fin u : XR) u (fun k _ => XR_lt u k) (fun k _ => XR_le u k)
    (fun k _ => XR_eq u k) M n p fuel).
Qed.
Print Assumptions C49_findSpan_diverges_refuted.
Theorem C49_findSpan_diverges_b64_refuted (U : list Z) n p (u : B64) fuel :
  (forall k, In k U -> (Z.abs k < 2 ^ 53)%Z) -> bfin u -> nondecreasing U ->
  (0 <= p <= n)%Z -> (n + 1 < Z.of_nat (length U))%Z -> bR u < knot U p \/ knot U (n + 1) < bR u ->
  findSpan (A := B64) fuel n p u U = Diverge.
Proof.
  intros HU Hu M. apply (findSpan_diverges (A := B64) U u (bR u)); [| | |exact M]; intros k Hk; specialize (HU k Hk);
    cbn [fofZ B64].
  - rewrite flt_bR by (auto using bfin_ofZ). now rewrite bR_ofZ.
  - rewrite fle_bR by (auto using bfin_ofZ). now rewrite bR_ofZ.
  - rewrite feq_bR by (auto using bfin_ofZ). now rewrite bR_ofZ.
Qed.
Print Assumptions C49_findSpan_diverges_b64_refuted.
Theorem C49_curvePoint_diverges_refuted (U : list Z) (P : list rv) n p u fuel : nondecreasing U ->
  (0 <= p <= n)%Z -> (n + 1 < Z.of_nat (length U))%Z -> u < knot U p \/ knot U (n + 1) < u ->
  curvePoint (A := XR) fuel n p U (map fv P) (Fin u) = Diverge.
Proof. intros. unfold curvePoint. rewrite C49_findSpan_diverges_refuted by assumption. reflexivity. Qed.
Print Assumptions C49_curvePoint_diverges_refuted.
Example C49_nonvacuous : (match findSpan (A := B64) 1000 8 3 (b64_of_Z 2) U13 with Diverge => true | _ => false end) = true.
Proof. vm_compute. reflexivity. Qed.

(** C50 *)
Theorem C50_basis (U : list Z) i p u : nondecreasing U -> (0 <= p <= i)%Z ->
  (i + p + 1 < Z.of_nat (length U))%Z -> knot U i <= u < knot U (i + 1) ->
  exists N : list XR, basisFuns (A := XR) i (Fin u) p U = Ok N /\ length N = Z.to_nat (p + 1) /\
    (forall r, (0 <= r <= p)%Z -> zget N r = Ok (Fin (bspline (knot U) (Z.to_nat p) (i - p + r) u : R))) /\
    (forall r, (0 <= r <= p)%Z -> 0 <= bspline (knot U) (Z.to_nat p) (i - p + r) u) /\
    rsum (fun r => bspline (knot U) (Z.to_nat p) (i - p + r) u) (Z.to_nat (p + 1)) = 1.
Proof.
  intros M Hp Hl Hu.
  destruct (basisFuns_get U i p ltac:(lia) ltac:(lia) ltac:(lia) M ltac:(lra) u) as (N & E & L & G).
  assert (B : forall r, (0 <= r <= p)%Z -> bspline (knot U) (Z.to_nat p) (i - p + r) u =
                bpiece (knot U) i (Z.to_nat p) (i - Z.of_nat (Z.to_nat p) + r) u).
  { intros r Hr. rewrite Z2Nat.id by lia. apply bspline_bpiece; [|lia|exact Hu].
    intros a b Hab Hb. apply M; lia. }
  pose proof (basis_mono U i p ltac:(lia) ltac:(lia) ltac:(lia) M) as BM.
  exists N. split; [exact E|]. split; [exact L|]. split; [|split].
  - intros r Hr. rewrite B by exact Hr. apply G. exact Hr.
  - intros r Hr. rewrite B by exact Hr. apply (piece_nonneg (knot U) i (Z.to_nat p) BM ltac:(lra)); lra || lia.
  - rewrite (rsum_ext _ (fun r => bpiece (knot U) i (Z.to_nat p) (i - Z.of_nat (Z.to_nat p) + r) u))
      by (intros; apply B; lia).
    replace (Z.to_nat (p + 1)) with (S (Z.to_nat p)) by lia.
    apply (piece_sum (knot U) i (Z.to_nat p) BM ltac:(lra)). lia.
Qed.
Print Assumptions C50_basis.
(** also at the right end of a span, as used by curvePoint for u = U[n+1] *)
Theorem C50_basis_closed (U : list Z) i p u : nondecreasing U -> (0 <= p)%Z -> (0 <= i + 1 - p)%Z ->
  (i + p < Z.of_nat (length U))%Z -> knot U i < knot U (i + 1) ->
  exists N : list XR, basisFuns (A := XR) i (Fin u) p U = Ok N /\ length N = Z.to_nat (p + 1) /\
    (forall r, (0 <= r <= p)%Z -> zget N r = Ok (Fin (bpiece (knot U) i (Z.to_nat p) (i - p + r) u : R))) /\
    (knot U i <= u <= knot U (i + 1) ->
     forall r, (0 <= r <= p)%Z -> 0 <= bpiece (knot U) i (Z.to_nat p) (i - p + r) u) /\
    rsum (fun r => bpiece (knot U) i (Z.to_nat p) (i - p + r) u) (Z.to_nat (p + 1)) = 1.
Proof.
  intros M Hp Hlo Hl Hu.
  destruct (basisFuns_get U i p ltac:(lia) ltac:(lia) ltac:(lia) M ltac:(lra) u) as (N & E & L & G).
  rewrite Z2Nat.id in G by lia.
  pose proof (basis_mono U i p ltac:(lia) ltac:(lia) ltac:(lia) M) as BM.
  exists N. split; [exact E|]. split; [exact L|]. split; [exact G|]. split.
  - intros Hu' r Hr. pose proof (piece_nonneg (knot U) i (Z.to_nat p) BM Hu u Hu' (Z.to_nat p) r) as H.
    rewrite Z2Nat.id in H by lia. apply H; lia.
  - replace (Z.to_nat (p + 1)) with (S (Z.to_nat p)) by lia.
    pose proof (piece_sum (knot U) i (Z.to_nat p) BM Hu u (Z.to_nat p)) as H.
    rewrite Z2Nat.id in H by lia. apply H; lia.
Qed.
Print Assumptions C50_basis_closed.
Example C50_nonvacuous : match basisFuns (A := B64) 4 (b64_lit 9 (-1)) 3 U13 with
  | Ok N => map sf N | _ => [] end =
  map sf [ (fdiv B64 (b64_of_Z 1) (b64_of_Z 48)); b64_lit 4315949642896725 (-53); b64_lit 4315949642896725 (-53);
           fdiv B64 (b64_of_Z 1) (b64_of_Z 48)].
Proof. vm_compute. reflexivity. Qed.

(** C51 *)
Theorem C51_curve_point (U : list Z) (P : list rv) n p u fuel :
  (0 <= p <= n)%Z -> (n + p < Z.of_nat (length U))%Z -> (n + 1 < Z.of_nat (length U))%Z ->
  (n < Z.of_nat (length P))%Z -> nondecreasing U ->
  knot U p <= u <= knot U (n + 1) -> (u = knot U (n + 1) -> knot U n < u) ->
  (Z.to_nat (n + 1 - p) <= fuel)%nat ->
  exists i (w : Z -> R) C, (p <= i <= n)%Z /\
    (* the weights are the basis functions of the span *)
    (forall r, w r = bpiece (knot U) i (Z.to_nat p) (i - p + r) u) /\
    (forall r, (0 <= r <= p)%Z -> 0 <= w r) /\ rsum w (Z.to_nat (p + 1)) = 1 /\
    C = vsum (fun r => rscale (w r) (nth (Z.to_nat (i - p + r)) P rzero)) (Z.to_nat (p + 1)) /\
    curvePoint fuel n p U (map fv P) (Fin u : XR) = Ok (fv C) /\
    (* bounds *)
    (forall c, c = rx \/ c = ry \/ c = rz -> forall lo hi,
      (forall r, (0 <= r <= p)%Z -> lo <= c (nth (Z.to_nat (i - p + r)) P rzero) <= hi) -> lo <= c C <= hi) /\
    (* translation *)
    (forall d, curvePoint fuel n p U (map fv (map (fun q => radd q d) P)) (Fin u : XR) = Ok (fv (radd C d))).
Proof.
  intros Hp HU HU1 HP M Hu Hend Hf.
  destruct (curvePoint_ok U P n p u fuel Hp HU HU1 HP M Hu Hend Hf) as (i & Hi & S1 & S2 & S3 & S4 & E).
  pose proof (basis_mono U i p ltac:(lia) ltac:(lia) ltac:(lia) M) as BM.
  assert (W0 : forall r, (0 <= r <= p)%Z -> 0 <= bpiece (knot U) i (Z.to_nat p) (i - p + r) u).
  { intros r Hr. pose proof (piece_nonneg (knot U) i (Z.to_nat p) BM S2 u S1 (Z.to_nat p) r) as H.
    rewrite Z2Nat.id in H by lia. apply H; lia. }
  assert (W1 : rsum (fun r => bpiece (knot U) i (Z.to_nat p) (i - p + r) u) (Z.to_nat (p + 1)) = 1).
  { replace (Z.to_nat (p + 1)) with (S (Z.to_nat p)) by lia.
    pose proof (piece_sum (knot U) i (Z.to_nat p) BM S2 u (Z.to_nat p)) as H.
    rewrite Z2Nat.id in H by lia. apply H; lia. }
  exists i, (fun r => bpiece (knot U) i (Z.to_nat p) (i - p + r) u).
  eexists. split; [exact Hi|]. split; [reflexivity|]. split; [exact W0|]. split; [exact W1|]. split; [reflexivity|].
  split; [exact E|]. split.
  - intros c Hc lo hi Hb. rewrite (vsum_coord c).
    + apply convex_bounds; [intros; apply W0; lia|exact W1|intros; apply Hb; lia].
    + intros. destruct Hc as [->|[->| ->]]; reflexivity.
    + destruct Hc as [->|[->| ->]]; reflexivity.
    + intros. destruct Hc as [->|[->| ->]]; reflexivity.
  - intros d.
    destruct (curvePoint_ok U (map (fun q => radd q d) P) n p u fuel Hp HU HU1
      ltac:(rewrite map_length; exact HP) M Hu Hend Hf) as (i' & Hi' & T1 & T2 & T3 & T4 & E').
    assert (i' = i).
    { destruct (Req_dec u (knot U (n + 1))) as [Q|Q]; [rewrite S3, T3; auto|].
      specialize (S4 Q). specialize (T4 Q). destruct (Z.lt_trichotomy i i') as [L|[L|L]]; [|auto|].
      - pose proof (M (i + 1)%Z i' ltac:(lia) ltac:(lia)). lra.
      - pose proof (M (i' + 1)%Z i ltac:(lia) ltac:(lia)). lra. }
    subst i'. rewrite E'. do 2 f_equal.
    rewrite (vsum_ext _ (fun r => rscale (bpiece (knot U) i (Z.to_nat p) (i - p + r) u)
       (radd (nth (Z.to_nat (i - p + r)) P rzero) d))).
    + rewrite vsum_translate, W1. apply rv_ext; simpl; ring.
    + intros k Hk. f_equal. rewrite (nth_indep _ rzero (radd rzero d)) by (rewrite map_length; lia).
      exact (map_nth (fun q => radd q d) P rzero _).
Qed.
Print Assumptions C51_curve_point.
Definition zp (x y z : Z) : vec B64 := mkvec (b64_of_Z x : B64) (b64_of_Z y : B64) (b64_of_Z z : B64).
Definition cps : list (vec B64) :=
  [zp 0 0 0; zp 1 0 0; zp 0 1 0; zp 1 1 0; zp 0 0 1; zp 1 0 1; zp 0 1 1; zp 1 1 1; zp 2 2 2].
(* the repository's test *)
Example C51_nonvacuous : is_ok (curvePoint (A := B64) 10 8 3 U13 cps (b64_lit 9 (-1))) = true.
Proof. vm_compute. reflexivity. Qed.
(** at a right end whose last span is empty the result is not a number: the knot vector commented out in
    the repository's test, u = 1 *)
Theorem C51_degenerate_end_refuted :
  match curvePoint (A := B64) 10 8 3 [0;0;0;0;0;0;0;1;1;1;1;1;1]%Z cps (b64_of_Z 1) with
  | Ok C => match sf (vx C), sf (vy C), sf (vz C) with
            | SpecFloat.S754_nan, SpecFloat.S754_nan, SpecFloat.S754_nan => true | _, _, _ => false end
  | _ => false end = true.
Proof. vm_compute. reflexivity. Qed.
Print Assumptions C51_degenerate_end_refuted.

(** C80: end points of clamped curves *)
Theorem C80_clamped_ends (U : list Z) (P : list rv) n p fuel :
  (0 <= p <= n)%Z -> (n + p < Z.of_nat (length U))%Z -> (n + 1 < Z.of_nat (length U))%Z ->
  (n < Z.of_nat (length P))%Z -> nondecreasing U -> (Z.to_nat (n + 1 - p) <= fuel)%nat ->
  ((forall a, (1 <= a <= p)%Z -> knot U a = knot U p) -> knot U p < knot U (p + 1) ->
    curvePoint fuel n p U (map fv P) (Fin (knot U p) : XR) = Ok (fv (nth 0 P rzero))) /\
  ((forall a, (n + 1 <= a <= n + p)%Z -> knot U a = knot U (n + 1)) -> knot U n < knot U (n + 1) ->
    curvePoint fuel n p U (map fv P) (Fin (knot U (n + 1)) : XR) = Ok (fv (nth (Z.to_nat n) P rzero))).
Proof.
  intros Hp HU HU1 HP M Hf. split; intros Hc Hlt.
  - pose proof (M (p + 1)%Z (n + 1)%Z ltac:(lia) ltac:(lia)) as Mp.
    destruct (curvePoint_ok U P n p (knot U p) fuel Hp HU HU1 HP M) as (i & Hi & S1 & S2 & S3 & S4 & E);
      [lra|lra|exact Hf|].
    assert (i = p).
    { destruct (Z.eq_dec i p); [auto|]. pose proof (M (p + 1)%Z i ltac:(lia) ltac:(lia)). lra. }
    subst i. pose proof (basis_mono U p p ltac:(lia) ltac:(lia) ltac:(lia) M) as BM.
    rewrite E. do 2 f_equal. rewrite (vsum_delta _ _ _ 0).
    + f_equal. lia.
    + lia.
    + intros k Hk.
      pose proof (piece_left_end (knot U) p (Z.to_nat p) BM Hlt (knot U p)) as H.
      specialize (H ltac:(intros; apply Hc; lia) (Z.to_nat p) k ltac:(lia) ltac:(lia)).
      rewrite Z2Nat.id in H by lia. exact H.
  - pose proof (M p (n + 1)%Z ltac:(lia) ltac:(lia)) as Mp.
    destruct (curvePoint_ok U P n p (knot U (n + 1)) fuel Hp HU HU1 HP M) as (i & Hi & S1 & S2 & S3 & S4 & E);
      [lra|auto|exact Hf|].
    rewrite (S3 eq_refl) in *. clear i Hi S3 S4.
    pose proof (basis_mono U n p ltac:(lia) ltac:(lia) ltac:(lia) M) as BM.
    rewrite E. do 2 f_equal. rewrite (vsum_delta _ _ _ p).
    + f_equal. lia.
    + lia.
    + intros k Hk.
      pose proof (piece_right_end (knot U) n (Z.to_nat p) BM Hlt (knot U (n + 1))) as H.
      specialize (H ltac:(intros; apply Hc; lia) (Z.to_nat p) k ltac:(lia) ltac:(lia)).
      rewrite !Z2Nat.id in H by lia. exact H.
Qed.
Print Assumptions C80_clamped_ends.
Example C80_nonvacuous :
  match curvePoint (A := B64) 10 3 2 [0;0;0;1;2;2;2]%Z [zp 1 2 3; zp 4 5 6; zp 7 8 0; zp 9 1 1] (b64_of_Z 2) with
  | Ok C => vsf C = vsf (zp 9 1 1) | _ => False end.
Proof. vm_compute. reflexivity. Qed.

(** C52: row 0 of dersBasisFuns is zero, so it never is the basis *)
Theorem C52_ders_row0_refuted (U : list Z) i u p n : (0 <= n <= p)%Z -> (p <= i)%Z ->
  (i + p < Z.of_nat (length U))%Z -> (i + 1 < Z.of_nat (length U))%Z -> nondecreasing U ->
  knot U i < knot U (i + 1) ->
  exists (ders : list (list XR)) N, dersBasisFuns (A := XR) i u p n U = Ok ders /\
    basisFuns (A := XR) i (Fin (IZR u)) p U = Ok N /\
    (forall j, (0 <= j <= p)%Z -> get2 ders 0 j = Ok (Fin 0 : XR)) /\
    exists j, (0 <= j <= p)%Z /\ get2 ders 0 j <> zget N j.
Proof.
  intros Hn Hi Hl Hl1 M Hs.
  destruct (ders_row0_XR U i u p n Hn ltac:(lia) ltac:(lia) Hl1 M) as (ders & E & _ & H).
  { apply lt_IZR. exact Hs. }
  destruct (C50_basis_closed U i p (IZR u) M ltac:(lia) ltac:(lia) Hl Hs) as (N & EN & _ & G & _ & Sum).
  exists ders, N. split; [exact E|]. split; [exact EN|]. split; [exact H|].
  destruct (Classical_Prop.classic (exists j, (0 <= j <= p)%Z /\ get2 ders 0 j <> zget N j)) as [C|C]; [exact C|].
  exfalso. rewrite (rsum_ext _ (fun _ => 0 * 0)) in Sum.
  - rewrite rsum_scale in Sum. lra.
  - intros k Hk. destruct (Req_dec (bpiece (knot U) i (Z.to_nat p) (i - p + k) (IZR u)) 0) as [Z|Z]; [rewrite Z; ring|].
    exfalso. apply C. exists k. split; [lia|]. rewrite H, G by lia. intros [= Q]. auto.
Qed.
Print Assumptions C52_ders_row0_refuted.
Example C52_nonvacuous :
  match dersBasisFuns (A := B64) 4 4 2 2 U13 with Ok d => map (map sf) d | _ => [] end =
  map (map sf) [[b64_of_Z 0; b64_of_Z 0; b64_of_Z 0]; [b64_of_Z 0; b64_of_Z 0; b64_of_Z 0];
                [b64_of_Z 0; b64_of_Z (-3); b64_of_Z 0]] /\
  match basisFuns (A := B64) 4 (b64_of_Z 4) 2 U13 with Ok d => map sf d | _ => [] end =
  map sf [b64_lit 1 (-1); b64_lit 1 (-1); b64_of_Z 0].
Proof. split; vm_compute; reflexivity. Qed.

(** C85: the first-derivative row is zero as well, while the first basis function of the span is strictly decreasing there *)
Theorem C85_first_derivative_refuted (U : list Z) i u p n : (1 <= n <= p)%Z -> (p <= i)%Z ->
  (i + p < Z.of_nat (length U))%Z -> (i + 1 < Z.of_nat (length U))%Z -> nondecreasing U ->
  knot U i < knot U (i + 1) -> IZR u < knot U (i + 1) ->
  exists (ders : list (list XR)) l, dersBasisFuns (A := XR) i u p n U = Ok ders /\
    (forall j, (0 <= j <= p)%Z -> get2 ders 1 j = Ok (Fin 0 : XR)) /\
    derivable_pt_lim (fun x => bpiece (knot U) i (Z.to_nat p) (i - p) x) (IZR u) l /\ l < 0.
Proof.
  intros Hn Hi Hl Hl1 M Hs Hu.
  destruct (ders_first_row_zero U i u p n Hn ltac:(lia) ltac:(lia) Hl1 M) as (ders & E & H).
  { apply lt_IZR. exact Hs. }
  destruct (piece_first_slope (knot U) i (Z.to_nat p) (IZR u)) as (l & D & N); auto.
  - lia.
  - intros a b Ha Hb. apply M; lia.
  - exists ders, l. rewrite Z2Nat.id in D by lia. auto.
Qed.
Print Assumptions C85_first_derivative_refuted.
(** what the last loop does: row k is multiplied by p (p-1) ... (p-k+1) *)
Theorem C85_scaling_partial p n (ders : list (list XR)) : (0 <= n <= p)%Z -> Z.of_nat (length ders) = (p + 1)%Z ->
  (forall row, In row ders -> Z.of_nat (length row) = (p + 1)%Z) ->
  exists ders' r, forTo 1 n (ders, p) (dersScale p) = Ok (ders', r) /\
    (forall j, get2 ders' 0 j = get2 ders 0 j) /\
    (forall k j x, (1 <= k <= n)%Z -> (0 <= j <= p)%Z -> get2 ders k j = Ok (Fin x : XR) ->
       get2 ders' k j = Ok (Fin (x * (INR (fact (Z.to_nat p)) / INR (fact (Z.to_nat (p - k))))) : XR)).
Proof.
  intros Hn L Rw. destruct (scale_loop p ltac:(lia) n ders Hn) as (d & r & E & _ & F & V).
  - split; [exact L|]. intros i row Ei. apply Rw. unfold zget in Ei. destruct (i <? 0)%Z; [discriminate|].
    destruct (nth_error ders (Z.to_nat i)) eqn:En; [|discriminate]. injection Ei as <-. eapply nth_error_In; eauto.
  - exists d, r. split; [exact E|]. split; [intros j; apply F; lia|].
    intros k j x Hk Hj Ex. rewrite (V k j x Hk Hj Ex). do 3 f_equal.
    assert (G : forall m q, (m <= q)%nat -> IZR (falling (Z.of_nat q) m) * INR (fact (q - m)) = INR (fact q)).
    { clear. induction m as [|m IH]; intros q Hq.
      - rewrite Nat.sub_0_r. cbn [falling]. ring.
      - cbn [falling]. rewrite mult_IZR. rewrite <- (IH q) by lia.
        replace (q - m)%nat with (S (q - S m)) by lia. rewrite fact_simpl, mult_INR.
        replace (Z.of_nat q - Z.of_nat m)%Z with (Z.of_nat (S (q - S m))) by lia. rewrite <- INR_IZR_INZ. ring. }
    specialize (G (Z.to_nat k) (Z.to_nat p) ltac:(lia)). rewrite Z2Nat.id in G by lia.
    replace (Z.to_nat p - Z.to_nat k)%nat with (Z.to_nat (p - k)) in G by lia. rewrite <- G. field. apply INR_fact_neq_0.
Qed.
Print Assumptions C85_scaling_partial.
Example C85_nonvacuous : nondecreasing [0; 0; 0; 1; 2; 2; 2]%Z /\ knot [0; 0; 0; 1; 2; 2; 2]%Z 2 < knot [0; 0; 0; 1; 2; 2; 2]%Z (2 + 1).
Proof.
  split; [|unfold knot; simpl; lra]. intros a b Ha Hb. unfold knot. simpl in Hb. apply IZR_le.
  assert (a = 0 \/ a = 1 \/ a = 2 \/ a = 3 \/ a = 4 \/ a = 5 \/ a = 6)%Z as A by lia.
  assert (b = 0 \/ b = 1 \/ b = 2 \/ b = 3 \/ b = 4 \/ b = 5 \/ b = 6)%Z as B by lia.
  destruct A as [-> | [-> | [-> | [-> | [-> | [-> | ->]]]]]];
  destruct B as [-> | [-> | [-> | [-> | [-> | [-> | ->]]]]]]; simpl; lia.
Qed.

(** C81: dersBasisFuns returns exactly when at most p derivatives are asked for *)
Theorem C81_ders_returns (U : list Z) i u p n : (0 <= n)%Z -> (0 <= p <= i)%Z ->
  (i + 1 < Z.of_nat (length U))%Z -> nondecreasing U -> knot U i < knot U (i + 1) ->
  (is_ok (dersBasisFuns (A := XR) i u p n U) = true <-> (n <= p)%Z) /\
  (dersBasisFuns (A := XR) i u p n U = Panic <-> (p < n)%Z).
Proof.
  intros Hn Hi Hl1 M Hs. apply lt_IZR in Hs. destruct (Z_le_gt_dec n p) as [L|L].
  - destruct (ders_row0_XR U i u p n ltac:(lia) ltac:(lia) ltac:(lia) Hl1 M Hs) as (d & E & _).
    rewrite E. split; split; intros; try lia; try reflexivity; discriminate.
  - rewrite (ders_panic U i u p n ltac:(lia) ltac:(lia) ltac:(lia) Hl1 M Hs).
    split; split; intros; try lia; try reflexivity; discriminate.
Qed.
Print Assumptions C81_ders_returns.
Example C81_nonvacuous : is_panic (dersBasisFuns (A := B64) 4 4 2 3 U13) = true.
Proof. vm_compute. reflexivity. Qed.
