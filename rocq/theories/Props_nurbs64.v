(** Property theorems C105-C107: package nurbs in binary64. *)
From Coq Require Import Reals Lra Lia ZArith QArith Bool List.
From Flocq Require Import Core BinarySingleNaN.
From Verif Require Import Base Arith M_r3 Spec_r3 XRvec P_meshgeom P_tri3 M_nurbs Spec_nurbs P_nurbs P_nurbs2 P_insphere_err P_insphere_b64 P_b64sc P_b64err P_b64norm P_b64nurbs Props_nurbs.
Import ListNotations.
Open Scope R_scope.

Definition small_knots (U : list Z) : Prop := forall k, In k U -> (Z.abs k < 2 ^ 53)%Z.
(* the r-th number of a list, as a real *)
Definition rnth (N : list B64) (r : Z) : R := B2R (nth (Z.to_nat r) N (fofZ B64 0) : b64).

Lemma nth_of_zget (N : list B64) r y : zget N r = Ok y -> (0 <= r < Z.of_nat (length N))%Z -> nth (Z.to_nat r) N (fofZ B64 0) = y.
Proof. intros E H. rewrite (zget_nth _ _ (fofZ B64 0)) in E by exact H. congruence. Qed.
Lemma rsum_abs f g h n : (forall k, (0 <= k < Z.of_nat n)%Z -> Rabs (f k - g k) <= h k) -> Rabs (rsum f n - rsum g n) <= rsum h n.
Proof.
  induction n as [|n IH]; intros H; [simpl; rewrite Rminus_0_r, Rabs_R0; lra|]. rewrite !rsum_S.
  replace (rsum f n + f (Z.of_nat n) - (rsum g n + g (Z.of_nat n))) with ((rsum f n - rsum g n) + (f (Z.of_nat n) - g (Z.of_nat n))) by ring.
  eapply Rle_trans; [apply Rabs_triang|]. apply Rplus_le_compat; [apply IH; intros; apply H; lia|apply H; lia].
Qed.
Lemma rsum_affine w a e n : rsum (fun r => a * w r + e) n = a * rsum w n + INR n * e.
Proof. induction n as [|n IH]; [simpl; ring|]. rewrite !rsum_S, IH, S_INR. ring. Qed.

(** C105: the basis functions *)
Theorem C105_basis_closed (U : list Z) i p (u : b64) : nondecreasing U -> small_knots U -> is_finite u = true ->
  (0 <= p <= 200)%Z -> (0 <= i)%Z -> (0 <= i + 1 - p)%Z -> (i + p < Z.of_nat (length U))%Z -> (i + 1 < Z.of_nat (length U))%Z ->
  knot U i < knot U (i + 1) -> knot U i <= B2R u <= knot U (i + 1) ->
  exists N : list B64, basisFuns (A := B64) i u p U = Ok N /\ length N = Z.to_nat (p + 1) /\
    (forall x, In x N -> is_finite (x : b64) = true) /\
    (forall r, (0 <= r <= p)%Z -> 0 <= rnth N r /\
      let b := bpiece (knot U) i (Z.to_nat p) (i - p + r) (B2R u) in
      Rabs (rnth N r - b) <= (6 * IZR p + 1) * / 2 ^ 53 * b + bpow radix2 (5 * p - 1015)) /\
    Rabs (rsum (rnth N) (Z.to_nat (p + 1)) - 1) <= (6 * IZR p + 1) * / 2 ^ 53 + IZR (p + 1) * bpow radix2 (5 * p - 1015).
Proof.
  intros M HU Fu Hp Hi0 Hlo Hhi Hi1 Hs Hu.
  destruct (basis_acc U i p Hp Hlo Hhi Hi0 Hi1 HU M Hs u Fu Hu) as (N & E & L & H).
  exists N. split; [exact E|]. split; [exact L|]. split; [|split].
  - intros x Hx. destruct (In_nth _ _ (fofZ B64 0) Hx) as (k & Hk & <-). destruct (H (Z.of_nat k) ltac:(lia)) as (y & Ey & Fy & _).
    apply nth_of_zget in Ey; [|lia]. rewrite Nat2Z.id in Ey. rewrite Ey. exact Fy.
  - intros r Hr. destruct (H r Hr) as (y & Ey & Fy & P & A). apply nth_of_zget in Ey; [|lia]. unfold rnth. rewrite Ey. split; [exact P|].
    exact A.
  - pose proof (basis_mono U i p ltac:(lia) ltac:(lia) ltac:(lia) M) as BM.
    assert (W1 : rsum (fun r => bpiece (knot U) i (Z.to_nat p) (i - p + r) (B2R u)) (Z.to_nat (p + 1)) = 1).
    { replace (Z.to_nat (p + 1)) with (S (Z.to_nat p)) by lia.
      pose proof (piece_sum (knot U) i (Z.to_nat p) BM Hs (B2R u) (Z.to_nat p)) as Q. rewrite Z2Nat.id in Q by lia. apply Q; lia. }
    pose proof (rsum_abs (rnth N) (fun r => bpiece (knot U) i (Z.to_nat p) (i - p + r) (B2R u))
      (fun r => (6 * IZR p + 1) * / 2 ^ 53 * bpiece (knot U) i (Z.to_nat p) (i - p + r) (B2R u) + bpow radix2 (5 * p - 1015)) (Z.to_nat (p + 1))) as Q.
    rewrite rsum_affine, W1, Rmult_1_r, INR_IZR_INZ, Z2Nat.id in Q by lia. apply Q.
    intros r Hr. destruct (H r ltac:(lia)) as (y & Ey & Fy & P & A). apply nth_of_zget in Ey; [|lia]. unfold rnth. rewrite Ey. exact A.
Qed.
Print Assumptions C105_basis_closed.
(* in the half-open span the pieces are the B-spline basis functions of the knot vector *)
Theorem C105_basis (U : list Z) i p (u : b64) : nondecreasing U -> small_knots U -> is_finite u = true ->
  (0 <= p <= i)%Z -> (p <= 200)%Z -> (i + p + 1 < Z.of_nat (length U))%Z -> knot U i <= B2R u < knot U (i + 1) ->
  exists N : list B64, basisFuns (A := B64) i u p U = Ok N /\ length N = Z.to_nat (p + 1) /\
    (forall x, In x N -> is_finite (x : b64) = true) /\
    (forall r, (0 <= r <= p)%Z -> 0 <= rnth N r /\
      let b := bspline (knot U) (Z.to_nat p) (i - p + r) (B2R u) in
      Rabs (rnth N r - b) <= (6 * IZR p + 1) * / 2 ^ 53 * b + bpow radix2 (5 * p - 1015)) /\
    Rabs (rsum (rnth N) (Z.to_nat (p + 1)) - 1) <= (6 * IZR p + 1) * / 2 ^ 53 + IZR (p + 1) * bpow radix2 (5 * p - 1015).
Proof.
  intros M HU Fu Hp Hp2 Hl Hu.
  destruct (C105_basis_closed U i p u M HU Fu) as (N & E & L & F & H & S); try lia; try lra.
  exists N. split; [exact E|]. split; [exact L|]. split; [exact F|]. split; [|exact S].
  intros r Hr. rewrite (bspline_bpiece (knot U) i (Z.to_nat p)).
  - apply H. exact Hr.
  - intros a b Hab Hb. apply M; lia.
  - lia.
  - exact Hu.
Qed.
Print Assumptions C105_basis.
Lemma U13_mono : nondecreasing U13.
Proof. intros a b H1 H2. cbn in H2. unfold knot. apply IZR_le. assert (a = 0 \/ a = 1 \/ a = 2 \/ a = 3 \/ a = 4 \/ a = 5 \/ a = 6 \/ a = 7 \/ a = 8 \/ a = 9 \/ a = 10 \/ a = 11 \/ a = 12)%Z by lia.
  assert (b = 0 \/ b = 1 \/ b = 2 \/ b = 3 \/ b = 4 \/ b = 5 \/ b = 6 \/ b = 7 \/ b = 8 \/ b = 9 \/ b = 10 \/ b = 11 \/ b = 12)%Z by lia.
  repeat match goal with H : _ \/ _ |- _ => destruct H as [H|H] end; subst; simpl; lia. Qed.
Lemma U13_small : small_knots U13.
Proof. intros k Hk. simpl in Hk. repeat destruct Hk as [<-|Hk]; try reflexivity. destruct Hk. Qed.
Lemma v92 : B2R (b64_lit 9 (-1) : b64) = 4.5.
Proof. rewrite <- SF2R_B2SF. let v := eval vm_compute in (B2SF (b64_lit 9 (-1) : b64)) in change (B2SF (b64_lit 9 (-1) : b64)) with v. cbn. unfold Defs.F2R. cbn. lra. Qed.
Example C105_nonvacuous : nondecreasing U13 /\ small_knots U13 /\ is_finite (b64_lit 9 (-1) : b64) = true /\
  knot U13 4 <= B2R (b64_lit 9 (-1) : b64) < knot U13 (4 + 1).
Proof. split; [apply U13_mono|]. split; [apply U13_small|]. split; [reflexivity|]. rewrite v92. unfold knot. simpl. lra. Qed.

(** C106: curve points *)
Definition coord (c : rv -> R) : Prop := c = rx \/ c = ry \/ c = rz.
Theorem C106_curve_point (U : list Z) (P : list (vec B64)) n p (u : b64) fuel M :
  (0 <= p <= n)%Z -> (p <= 180)%Z -> (n + p < Z.of_nat (length U))%Z -> (n + 1 < Z.of_nat (length U))%Z ->
  (n < Z.of_nat (length P))%Z -> nondecreasing U -> small_knots U -> is_finite u = true ->
  knot U p <= B2R u <= knot U (n + 1) -> (B2R u = knot U (n + 1) -> knot U n < B2R u) ->
  (Z.to_nat (n + 1 - p) <= fuel)%nat ->
  bpow radix2 (-900) <= M <= bpow radix2 900 -> (forall v, In v P -> fin_vec v /\ forall c, coord c -> Rabs (c (rvec v)) <= M) ->
  exists i C (w : Z -> R), (p <= i <= n)%Z /\ knot U i <= B2R u <= knot U (i + 1) /\
    (forall r, w r = bpiece (knot U) i (Z.to_nat p) (i - p + r) (B2R u)) /\
    (forall r, (0 <= r <= p)%Z -> 0 <= w r) /\ rsum w (Z.to_nat (p + 1)) = 1 /\
    curvePoint (A := B64) fuel n p U P u = Ok C /\ fin_vec C /\
    (* within (8p+5) half-ulps of M of the exact point, in each coordinate *)
    (forall c, coord c ->
       Rabs (c (rvec C) - rsum (fun r => w r * c (rvec (nth (Z.to_nat (i - p + r)) P Zero))) (Z.to_nat (p + 1)))
         <= (8 * IZR p + 5) * / 2 ^ 53 * M) /\
    (* and within that distance of the bounding box of the p+1 control points of the span *)
    (forall c, coord c -> forall lo hi,
      (forall r, (0 <= r <= p)%Z -> lo <= c (rvec (nth (Z.to_nat (i - p + r)) P Zero)) <= hi) ->
      lo - (8 * IZR p + 5) * / 2 ^ 53 * M <= c (rvec C) <= hi + (8 * IZR p + 5) * / 2 ^ 53 * M).
Proof.
  intros Hp Hp2 HU HU1 HP Mono HK Fu Hu Hend Hf HM HV.
  destruct (curvePoint64 U P n p u fuel M Hp Hp2 HU HU1 HP Mono HK Fu Hu Hend Hf HM) as (i & C & Hi & S1 & S2 & _ & E & F & A1 & A2 & A3).
  { intros v Hv. destruct (HV v Hv) as [V1 V2]. split; [exact V1|]. unfold coords_le. repeat split; apply V2; unfold coord; auto. }
  pose proof (basis_mono U i p ltac:(lia) ltac:(lia) ltac:(lia) Mono) as BM.
  assert (W0 : forall r, (0 <= r <= p)%Z -> 0 <= bpiece (knot U) i (Z.to_nat p) (i - p + r) (B2R u)).
  { intros r Hr. pose proof (piece_nonneg (knot U) i (Z.to_nat p) BM S2 (B2R u) S1 (Z.to_nat p) r) as H.
    rewrite Z2Nat.id in H by lia. apply H; lia. }
  assert (W1 : rsum (fun r => bpiece (knot U) i (Z.to_nat p) (i - p + r) (B2R u)) (Z.to_nat (p + 1)) = 1).
  { replace (Z.to_nat (p + 1)) with (S (Z.to_nat p)) by lia.
    pose proof (piece_sum (knot U) i (Z.to_nat p) BM S2 (B2R u) (Z.to_nat p)) as H. rewrite Z2Nat.id in H by lia. apply H; lia. }
  assert (AC : forall c, coord c ->
       Rabs (c (rvec C) - rsum (fun r => bpiece (knot U) i (Z.to_nat p) (i - p + r) (B2R u) * c (rvec (nth (Z.to_nat (i - p + r)) P Zero))) (Z.to_nat (p + 1)))
         <= (8 * IZR p + 5) * / 2 ^ 53 * M).
  { intros c Hc. rewrite <- (vsum_coord c) with (Q := fun r => rvec (nth (Z.to_nat (i - p + r)) P Zero)).
    - destruct Hc as [->|[->| ->]]; assumption.
    - intros. destruct Hc as [->|[->| ->]]; reflexivity.
    - destruct Hc as [->|[->| ->]]; reflexivity.
    - intros. destruct Hc as [->|[->| ->]]; reflexivity. }
  exists i, C, (fun r => bpiece (knot U) i (Z.to_nat p) (i - p + r) (B2R u)).
  split; [exact Hi|]. split; [exact S1|]. split; [reflexivity|]. split; [exact W0|]. split; [exact W1|]. split; [exact E|].
  split; [exact F|]. split; [exact AC|]. intros c Hc lo hi Hb. specialize (AC c Hc). apply Rabs_le_inv in AC.
  pose proof (convex_bounds (fun r => bpiece (knot U) i (Z.to_nat p) (i - p + r) (B2R u)) (fun r => c (rvec (nth (Z.to_nat (i - p + r)) P Zero)))
     (Z.to_nat (p + 1)) lo hi ltac:(intros; apply W0; lia) W1 ltac:(intros; apply Hb; lia)) as Q. lra.
Qed.
Print Assumptions C106_curve_point.
(** the exact result for the same data, at the same parameter, is that close *)
Theorem C106_exact (U : list Z) (P : list (vec B64)) n p (u : b64) fuel M :
  (0 <= p <= n)%Z -> (p <= 180)%Z -> (n + p < Z.of_nat (length U))%Z -> (n + 1 < Z.of_nat (length U))%Z ->
  (n < Z.of_nat (length P))%Z -> nondecreasing U -> small_knots U -> is_finite u = true ->
  knot U p <= B2R u <= knot U (n + 1) -> (B2R u = knot U (n + 1) -> knot U n < B2R u) ->
  (Z.to_nat (n + 1 - p) <= fuel)%nat ->
  bpow radix2 (-900) <= M <= bpow radix2 900 -> (forall v, In v P -> fin_vec v /\ forall c, coord c -> Rabs (c (rvec v)) <= M) ->
  exists C E, curvePoint (A := B64) fuel n p U P u = Ok C /\ fin_vec C /\
    curvePoint (A := XR) fuel n p U (map fv (map rvec P)) (Fin (B2R u)) = Ok (fv E) /\
    forall c, coord c -> Rabs (c (rvec C) - c E) <= (8 * IZR p + 5) * / 2 ^ 53 * M.
Proof.
  intros Hp Hp2 HU HU1 HP Mono HK Fu Hu Hend Hf HM HV.
  destruct (curvePoint64 U P n p u fuel M Hp Hp2 HU HU1 HP Mono HK Fu Hu Hend Hf HM) as (i & C & Hi & S1 & S2 & (S3 & S4) & E & F & A1 & A2 & A3).
  { intros v Hv. destruct (HV v Hv) as [V1 V2]. split; [exact V1|]. unfold coords_le. repeat split; apply V2; unfold coord; auto. }
  destruct (curvePoint_ok U (map rvec P) n p (B2R u) fuel Hp HU HU1 ltac:(rewrite map_length; exact HP) Mono Hu Hend Hf) as (j & J0 & J1 & J2 & J3 & J4 & EX).
  assert (Q : i = j).
  { destruct (Req_dec (B2R u) (knot U (n + 1))) as [Q|Q]; [rewrite S3, J3; auto|]. specialize (S4 Q). specialize (J4 Q).
    destruct (Z.lt_trichotomy i j) as [L|[L|L]]; [|exact L|].
    - pose proof (Mono (i + 1)%Z j ltac:(lia) ltac:(lia)). lra.
    - pose proof (Mono (j + 1)%Z i ltac:(lia) ltac:(lia)). lra. }
  subst j. eexists C, _. split; [exact E|]. split; [exact F|]. split; [exact EX|].
  assert (V : forall m, (m <= Z.to_nat (p + 1))%nat ->
    vsum (fun r => rscale (bpiece (knot U) i (Z.to_nat p) (i - p + r) (B2R u)) (nth (Z.to_nat (i - p + r)) (map rvec P) rzero)) m =
    vsum (fun r => rscale (bpiece (knot U) i (Z.to_nat p) (i - p + r) (B2R u)) (rvec (nth (Z.to_nat (i - p + r)) P Zero))) m).
  { induction m as [|m IH]; intros Hm; cbn [vsum]; [reflexivity|]. rewrite IH by lia. f_equal. f_equal.
    rewrite (nth_indep _ rzero (rvec Zero)) by (rewrite map_length; lia). now rewrite (map_nth rvec). }
  rewrite V by lia. intros c [->|[->| ->]]; assumption.
Qed.
Print Assumptions C106_exact.
Lemma zpl k : (0 <= k <= 2)%Z -> bfin (b64_of_Z k) /\ Rabs (B2R (b64_of_Z k)) <= 2.
Proof.
  intros H. split; [apply bfin_ofZ; lia|]. pose proof (bR_ofZ k ltac:(lia)) as E. unfold bR in E. rewrite E.
  assert (0 <= IZR k <= 2) by (split; apply IZR_le; lia). apply Rabs_le. lra.
Qed.
Example C106_nonvacuous : (forall v, In v cps -> fin_vec v /\ forall c, coord c -> Rabs (c (rvec v)) <= 2) /\
  bpow radix2 (-900) <= 2 <= bpow radix2 900 /\ knot U13 3 <= B2R (b64_lit 9 (-1) : b64) <= knot U13 (8 + 1) /\ B2R (b64_lit 9 (-1) : b64) <> knot U13 (8 + 1).
Proof.
  split; [|split; [|rewrite v92; unfold knot; simpl; lra]].
  - assert (Z : forall x y z, (0 <= x <= 2)%Z -> (0 <= y <= 2)%Z -> (0 <= z <= 2)%Z -> fin_vec (zp x y z) /\ forall c, coord c -> Rabs (c (rvec (zp x y z))) <= 2).
    { intros x y z Hx Hy Hz. destruct (zpl x Hx), (zpl y Hy), (zpl z Hz). split; [repeat split; assumption|]. intros c [->|[->| ->]]; assumption. }
    intros v Hv. unfold cps in Hv. simpl in Hv. repeat (destruct Hv as [<-|Hv]; [apply Z; lia|]). destruct Hv.
  - change 2 with (bpow radix2 1). split; apply bpow_le; lia.
Qed.

(** C107: a parameter that is not a number gives the middle span and a point of NaNs; an infinite one never returns *)
Theorem C107_findSpan_nan (U : list Z) n p (u : B64) fuel : isnan u -> (0 <= p <= n)%Z -> (n + 1 < Z.of_nat (length U))%Z -> (1 <= fuel)%nat ->
  findSpan (A := B64) fuel n p u U = Ok ((p + n + 1) / 2)%Z.
Proof. exact (findSpan_nan U n p u fuel). Qed.
Print Assumptions C107_findSpan_nan.
Theorem C107_basis_nan (U : list Z) i p (u : B64) : isnan u -> (1 <= p)%Z -> (0 <= i + 1 - p)%Z -> (i + p < Z.of_nat (length U))%Z ->
  exists N : list B64, basisFuns (A := B64) i u p U = Ok N /\ length N = Z.to_nat (p + 1) /\ Forall isnan N.
Proof.
  intros Nu Hp Hlo Hhi. destruct (basisFuns_nan U i p u Nu Hp Hlo Hhi) as (N & E & L & H). exists N. split; [exact E|]. split; [exact L|].
  apply Forall_forall. intros x Hx. destruct (In_nth _ _ (fofZ B64 0) Hx) as (k & Hk & <-). destruct (H (Z.of_nat k) ltac:(lia)) as (y & Ey & Ny).
  apply nth_of_zget in Ey; [|lia]. rewrite Nat2Z.id in Ey. rewrite Ey. exact Ny.
Qed.
Print Assumptions C107_basis_nan.
Theorem C107_curve_nan (U : list Z) (P : list (vec B64)) n p (u : B64) fuel : isnan u -> (1 <= p <= n)%Z ->
  (n + p < Z.of_nat (length U))%Z -> (n < Z.of_nat (length P))%Z -> (1 <= fuel)%nat ->
  exists C, curvePoint (A := B64) fuel n p U P u = Ok C /\ isnan (vx C) /\ isnan (vy C) /\ isnan (vz C).
Proof. exact (curvePoint_nan U P n p u fuel). Qed.
Print Assumptions C107_curve_nan.
Theorem C107_infinite_refuted (U : list Z) (P : list (vec B64)) n p fuel sgn : small_knots U -> nondecreasing U ->
  (0 <= p <= n)%Z -> (n + 1 < Z.of_nat (length U))%Z ->
  findSpan (A := B64) fuel n p (B754_infinity sgn : b64) U = Diverge /\
  curvePoint (A := B64) fuel n p U P (B754_infinity sgn : b64) = Diverge.
Proof.
  intros HU M Hp Hn. assert (E := findSpan_inf U n p fuel HU M Hp Hn sgn). split; [exact E|]. unfold curvePoint. rewrite E. reflexivity.
Qed.
Print Assumptions C107_infinite_refuted.
Example C107_nonvacuous : findSpan (A := B64) 1 8 3 (B754_nan : b64) U13 = Ok 6%Z /\
  (match findSpan (A := B64) 1000 8 3 (finf B64) U13 with Diverge => true | _ => false end) = true /\
  (match curvePoint (A := B64) 1 8 3 U13 cps (B754_nan : b64) with Ok C => is_nan (vx C : b64) | _ => false end) = true.
Proof. repeat split; vm_compute; reflexivity. Qed.
