(** Property theorems C181: distances between curves, their points and their control points. *)
From Coq Require Import Reals Lra Lia ZArith List Bool.
From Flocq Require Import Core BinarySingleNaN.
From Verif Require Import Base Arith M_r3 Spec_r3 XRvec P_meshgeom P_tri3 M_nurbs Spec_nurbs P_nurbs P_nurbs2 P_insphere_err P_insphere_b64 P_b64sc P_b64err P_b64norm P_b64nurbs Spec_spline Spec_polylength Spec_curvedist
  P_spline P_spline2 P_spline3 P_polylength P_curvedist Props_nurbs Props_nurbs64 Props_spline Props_polylength.
Import ListNotations.
Open Scope R_scope.

(** moving the control points that act at u by at most d moves the point by at most d *)
Theorem C181_stable U P Q n p fuel u d A B : curve_data U P n p -> curve_data U Q n p -> in_domain U n p u -> (Z.to_nat (n + 1 - p) <= fuel)%nat ->
  (forall k, acts U n p u k -> rdist (control P k) (control Q k) <= d) ->
  curvePoint fuel n p U (map fv P) (Fin u : XR) = Ok (fv A) -> curvePoint fuel n p U (map fv Q) (Fin u : XR) = Ok (fv B) -> rdist A B <= d.
Proof.
  intros D DQ Hu Hf H EA EB. pose proof D as (_ & Hp & _). destruct (weights U P n p fuel u D Hu Hf) as (i & w & Hi & W & S & K & E).
  rewrite (E P D) in EA. rewrite (E Q DQ) in EB. apply ok_fv_inj in EA, EB. subst A B.
  apply means; [intros r Hr; apply W; lia|exact S|]. intros r Hr. apply H, K. lia.
Qed.
Print Assumptions C181_stable.
(** a point of the curve is in every ball that holds the control points that act on it *)
Theorem C181_ball U P n p fuel u X d A : curve_data U P n p -> in_domain U n p u -> (Z.to_nat (n + 1 - p) <= fuel)%nat ->
  (forall k, acts U n p u k -> rdist (control P k) X <= d) ->
  curvePoint fuel n p U (map fv P) (Fin u : XR) = Ok (fv A) -> rdist A X <= d.
Proof.
  intros D Hu Hf H EA. pose proof D as (_ & Hp & _). destruct (weights U P n p fuel u D Hu Hf) as (i & w & Hi & W & S & K & E).
  rewrite (E P D) in EA. apply ok_fv_inj in EA. subst A. apply mean_ball; [intros r Hr; apply W; lia|exact S|]. intros r Hr. apply H, K. lia.
Qed.
Print Assumptions C181_ball.
(** two points of the curve are no further apart than some two control points *)
Theorem C181_diameter U P n p fuel u v d A B : curve_data U P n p -> in_domain U n p u -> in_domain U n p v -> (Z.to_nat (n + 1 - p) <= fuel)%nat ->
  (forall k l, acts U n p u k -> acts U n p v l -> rdist (control P k) (control P l) <= d) ->
  curvePoint fuel n p U (map fv P) (Fin u : XR) = Ok (fv A) -> curvePoint fuel n p U (map fv P) (Fin v : XR) = Ok (fv B) -> rdist A B <= d.
Proof.
  intros D Hu Hv Hf H EA EB. apply (C181_ball U P n p fuel u B d A D Hu Hf); [|exact EA].
  intros k Hk. rewrite rdist_comm. apply (C181_ball U P n p fuel v (control P k) d B D Hv Hf); [|exact EB]. intros l Hl. rewrite rdist_comm. apply H; assumption.
Qed.
Print Assumptions C181_diameter.
(** the curve stays near its control points: within (p + 1) / 2 legs, rounded down, of one that acts on it *)
Theorem C181_near U P n p fuel u L A : curve_data U P n p -> in_domain U n p u -> (Z.to_nat (n + 1 - p) <= fuel)%nat -> 0 <= L ->
  (forall k, (0 <= k < n)%Z -> rdist (control P k) (control P (k + 1)) <= L) ->
  curvePoint fuel n p U (map fv P) (Fin u : XR) = Ok (fv A) ->
  exists k, acts U n p u k /\ rdist A (control P k) <= IZR ((p + 1) / 2) * L.
Proof.
  intros D Hu Hf HL H EA. pose proof D as (_ & Hp & _). destruct (weights U P n p fuel u D Hu Hf) as (i & w & Hi & W & S & K & E).
  rewrite (E P D) in EA. apply ok_fv_inj in EA. subst A.
  assert (Hh : (0 <= p / 2 <= p)%Z /\ (p - p / 2 = (p + 1) / 2)%Z /\ (p / 2 <= (p + 1) / 2)%Z) by (Z.to_euclidean_division_equations; lia). destruct Hh as (H1 & H2 & H3).
  exists (i - p + p / 2)%Z. split; [apply K; exact H1|]. apply mean_ball; [intros r Hr; apply W; lia|exact S|]. intros r Hr.
  assert (M : forall m, (0 <= m <= (p + 1) / 2)%Z -> INR (Z.to_nat m) * L <= IZR ((p + 1) / 2) * L).
  { intros m Hm. apply Rmult_le_compat_r; [exact HL|]. rewrite INR_IZR_INZ. apply IZR_le. lia. }
  destruct (Z_le_gt_dec r (p / 2)) as [G|G].
  - refine (Rle_trans _ _ _ _ (M (p / 2 - r)%Z ltac:(lia))). pose proof (legs P n L H (Z.to_nat (p / 2 - r)) (i - p + r)%Z ltac:(lia) ltac:(lia)) as Q.
    replace (i - p + r + Z.of_nat (Z.to_nat (p / 2 - r)))%Z with (i - p + p / 2)%Z in Q by lia. exact Q.
  - refine (Rle_trans _ _ _ _ (M (r - p / 2)%Z ltac:(lia))). rewrite rdist_comm. pose proof (legs P n L H (Z.to_nat (r - p / 2)) (i - p + p / 2)%Z ltac:(lia) ltac:(lia)) as Q.
    replace (i - p + p / 2 + Z.of_nat (Z.to_nat (r - p / 2)))%Z with (i - p + r)%Z in Q by lia. exact Q.
Qed.
Print Assumptions C181_near.

(** the same in float64: degree at most 180, knots below 2^53, coordinates of size at most M; [curve_error] is the rounding *)
Definition curve_error (p : Z) (M : R) : R := 2 * ((8 * IZR p + 5) * / 2 ^ 53 * M).
Definition float_data (U : list Z) (P : list (vec B64)) (n p : Z) (M : R) : Prop :=
  curve_data U (map rvec P) n p /\ (p <= 180)%Z /\ small_knots U /\ bpow radix2 (-900) <= M <= bpow radix2 900 /\
  forall v, In v P -> fin_vec v /\ forall c, coord c -> Rabs (c (rvec v)) <= M.
Theorem C181_ball_b64 U (P : list (vec B64)) n p fuel (u : b64) M X d : float_data U P n p M -> is_finite u = true -> in_domain U n p (B2R u) ->
  (Z.to_nat (n + 1 - p) <= fuel)%nat ->
  (forall k, acts U n p (B2R u) k -> rdist (control (map rvec P) k) X <= d) ->
  exists A, curvePoint (A := B64) fuel n p U P u = Ok A /\ fin_vec A /\ rdist (rvec A) X <= d + curve_error p M.
Proof.
  intros ((Mo & Hp & L1 & L2 & L3) & Hp2 & HK & HM & HV) Fu [Hu He] Hf H. rewrite map_length in L3.
  destruct (C106_curve_point U P n p u fuel M Hp Hp2 L1 L2 L3 Mo HK Fu Hu He Hf HM HV) as (i & A & w & Hi & S & _ & W & W1 & E & F & C & _).
  exists A. split; [exact E|]. split; [exact F|].
  set (q := fun r => rvec (nth (Z.to_nat (i - p + r)) P Zero)) in *.
  assert (Q : forall r, (0 <= r <= p)%Z -> q r = control (map rvec P) (i - p + r)).
  { intros r Hr. unfold control. rewrite (nth_indep _ rzero (rvec Zero)) by (rewrite map_length; lia). now rewrite (map_nth rvec). }
  apply (Rle_trans _ _ _ (rdist_tri _ (vsum (fun r => rscale (w r) (q r)) (Z.to_nat (p + 1))) _)). rewrite Rplus_comm. apply Rplus_le_compat.
  - apply mean_ball; [intros r Hr; apply W; lia|exact W1|]. intros r Hr. rewrite Q by lia. apply H. split; [lia|].
    split; [apply (Rle_trans _ (knot U i)); [apply Mo; lia|apply S]|]. intros Hk. apply (Rle_trans _ (knot U (i + 1))); [apply S|apply Mo; lia].
  - unfold curve_error. apply boxdist; rewrite vsum_at by auto; apply C; unfold coord; auto.
Qed.
Print Assumptions C181_ball_b64.
Theorem C181_diameter_b64 U (P : list (vec B64)) n p fuel (u v : b64) M d A B : float_data U P n p M -> is_finite u = true -> is_finite v = true ->
  in_domain U n p (B2R u) -> in_domain U n p (B2R v) -> (Z.to_nat (n + 1 - p) <= fuel)%nat ->
  (forall k l, acts U n p (B2R u) k -> acts U n p (B2R v) l -> rdist (control (map rvec P) k) (control (map rvec P) l) <= d) ->
  curvePoint (A := B64) fuel n p U P u = Ok A -> curvePoint (A := B64) fuel n p U P v = Ok B -> rdist (rvec A) (rvec B) <= d + 2 * curve_error p M.
Proof.
  intros D Fu Fv Hu Hv Hf H EA EB. destruct (C181_ball_b64 U P n p fuel u M (rvec B) (d + curve_error p M) D Fu Hu Hf) as (A' & EA' & _ & R).
  - intros k Hk. destruct (C181_ball_b64 U P n p fuel v M (control (map rvec P) k) d D Fv Hv Hf) as (B' & EB' & _ & R').
    + intros l Hl. rewrite rdist_comm. apply H; assumption.
    + rewrite rdist_comm. rewrite EB in EB'. injection EB' as <-. exact R'.
  - rewrite EA in EA'. injection EA' as <-. lra.
Qed.
Print Assumptions C181_diameter_b64.

(** the float64 point is that close to the exact one *)
Lemma exact64 U (P : list (vec B64)) n p fuel (u : b64) M : float_data U P n p M -> is_finite u = true -> in_domain U n p (B2R u) -> (Z.to_nat (n + 1 - p) <= fuel)%nat ->
  exists A E, curvePoint (A := B64) fuel n p U P u = Ok A /\ fin_vec A /\ curvePoint fuel n p U (map fv (map rvec P)) (Fin (B2R u) : XR) = Ok (fv E) /\
    rdist (rvec A) E <= curve_error p M.
Proof.
  intros ((Mo & Hp & L1 & L2 & L3) & Hp2 & HK & HM & HV) Fu [Hu He] Hf. rewrite map_length in L3.
  destruct (C106_exact U P n p u fuel M Hp Hp2 L1 L2 L3 Mo HK Fu Hu He Hf HM HV) as (A & E & EA & F & EE & C). exists A, E. split; [exact EA|]. split; [exact F|].
  split; [exact EE|]. apply boxdist; apply C; unfold coord; auto.
Qed.
(** moving control points by at most d moves the float64 point by little more *)
Theorem C181_stable_b64 U (P Q : list (vec B64)) n p fuel (u : b64) M d A B : float_data U P n p M -> float_data U Q n p M -> is_finite u = true ->
  in_domain U n p (B2R u) -> (Z.to_nat (n + 1 - p) <= fuel)%nat ->
  (forall k, acts U n p (B2R u) k -> rdist (control (map rvec P) k) (control (map rvec Q) k) <= d) ->
  curvePoint (A := B64) fuel n p U P u = Ok A -> curvePoint (A := B64) fuel n p U Q u = Ok B -> rdist (rvec A) (rvec B) <= d + 2 * curve_error p M.
Proof.
  intros D D' Fu Hu Hf H EA EB. destruct (exact64 U P n p fuel u M D Fu Hu Hf) as (A' & E & EA' & _ & EX & R).
  destruct (exact64 U Q n p fuel u M D' Fu Hu Hf) as (B' & G & EB' & _ & GX & R'). rewrite EA in EA'. injection EA' as <-. rewrite EB in EB'. injection EB' as <-.
  pose proof (C181_stable U _ _ n p fuel (B2R u) d E G (proj1 D) (proj1 D') Hu Hf H EX GX) as S.
  pose proof (rdist_tri (rvec A) E (rvec B)) as T1. pose proof (rdist_tri E G (rvec B)) as T2. rewrite (rdist_comm G (rvec B)) in T2. lra.
Qed.
Print Assumptions C181_stable_b64.
(** C180 in float64: the broken line through points of the curve is longer than the control polygon by at most the rounding of its points *)
Lemma poly_close e : forall As Es, 0 <= e -> Forall2 (fun A E => rdist A E <= e) As Es -> poly_length As <= poly_length Es + 2 * INR (length As) * e.
Proof.
  intros As Es He F. induction F as [|A E As Es R F IH]; [cbn; lra|]. change (length (A :: As)) with (S (length As)). rewrite S_INR.
  destruct F as [|A' E' As Es R' F]; [cbn; lra|]. change (poly_length (A :: A' :: As)) with (rdist A A' + poly_length (A' :: As)).
  change (poly_length (E :: E' :: Es)) with (rdist E E' + poly_length (E' :: Es)).
  pose proof (rdist_tri A E A'). pose proof (rdist_tri E E' A'). rewrite (rdist_comm E' A') in *. lra.
Qed.
Theorem C180_length_b64 U (P : list (vec B64)) n p fuel (us : list b64) M As : float_data U P n p M -> (1 <= p)%Z -> multiplicity_at_most U n p p -> (Z.to_nat (n + 1 - p) <= fuel)%nat ->
  increasing (map B2R us) -> Forall (fun u => is_finite u = true /\ in_domain U n p (B2R u)) us ->
  Forall2 (fun u A => curvePoint (A := B64) fuel n p U P u = Ok A) us As ->
  poly_length (map rvec As) <= poly_length (firstn (Z.to_nat (n + 1)) (map rvec P)) + 2 * INR (length us) * curve_error p M.
Proof.
  intros D Hp HM Hf I Dm F.
  assert (X : exists Es, Forall2 (fun u C => curvePoint fuel n p U (map fv (map rvec P)) (Fin u : XR) = Ok (fv C)) (map B2R us) Es /\
    Forall2 (fun A E => rdist A E <= curve_error p M) (map rvec As) Es /\ length As = length us).
  { clear I. induction F as [|u A us As EA F IH]; [exists []; split; [constructor|split; [constructor|reflexivity]]|].
    inversion Dm as [|? ? (Fu & Du) Dm']; subst. destruct (IH Dm') as (Es & F1 & F2 & L).
    destruct (exact64 U P n p fuel u M D Fu Du Hf) as (A' & E & EA' & _ & EX & R). rewrite EA in EA'. injection EA' as <-.
    exists (E :: Es). split; [constructor; [exact EX|exact F1]|]. split; [constructor; [exact R|exact F2]|cbn [length]; now rewrite L]. }
  destruct X as (Es & F1 & F2 & L). assert (He : 0 <= curve_error p M).
  { destruct D as (_ & _ & _ & (HM1 & _) & _). pose proof (bpow_gt_0 radix2 (-900)). unfold curve_error. assert (0 <= IZR p) by (apply IZR_le; lia).
    apply Rmult_le_pos; [lra|]. apply Rmult_le_pos; [|lra]. apply Rmult_le_pos; [lra|]. apply Rlt_le, Rinv_0_lt_compat, pow_lt. lra. }
  pose proof (poly_close (curve_error p M) _ _ He F2) as Q. rewrite map_length, L in Q.
  pose proof (C180_length U _ n p fuel (map B2R us) Es (proj1 D) Hp HM Hf I) as C.
  assert (Dm' : Forall (in_domain U n p) (map B2R us)) by (clear - Dm; induction Dm as [|u us (_ & H) _ IH]; constructor; auto). specialize (C Dm' F1). lra.
Qed.
Print Assumptions C180_length_b64.

(** the curve of the repository's test at 9/2: control points 1 to 4 act, all within 1 of the centre of the unit cube, and the last control point is
    further away; exactly and in float64 *)
Lemma acts_ex k : acts U13 8 3 (9 / 2) k <-> (1 <= k <= 4)%Z.
Proof.
  unfold acts. split.
  - intros (K & L & H). rewrite U13_knot in L by lia. split.
    + assert (1 <= k \/ k = 0)%Z as [E|E] by lia; [exact E|]. subst k. specialize (H ltac:(lia)). rewrite U13_knot in H by lia. simpl in H. lra.
    + apply le_IZR. destruct (Z_le_gt_dec k 4) as [G|G]; [now apply IZR_le|]. assert (IZR 5 <= IZR k) by (apply IZR_le; lia). lra.
  - intros K. split; [lia|]. rewrite U13_knot by lia. assert (IZR 1 <= IZR k <= IZR 4) by (split; apply IZR_le; lia). split; [lra|].
    intros _. rewrite U13_knot by lia. rewrite !plus_IZR. lra.
Qed.
Lemma near_ex k : acts U13 8 3 (9 / 2) k -> rdist (control P9 k) (RV (1 / 2) (1 / 2) (1 / 2)) <= 1.
Proof.
  rewrite acts_ex. intros K. assert (k = 1 \/ k = 2 \/ k = 3 \/ k = 4)%Z as E by lia. apply (Rle_trans _ (sqrt 1)); [|rewrite sqrt_1; lra].
  destruct E as [->|[->|[->| ->]]]; [change (control P9 1) with (RV 1 0 0)|change (control P9 2) with (RV 0 1 0)|change (control P9 3) with (RV 1 1 0)|change (control P9 4) with (RV 0 0 1)];
    unfold rdist, rdist2, rdot, rsub; cbn [rx ry rz]; apply sqrt_le_1_alt; lra.
Qed.
Lemma cps_P9 : map rvec cps = P9.
Proof.
  assert (Z : forall x y z, (0 <= x <= 2)%Z -> (0 <= y <= 2)%Z -> (0 <= z <= 2)%Z -> rvec (Props_nurbs.zp x y z) = RV (IZR x) (IZR y) (IZR z)).
  { intros x y z Hx Hy Hz. pose proof (bR_ofZ x ltac:(lia)) as X. pose proof (bR_ofZ y ltac:(lia)) as Y. pose proof (bR_ofZ z ltac:(lia)) as W. unfold bR in X, Y, W.
    unfold rvec, Props_nurbs.zp. cbn [vx vy vz]. rewrite X, Y, W. reflexivity. }
  unfold cps, P9. cbn [map]. rewrite !Z by lia. reflexivity.
Qed.
Example C181_nonvacuous : curve_data U13 P9 8 3 /\ in_domain U13 8 3 (9 / 2) /\ ~ acts U13 8 3 (9 / 2) 8 /\ 2 < rdist (control P9 8) (RV (1 / 2) (1 / 2) (1 / 2)) /\
  exists A, curvePoint 6 8 3 U13 (map fv P9) (Fin (9 / 2) : XR) = Ok (fv A) /\ rdist A (RV (1 / 2) (1 / 2) (1 / 2)) <= 1.
Proof.
  destruct C127_134_nonvacuous as (D & _ & I & _). split; [exact D|]. split; [exact I|]. split; [rewrite acts_ex; lia|]. split.
  { change (control P9 8) with (RV 2 2 2). unfold rdist, rdist2, rdot, rsub. cbn [rx ry rz]. apply (Rle_lt_trans _ (sqrt (2 * 2))); [rewrite sqrt_square; lra|]. apply sqrt_lt_1_alt. lra. }
  destruct (weights U13 P9 8 3 6 (9 / 2) D I ltac:(cbn; lia)) as (i & w & _ & _ & _ & _ & E). eexists. split; [exact (E P9 D)|].
  apply (C181_ball U13 P9 8 3 6 (9 / 2) _ 1 _ D I ltac:(cbn; lia) near_ex (E P9 D)).
Qed.
Example C181_b64_nonvacuous : float_data U13 cps 8 3 2 /\ exists A, curvePoint (A := B64) 6 8 3 U13 cps (b64_lit 9 (-1)) = Ok A /\
  rdist (rvec A) (RV (1 / 2) (1 / 2) (1 / 2)) <= 1 + curve_error 3 2.
Proof.
  destruct C127_134_nonvacuous as (D & _ & I & _). destruct C106_nonvacuous as (V & M & _). assert (F : float_data U13 cps 8 3 2).
  { unfold float_data. rewrite cps_P9. split; [exact D|]. split; [lia|]. split; [exact U13_small|]. split; [exact M|exact V]. }
  split; [exact F|]. destruct (C181_ball_b64 U13 cps 8 3 6 (b64_lit 9 (-1)) 2 (RV (1 / 2) (1 / 2) (1 / 2)) 1 F) as (A & E & _ & R).
  - reflexivity.
  - rewrite v92. replace 4.5 with (9 / 2) by lra. exact I.
  - cbn; lia.
  - intros k. rewrite v92, cps_P9. replace 4.5 with (9 / 2) by lra. exact (near_ex k).
  - exists A. split; [exact E|exact R].
Qed.
(** a control point that does not act is replaced: the float64 point at 9/2 moves by rounding only *)
Definition cps2 : list (vec B64) := Props_nurbs.zp 2 2 2 :: tl cps.
Example C181_stable_b64_nonvacuous : float_data U13 cps 8 3 2 /\ float_data U13 cps2 8 3 2 /\ control (map rvec cps) 0 <> control (map rvec cps2) 0 /\
  exists A B, curvePoint (A := B64) 6 8 3 U13 cps (b64_lit 9 (-1)) = Ok A /\ curvePoint (A := B64) 6 8 3 U13 cps2 (b64_lit 9 (-1)) = Ok B /\
    rdist (rvec A) (rvec B) <= 0 + 2 * curve_error 3 2.
Proof.
  pose proof (proj1 C181_b64_nonvacuous) as F. split; [exact F|]. pose proof F as ((Mo & Hp & L1 & L2 & L3) & D2 & D3 & D4 & V).
  assert (F2 : float_data U13 cps2 8 3 2).
  { split; [split; [exact Mo|]; split; [exact Hp|]; split; [exact L1|]; split; [exact L2|exact L3]|]. split; [exact D2|]. split; [exact D3|]. split; [exact D4|].
    intros v [<-|Hv]; apply V; unfold cps; cbn [In tl cps] in *; tauto. }
  split; [exact F2|]. destruct C127_134_nonvacuous as (D & _ & I & _).
  assert (Du : in_domain U13 8 3 (B2R (b64_lit 9 (-1) : b64))) by (rewrite v92; replace 4.5 with (9 / 2) by lra; exact I).
  split.
  { rewrite cps_P9. change (control P9 0) with (RV 0 0 0). change (control (map rvec cps2) 0) with (rvec (Props_nurbs.zp 2 2 2)).
    pose proof (bR_ofZ 2 ltac:(lia)) as X. unfold bR in X. intros Q. apply (f_equal rx) in Q. unfold rvec, Props_nurbs.zp in Q. cbn [rx vx] in Q. rewrite X in Q. lra. }
  destruct (exact64 U13 cps 8 3 6 (b64_lit 9 (-1)) 2 F eq_refl Du ltac:(cbn; lia)) as (A & _ & EA & _).
  destruct (exact64 U13 cps2 8 3 6 (b64_lit 9 (-1)) 2 F2 eq_refl Du ltac:(cbn; lia)) as (B & _ & EB & _).
  exists A, B. split; [exact EA|]. split; [exact EB|]. apply (C181_stable_b64 U13 cps cps2 8 3 6 (b64_lit 9 (-1)) 2 0 A B F F2 eq_refl Du ltac:(cbn; lia)); [|exact EA|exact EB].
  intros k. rewrite v92. replace 4.5 with (9 / 2) by lra. rewrite acts_ex. intros K. replace (control (map rvec cps2) k) with (control (map rvec cps) k); [rewrite rdist_self; lra|].
  unfold control, cps2, cps. cbn [map tl]. destruct (Z.to_nat k) as [|j] eqn:E; [lia|reflexivity].
Qed.
Example C180_b64_nonvacuous : increasing (map B2R [b64_of_Z 3; b64_lit 9 (-1)]) /\
  Forall (fun u : b64 => is_finite u = true /\ in_domain U13 8 3 (B2R u)) [b64_of_Z 3; b64_lit 9 (-1)] /\
  exists A B, curvePoint (A := B64) 6 8 3 U13 cps (b64_of_Z 3) = Ok A /\ curvePoint (A := B64) 6 8 3 U13 cps (b64_lit 9 (-1)) = Ok B /\
    poly_length [rvec A; rvec B] <= poly_length P9 + 2 * INR 2 * curve_error 3 2.
Proof.
  pose proof (proj1 C181_b64_nonvacuous) as F. destruct C127_134_nonvacuous as (_ & HM & I & _).
  pose proof (bR_ofZ 3 ltac:(lia)) as V3. unfold bR in V3. cbn [fofZ B64] in V3.
  assert (I1 : increasing (map B2R [b64_of_Z 3; b64_lit 9 (-1)])) by (cbn [map increasing]; rewrite V3, v92; split; [lra|auto]). split; [exact I1|].
  assert (D3 : in_domain U13 8 3 (B2R (b64_of_Z 3))). { rewrite V3. unfold in_domain. change (8 + 1)%Z with 9%Z. rewrite !U13_knot by lia. split; [lra|intros; lra]. }
  assert (Du : in_domain U13 8 3 (B2R (b64_lit 9 (-1) : b64))) by (rewrite v92; replace 4.5 with (9 / 2) by lra; exact I).
  assert (Dm : Forall (fun u : b64 => is_finite u = true /\ in_domain U13 8 3 (B2R u)) [b64_of_Z 3; b64_lit 9 (-1)]).
  { constructor; [split; [reflexivity|exact D3]|]. constructor; [split; [reflexivity|exact Du]|constructor]. }
  split; [exact Dm|].
  destruct (exact64 U13 cps 8 3 6 (b64_of_Z 3) 2 F eq_refl D3 ltac:(cbn; lia)) as (A & _ & EA & _).
  destruct (exact64 U13 cps 8 3 6 (b64_lit 9 (-1)) 2 F eq_refl Du ltac:(cbn; lia)) as (B & _ & EB & _).
  exists A, B. split; [exact EA|]. split; [exact EB|].
  pose proof (C180_length_b64 U13 cps 8 3 6 [b64_of_Z 3; b64_lit 9 (-1)] 2 [A; B] F ltac:(lia) HM ltac:(cbn; lia) I1 Dm) as Q. rewrite cps_P9 in Q.
  apply Q. constructor; [exact EA|]. constructor; [exact EB|constructor].
Qed.
