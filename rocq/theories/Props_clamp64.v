(** Property theorems C135: the end points of a clamped curve in binary64. *)
From Coq Require Import Reals Lra Lia ZArith QArith Bool List.
From Flocq Require Import Core BinarySingleNaN.
From Verif Require Import Base Arith M_r3 Spec_r3 XRvec P_meshgeom P_tri3 M_nurbs Spec_nurbs P_nurbs P_nurbs2 P_insphere_err P_insphere_b64 P_b64sc P_b64err P_b64hash P_b64norm P_b64nurbs P_b64clamp Props_nurbs Props_nurbs64.
Import ListNotations.
Open Scope R_scope.

(* the length of the knot span k, as the code computes it, and whether the
   float64 reciprocal of a number times the number is one *)
Definition gap64 (U : list Z) (k : Z) : B64 := fsub B64 (fofZ B64 (nth (Z.to_nat (k + 1)) U 0%Z)) (fofZ B64 (nth (Z.to_nat k) U 0%Z)).
Definition unit64 (g : B64) : bool := feq B64 (fmul B64 g (fdiv B64 (fofZ B64 1) g)) (fofZ B64 1).

Lemma gap_fval U k : small_knots U -> (0 <= k)%Z -> (k + 1 < Z.of_nat (length U))%Z -> knot U k < knot U (k + 1) ->
  fval (gap64 U k) (gapv U k) /\ gapr (gapv U k).
Proof.
  intros HU H0 H1 Hs. split.
  - apply fv_sub; try (apply fv_ofZ, HU, nth_In; lia). apply (diff_lt U HU k (k + 1)); lia || exact Hs.
  - apply (diff_rnd U HU k (k + 1)); lia || exact Hs.
Qed.
Lemma unit_hop g G : gapr G -> fval g G -> unit64 g = true <-> hop G 1 = 1.
Proof.
  intros HG Hg. assert (O := fv_ofZ 1 ltac:(reflexivity)). pose proof (fv_hop G HG (fofZ B64 1) g 1 g O Hg Hg ltac:(lra)) as [F V].
  unfold unit64. rewrite feq_bR; [|exact F|apply O]. unfold bR. rewrite V. destruct O as [_ O]. rewrite O. apply Reqb_true.
Qed.

(** C135: refuted *)
Definition Q49 : list (vec B64) := [mkvec (fofZ B64 1) (fofZ B64 0) (fofZ B64 0); mkvec (fofZ B64 0) (fofZ B64 1) (fofZ B64 0)].
Theorem C135_ends_refuted : exists C D : vec B64,
  curvePoint (A := B64) 9 1 1 [0; 0; 49; 49]%Z Q49 (fofZ B64 0) = Ok C /\
  curvePoint (A := B64) 9 1 1 [0; 0; 49; 49]%Z Q49 (fofZ B64 49) = Ok D /\
  B2R (vx C : b64) = 1 - / 2 ^ 53 /\ B2R (vx (nth 0 Q49 Zero) : b64) = 1 /\
  B2R (vy D : b64) = 1 - / 2 ^ 53 /\ B2R (vy (nth 1 Q49 Zero) : b64) = 1.
Proof.
  assert (Q : exists C, curvePoint (A := B64) 9 1 1 [0; 0; 49; 49]%Z Q49 (fofZ B64 0) = Ok C) by (eexists; reflexivity).
  assert (Q' : exists C, curvePoint (A := B64) 9 1 1 [0; 0; 49; 49]%Z Q49 (fofZ B64 49) = Ok C) by (eexists; reflexivity).
  destruct Q as (C & EC), Q' as (D & ED). exists C, D. split; [exact EC|]. split; [exact ED|].
  assert (SC : match curvePoint (A := B64) 9 1 1 [0; 0; 49; 49]%Z Q49 (fofZ B64 0) with Ok C => B2SF (vx C : b64) | _ => B2SF (fofZ B64 0 : b64) end
     = SpecFloat.S754_finite false 9007199254740991 (-53)) by (vm_compute; reflexivity).
  assert (SD : match curvePoint (A := B64) 9 1 1 [0; 0; 49; 49]%Z Q49 (fofZ B64 49) with Ok C => B2SF (vy C : b64) | _ => B2SF (fofZ B64 0 : b64) end
     = SpecFloat.S754_finite false 9007199254740991 (-53)) by (vm_compute; reflexivity).
  rewrite EC in SC. rewrite ED in SD.
  assert (V : SF2R radix2 (SpecFloat.S754_finite false 9007199254740991 (-53)) = 1 - / 2 ^ 53) by (cbn; unfold Defs.F2R; cbn; lra).
  rewrite <- !SF2R_B2SF, SC, SD, V. split; [reflexivity|]. split; [exact (proj2 (fv_ofZ 1 ltac:(reflexivity)))|].
  split; [reflexivity|exact (proj2 (fv_ofZ 1 ltac:(reflexivity)))].
Qed.
Print Assumptions C135_ends_refuted.

(** What holds: the ends are hit exactly for all control points if and only if
    the reciprocal of the first (last) span length is exact in this sense *)
Theorem C135_start (U : list Z) n p fuel : nondecreasing U -> small_knots U -> (1 <= p <= n)%Z -> (n + p < Z.of_nat (length U))%Z ->
  (Z.to_nat (n + 1 - p) <= fuel)%nat -> knot U 1 = knot U p -> knot U p < knot U (p + 1) ->
  unit64 (gap64 U p) = true <->
  forall P u, (n < Z.of_nat (length P))%Z -> (forall v, In v P -> fin_vec v) -> is_finite (u : b64) = true -> B2R (u : b64) = knot U p ->
    exists C, curvePoint (A := B64) fuel n p U P u = Ok C /\ fin_vec C /\ rvec C = rvec (nth 0 P Zero).
Proof.
  intros M HU Hp HL Hf Hc Hs. destruct (gap_fval U p HU ltac:(lia) ltac:(lia) Hs) as [Vg Pg]. rewrite (unit_hop _ _ Pg Vg). split.
  - intros H P u HP FP Fu Eu. destruct (curve_left U n p Hp HL HU M fuel Hf P HP FP u) as (C & EC & W); auto; [split; auto|].
    exists C. split; [exact EC|]. rewrite hops_one in W by exact H. apply at_weight_one, W.
  - intros H. destruct (Req_dec (hop (gapv U p) 1) 1) as [|N]; auto. exfalso.
    set (e := mkvec (fofZ B64 1) (fofZ B64 1) (fofZ B64 1) : vec B64). set (P := repeat e (S (Z.to_nat n))).
    assert (O := fv_ofZ 1 ltac:(reflexivity)). assert (FP : forall v, In v P -> fin_vec v).
    { intros v Hv. apply repeat_spec in Hv. subst v. repeat split; apply O. }
    assert (LP : (n < Z.of_nat (length P))%Z) by (unfold P; rewrite repeat_length; lia).
    destruct (knot_get U p ltac:(lia)) as (z & _ & Iz & Ez). pose proof (fv_ofZ z (HU z Iz)) as Vz. rewrite Ez in Vz.
    destruct (curve_left U n p Hp HL HU M fuel Hf P LP FP (fofZ B64 z)) as (C & EC & W); auto.
    destruct (H P (fofZ B64 z) LP FP (proj1 Vz) (proj2 Vz)) as (C' & EC' & _ & EQ).
    assert (C' = C) by congruence. subst C'. unfold P in EQ, W. cbn [repeat nth] in EQ, W. unfold rvec in EQ.
    assert (EX : B2R (vx C : b64) = 1) by (transitivity (B2R (vx e : b64)); [congruence|exact (proj2 O)]).
    destruct W as ((_ & W) & _). cbn [vx e] in W. rewrite (proj2 O), Rmult_1_l, EX in W.
    replace (Z.to_nat p) with (S (Z.to_nat (p - 1))) in W by lia. pose proof (hops_lt _ Pg (Z.to_nat (p - 1)) N) as L.
    rewrite rndF_id in W; [lra|]. cbn [hops]. apply generic_format_round; [exact vxc|apply valid_rnd_round_mode].
Qed.
Print Assumptions C135_start.
Theorem C135_end (U : list Z) n p fuel : nondecreasing U -> small_knots U -> (1 <= p <= n)%Z -> (n + p < Z.of_nat (length U))%Z ->
  (Z.to_nat (n + 1 - p) <= fuel)%nat -> knot U (n + p) = knot U (n + 1) -> knot U n < knot U (n + 1) ->
  unit64 (gap64 U n) = true <->
  forall P u, (n < Z.of_nat (length P))%Z -> (forall v, In v P -> fin_vec v) -> is_finite (u : b64) = true -> B2R (u : b64) = knot U (n + 1) ->
    exists C, curvePoint (A := B64) fuel n p U P u = Ok C /\ fin_vec C /\ rvec C = rvec (nth (Z.to_nat n) P Zero).
Proof.
  intros M HU Hp HL Hf Hc Hs. destruct (gap_fval U n HU ltac:(lia) ltac:(lia) Hs) as [Vg Pg]. rewrite (unit_hop _ _ Pg Vg). split.
  - intros H P u HP FP Fu Eu. destruct (curve_right U n p Hp HL HU M fuel Hf P HP FP u) as (C & EC & W); auto; [split; auto|].
    exists C. split; [exact EC|]. rewrite hops_one in W by exact H. apply at_weight_one, W.
  - intros H. destruct (Req_dec (hop (gapv U n) 1) 1) as [|N]; auto. exfalso.
    set (e := mkvec (fofZ B64 1) (fofZ B64 1) (fofZ B64 1) : vec B64). set (P := repeat e (S (Z.to_nat n))).
    assert (O := fv_ofZ 1 ltac:(reflexivity)). assert (FP : forall v, In v P -> fin_vec v).
    { intros v Hv. apply repeat_spec in Hv. subst v. repeat split; apply O. }
    assert (LP : (n < Z.of_nat (length P))%Z) by (unfold P; rewrite repeat_length; lia).
    destruct (knot_get U (n + 1) ltac:(lia)) as (z & _ & Iz & Ez). pose proof (fv_ofZ z (HU z Iz)) as Vz. rewrite Ez in Vz.
    destruct (curve_right U n p Hp HL HU M fuel Hf P LP FP (fofZ B64 z)) as (C & EC & W); auto.
    destruct (H P (fofZ B64 z) LP FP (proj1 Vz) (proj2 Vz)) as (C' & EC' & _ & EQ).
    assert (C' = C) by congruence. subst C'.
    assert (EN : nth (Z.to_nat n) P Zero = e).
    { apply (repeat_spec (S (Z.to_nat n)) e). apply nth_In. unfold P. rewrite repeat_length. lia. }
    rewrite EN in EQ, W. unfold rvec in EQ.
    assert (EX : B2R (vx C : b64) = 1) by (transitivity (B2R (vx e : b64)); [congruence|exact (proj2 O)]).
    destruct W as ((_ & W) & _). cbn [vx e] in W. rewrite (proj2 O), Rmult_1_l, EX in W.
    replace (Z.to_nat p) with (S (Z.to_nat (p - 1))) in W by lia. pose proof (hops_lt _ Pg (Z.to_nat (p - 1)) N) as L.
    rewrite rndF_id in W; [lra|]. cbn [hops]. apply generic_format_round; [exact vxc|apply valid_rnd_round_mode].
Qed.
Print Assumptions C135_end.

(** span lengths for which it holds: 1 to 48, and the powers of two *)
Lemma units_48 : forallb (fun d => unit64 (fofZ B64 d)) (map Z.of_nat (seq 1 48)) = true.
Proof. vm_compute. reflexivity. Qed.
Theorem C135_lengths (U : list Z) k : small_knots U -> (0 <= k)%Z -> (k + 1 < Z.of_nat (length U))%Z ->
  let d := (nth (Z.to_nat (k + 1)) U 0 - nth (Z.to_nat k) U 0)%Z in
  (1 <= d <= 48)%Z \/ (exists e, (0 <= e <= 53)%Z /\ d = (2 ^ e)%Z) -> unit64 (gap64 U k) = true.
Proof.
  intros HU H0 H1 d Hd.
  assert (Ed : knot U (k + 1) - knot U k = IZR d) by (unfold knot, d; rewrite minus_IZR; reflexivity).
  assert (D1 : (1 <= d)%Z) by (destruct Hd as [|(e & He & ->)]; [lia|]; apply (Z.pow_le_mono_r 2 0 e); lia).
  assert (Hs : knot U k < knot U (k + 1)) by (apply (IZR_le 1) in D1; lra).
  destruct (gap_fval U k HU H0 H1 Hs) as [Vg Pg]. apply (unit_hop _ _ Pg Vg). unfold gapv in *. rewrite Ed in *.
  destruct Hd as [Hd|(e & He & Hd)].
  - assert (V := fv_ofZ d ltac:(lia)). rewrite rndF_id in * by (apply (fval_fmt _ _ V)). apply (unit_hop _ _ Pg V).
    pose proof units_48 as Q. rewrite forallb_forall in Q. apply Q. apply in_map_iff. exists (Z.to_nat d). split; [lia|]. apply in_seq. lia.
  - assert (E : IZR d = bp e) by (rewrite Hd; apply (IZR_Zpower radix2); lia). rewrite E in *.
    assert (F : forall e, (-1000 <= e <= 1000)%Z -> rndF (bp e) = bp e).
    { intros e' He'. apply rndF_id. apply generic_format_bpow. unfold SpecFloat.fexp, SpecFloat.emin. lia. }
    rewrite (F e) by lia. unfold hop. replace (1 / bp e) with (bp (- e)) by (rewrite bpow_opp; unfold Rdiv; ring).
    rewrite (F (- e)%Z) by lia. rewrite <- bpow_plus. replace (e + - e)%Z with 0%Z by lia. apply (F 0%Z). lia.
Qed.
Print Assumptions C135_lengths.

(** in any case both ends are the control point scaled by one number, at most
    one and no further below it than p roundings of either kind *)
Theorem C135_scaled (U : list Z) n p fuel P : nondecreasing U -> small_knots U -> (1 <= p <= n)%Z -> (p <= 2 ^ 50)%Z ->
  (n + p < Z.of_nat (length U))%Z -> (Z.to_nat (n + 1 - p) <= fuel)%nat ->
  (n < Z.of_nat (length P))%Z -> (forall v, In v P -> fin_vec v) ->
  (knot U 1 = knot U p -> knot U p < knot U (p + 1) -> forall u, is_finite (u : b64) = true -> B2R (u : b64) = knot U p ->
    exists C w, curvePoint (A := B64) fuel n p U P u = Ok C /\ fin_vec C /\ 1 - IZR p * / 2 ^ 52 <= w <= 1 /\
      rvec C = let Q := rvec (nth 0 P Zero) in RV (rndF (rx Q * w)) (rndF (ry Q * w)) (rndF (rz Q * w))) /\
  (knot U (n + p) = knot U (n + 1) -> knot U n < knot U (n + 1) -> forall u, is_finite (u : b64) = true -> B2R (u : b64) = knot U (n + 1) ->
    exists C w, curvePoint (A := B64) fuel n p U P u = Ok C /\ fin_vec C /\ 1 - IZR p * / 2 ^ 52 <= w <= 1 /\
      rvec C = let Q := rvec (nth (Z.to_nat n) P Zero) in RV (rndF (rx Q * w)) (rndF (ry Q * w)) (rndF (rz Q * w))).
Proof.
  intros M HU Hp Hp2 HL Hf HP FP.
  assert (W : forall G, gapr G -> 1 - IZR p * / 2 ^ 52 <= hops (Z.to_nat p) G <= 1).
  { intros G HG. split; [|apply hops_range, HG]. pose proof (hops_lower G (Z.to_nat p) HG) as L. rewrite INR_IZR_INZ, Z2Nat.id in L by lia.
    assert (E : 2 * u53 = / 2 ^ 52) by (unfold u53; simpl; lra). rewrite E in L. apply L.
    apply IZR_le in Hp2. change (2 ^ 50)%Z with 1125899906842624%Z in Hp2. simpl pow in *. lra. }
  split; intros Hc Hs u Fu Eu.
  - destruct (gap_fval U p HU ltac:(lia) ltac:(lia) Hs) as [_ Pg].
    destruct (curve_left U n p Hp HL HU M fuel Hf P HP FP u) as (C & EC & (F1 & V1) & (F2 & V2) & (F3 & V3)); auto; [split; auto|].
    exists C, (hops (Z.to_nat p) (gapv U p)). split; [exact EC|]. split; [repeat split; assumption|]. split; [apply W, Pg|].
    cbv zeta. unfold rvec at 1. rewrite V1, V2, V3. reflexivity.
  - destruct (gap_fval U n HU ltac:(lia) ltac:(lia) Hs) as [_ Pg].
    destruct (curve_right U n p Hp HL HU M fuel Hf P HP FP u) as (C & EC & (F1 & V1) & (F2 & V2) & (F3 & V3)); auto; [split; auto|].
    exists C, (hops (Z.to_nat p) (gapv U n)). split; [exact EC|]. split; [repeat split; assumption|]. split; [apply W, Pg|].
    cbv zeta. unfold rvec at 1. rewrite V1, V2, V3. reflexivity.
Qed.
Print Assumptions C135_scaled.

(* a quadratic curve with clamped ends and a double knot *)
Definition Uq : list Z := [0;0;0;1;2;3;4;4;5;5;5]%Z.
Example C135_nonvacuous : knot Uq 1 = knot Uq 2 /\ knot Uq 2 < knot Uq 3 /\ knot Uq (7 + 2) = knot Uq (7 + 1) /\ knot Uq 7 < knot Uq (7 + 1) /\
  unit64 (gap64 Uq 2) = true /\ unit64 (gap64 Uq 7) = true /\
  unit64 (fofZ B64 49) = false /\ unit64 (fofZ B64 98) = false /\ unit64 (fofZ B64 100) = true.
Proof.
  split; [reflexivity|]. split; [apply IZR_lt; reflexivity|]. split; [reflexivity|]. split; [apply IZR_lt; reflexivity|].
  repeat split; vm_compute; reflexivity.
Qed.
