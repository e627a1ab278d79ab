(** Property theorems C97-C104: float64 laws of package r3, the seed search of the triangulator and the
    small helpers of package mesh. *)
From Coq Require Import Reals Lra Lia ZArith QArith Bool List.
From Flocq Require Import Core BinarySingleNaN.
From Verif Require Import Base Arith M_r3 M_tri2 M_triangulator M_meshing Spec_r3 XRvec P_insphere_err P_insphere_b64 P_b64err P_b64laws P_seedmin P_b64rel P_b64norm P_nurbs.
Import ListNotations.
Open Scope R_scope.

(** ** C97: the bounding box and the seeds of the triangulator *)
Definition nan_free_XY (vs : list (vec B64)) : Prop := forall v, In v vs -> number64 (vx v) /\ number64 (vy v).
Theorem C97_bounds64 (vs : list (vec B64)) : (2 <= length vs)%nat -> nan_free_XY vs ->
  exists x0 y0 x1 y1, bounds vs = Ok (x0, y0, x1, y1) /\
    least (map vx vs) x0 /\ least (map vy vs) y0 /\ greatest (map vx vs) x1 /\ greatest (map vy vs) y1.
Proof. exact (bounds_spec ord64 vs). Qed.
Print Assumptions C97_bounds64.
Theorem C97_bounds (vs : list (vec XR)) : (2 <= length vs)%nat -> (forall v, In v vs -> vx v <> NaN /\ vy v <> NaN) ->
  exists x0 y0 x1 y1, bounds vs = Ok (x0, y0, x1, y1) /\
    least (map vx vs) x0 /\ least (map vy vs) y0 /\ greatest (map vx vs) x1 /\ greatest (map vy vs) y1.
Proof. exact (bounds_spec ordX vs). Qed.
Print Assumptions C97_bounds.
(* the seeds, for every float input: nearest to m; nearest to v0 among the points away from v0; least circumradius *)
Lemma inf64 : number64 (finf B64). Proof. reflexivity. Qed.
Lemma inf64_top (x : B64) : number64 x -> fle B64 x (finf B64) = true.
Proof. intros H. destruct x as [[|]|[|]| |[|] m e E]; try reflexivity; discriminate. Qed.
Theorem C97_seed0 (vs : list (vec B64)) (m : vec B64) : vs <> [] -> (forall v, In v vs -> number64 (SquaredDistance v m)) ->
  exists v, zget vs (seed0 vs m) = Ok v /\ forall p, In p vs -> fle B64 (SquaredDistance v m) (SquaredDistance p m) = true.
Proof. exact (seed0_spec ord64 inf64 inf64_top vs m). Qed.
Print Assumptions C97_seed0.
Theorem C97_seed1 (vs : list (vec B64)) i0 (v0 : vec B64) :
  (exists j p, j <> i0 /\ zget vs j = Ok p /\ flt B64 (fofZ B64 0) (SquaredDistance p v0) = true /\ flt B64 (SquaredDistance p v0) (finf B64) = true) ->
  seed1 vs i0 v0 <> i0 /\ exists v, zget vs (seed1 vs i0 v0) = Ok v /\ flt B64 (fofZ B64 0) (SquaredDistance v v0) = true /\
    forall j p, j <> i0 -> zget vs j = Ok p -> flt B64 (fofZ B64 0) (SquaredDistance p v0) = true -> fle B64 (SquaredDistance v v0) (SquaredDistance p v0) = true.
Proof. exact (seed1_spec ord64 inf64 vs i0 v0). Qed.
Print Assumptions C97_seed1.
Theorem C97_seed2 (vs : list (vec B64)) i0 i1 (v0 v1 : vec B64) i2 r : seed2 vs i0 i1 v0 v1 = (i2, r) ->
  (r = finf B64 /\ forall j p, j <> i0 -> j <> i1 -> zget vs j = Ok p -> flt B64 (circumradius v0 v1 p) (finf B64) = false) \/
  (flt B64 r (finf B64) = true /\ i2 <> i0 /\ i2 <> i1 /\ (exists v, zget vs i2 = Ok v /\ r = circumradius v0 v1 v) /\
   forall j p, j <> i0 -> j <> i1 -> zget vs j = Ok p -> number64 (circumradius v0 v1 p) -> fle B64 r (circumradius v0 v1 p) = true).
Proof. exact (seed2_spec ord64 inf64 vs i0 i1 v0 v1 i2 r). Qed.
Print Assumptions C97_seed2.
(* five points with the middle one first, a NaN height, and a duplicate *)
Definition fz (k : Z) : B64 := fofZ B64 k.
Definition ex97 : list (vec B64) := [mkvec (fz 9) (fz 9) (fz 0); mkvec (fz 0) (fz 4) (B754_nan : b64); mkvec (fz 4) (fz 4) (fz 0); mkvec (fz 4) (fz 4) (fz 0); mkvec (fz 5) (fz (-1)) (fz 0)].
Definition ex97f : list (vec B64) := map (fun v => mkvec (vx v) (vy v) (fz 0)) ex97.
Example C97_nonvacuous : nan_free_XY ex97 /\ (2 <= length ex97)%nat /\
  match bounds ex97 with Ok (a, b, c, d) => [sf a; sf b; sf c; sf d] = [sf (fz 0); sf (fz (-1)); sf (fz 9); sf (fz 9)] | _ => False end.
Proof. split; [|split; [repeat constructor|vm_compute; reflexivity]]. intros v H. repeat (destruct H as [<-|H]; [split; reflexivity|]). destruct H. Qed.
Example C97_nonvacuous_seeds : seed0 ex97f (mkvec (fz 4) (fz 3) (fz 0)) = 2%Z /\ seed1 ex97f 2 (mkvec (fz 4) (fz 4) (fz 0)) = 1%Z /\
  fst (seed2 ex97f 2 1 (mkvec (fz 4) (fz 4) (fz 0)) (mkvec (fz 0) (fz 4) (fz 0))) = 4%Z /\
  flt B64 (snd (seed2 ex97f 2 1 (mkvec (fz 4) (fz 4) (fz 0)) (mkvec (fz 0) (fz 4) (fz 0)))) (finf B64) = true /\
  sf (snd (seed2 [mkvec (fz 0) (fz 0) (fz 0); mkvec (fz 1) (fz 1) (fz 0); mkvec (fz 2) (fz 2) (fz 0)] 1 0 (mkvec (fz 1) (fz 1) (fz 0)) (mkvec (fz 0) (fz 0) (fz 0)))) = sf (finf B64).
Proof. repeat split; vm_compute; reflexivity. Qed.

(** ** C98: bitwise symmetry of the operations of r3, for every float including NaN, infinities and zeros *)
Theorem C98_Dot_comm (v w : vec B64) : Dot v w = Dot w v.
Proof. unfold Dot. rewrite (fmul_comm (vx v)), (fmul_comm (vy v)), (fmul_comm (vz v)). reflexivity. Qed.
Print Assumptions C98_Dot_comm.
Theorem C98_Add_comm (v w : vec B64) : Add v w = Add w v.
Proof. unfold Add. rewrite (fadd_comm (vx v)), (fadd_comm (vy v)), (fadd_comm (vz v)). reflexivity. Qed.
Print Assumptions C98_Add_comm.
Theorem C98_Distance_sym (v w : vec B64) : Distance v w = Distance w v /\ SquaredDistance v w = SquaredDistance w v.
Proof.
  assert (E : Norm2 (Sub v w) = Norm2 (Sub w v)).
  { unfold Norm2, Dot, Sub. cbn [vx vy vz]. rewrite (sq_sub (vx v)), (sq_sub (vy v)), (sq_sub (vz v)). reflexivity. }
  split; [|exact E]. unfold Distance, Norm. unfold Norm2 in E. rewrite E. reflexivity.
Qed.
Print Assumptions C98_Distance_sym.
(* x and y are opposite floats, or both are +0 *)
Definition opp64 (x y : B64) : Prop := x = fneg B64 y \/ (x = fofZ B64 0 /\ y = fofZ B64 0).
Lemma opp64_sub x y : opp64 (fsub B64 x y) (fsub B64 y x).
Proof. destruct (fsub_anti x y) as [H|H]; [left; exact H|right; exact H]. Qed.
Theorem C98_Sub_Cross_anti (v w : vec B64) :
  (opp64 (vx (Sub v w)) (vx (Sub w v)) /\ opp64 (vy (Sub v w)) (vy (Sub w v)) /\ opp64 (vz (Sub v w)) (vz (Sub w v))) /\
  (opp64 (vx (Cross v w)) (vx (Cross w v)) /\ opp64 (vy (Cross v w)) (vy (Cross w v)) /\ opp64 (vz (Cross v w)) (vz (Cross w v))).
Proof.
  split; [repeat split; apply opp64_sub|]. unfold Cross. cbn [vx vy vz]. repeat split; apply opp64_sub.
Qed.
Print Assumptions C98_Sub_Cross_anti.
Definition p2 (e : Z) : B64 := b64_lit 1 e.
Example C98_nonvacuous : sf (Dot (mkvec (p2 600) (fz 3) (fz 1)) (mkvec (p2 600) (fz (-1)) (fz 1))) = sf (finf B64) /\
  (let v := mkvec (fz 1) (fz 2) (fz 3) in let w := mkvec (fz 4) (fz 5) (fz 6) in
   vsf (Cross v w) = vsf (mkvec (fz (-3)) (fz 6) (fz (-3))) /\ vsf (Cross w v) = vsf (mkvec (fz 3) (fz (-6)) (fz 3)) /\
   vsf (Cross v v) = vsf (mkvec (fz 0) (fz 0) (fz 0)) /\ sf (SquaredDistance w v) = sf (fz 27)).
Proof. vm_compute. repeat split; reflexivity. Qed.

(** ** C99: the sign of norms and distances, and when they are NaN, for every float *)
Lemma nan_dec (x : b64) : is_nan x = true \/ is_nan x = false. Proof. destruct (is_nan x); auto. Qed.
Lemma norm2_num (v : vec B64) : is_nan (vx v : b64) = false -> is_nan (vy v : b64) = false -> is_nan (vz v : b64) = false -> pos64 (Norm2 v).
Proof. intros X Y Z. unfold Norm2, Dot. apply pos64_add; [apply pos64_add|]; apply pos64_sq; assumption. Qed.
Lemma norm2_nan (v : vec B64) : is_nan (vx v : b64) = true \/ is_nan (vy v : b64) = true \/ is_nan (vz v : b64) = true -> is_nan (Norm2 v : b64) = true.
Proof.
  intros [H|[H|H]]; unfold Norm2, Dot; apply nan_add.
  - left. apply nan_add. left. apply nan_mul. auto.
  - left. apply nan_add. right. apply nan_mul. auto.
  - right. apply nan_mul. auto.
Qed.
Theorem C99_Norm_nan (v : vec B64) : is_nan (Norm v : b64) = true <-> is_nan (vx v : b64) = true \/ is_nan (vy v : b64) = true \/ is_nan (vz v : b64) = true.
Proof.
  split.
  - destruct (nan_dec (vx v)); auto. destruct (nan_dec (vy v)); auto. destruct (nan_dec (vz v)); auto. intros Q. exfalso.
    pose proof (pos64_sqrt _ (norm2_num v H H0 H1)) as [P _]. change (fsqrt B64 (Norm2 v)) with (Norm v) in P. congruence.
  - intros H. apply nan_sqrt. exact (norm2_nan v H).
Qed.
Print Assumptions C99_Norm_nan.
Theorem C99_Distance_nan (v w : vec B64) : is_nan (Distance v w : b64) = true <-> no_diff (vx v) (vx w) \/ no_diff (vy v) (vy w) \/ no_diff (vz v) (vz w).
Proof. unfold Distance. rewrite C99_Norm_nan. unfold Sub. cbn [vx vy vz]. rewrite !nan_sub. reflexivity. Qed.
Print Assumptions C99_Distance_nan.
Theorem C99_nonneg (v w : vec B64) :
  (is_nan (Norm v : b64) = false -> fle B64 (fofZ B64 0) (Norm v) = true /\ Bsign (Norm v : b64) = false) /\
  (is_nan (Distance v w : b64) = false -> fle B64 (fofZ B64 0) (Distance v w) = true /\ Bsign (Distance v w : b64) = false).
Proof.
  assert (H : forall v : vec B64, is_nan (Norm v : b64) = false -> fle B64 (fofZ B64 0) (Norm v) = true /\ Bsign (Norm v : b64) = false).
  { clear. intros v N. assert (P : pos64 (Norm v)).
    { apply pos64_sqrt. destruct (nan_dec (vx v)), (nan_dec (vy v)), (nan_dec (vz v)); try (exfalso; rewrite (proj2 (C99_Norm_nan v)) in N by auto; discriminate).
      apply norm2_num; auto. }
    split; [apply pos64_le; exact P|exact (proj2 P)]. }
  split; [apply H|]. unfold Distance. apply H.
Qed.
Print Assumptions C99_nonneg.
Theorem C99_Distance_self (v : vec B64) : fin_vec v -> Distance v v = fofZ B64 0 /\ SquaredDistance v v = fofZ B64 0.
Proof.
  intros (X & Y & Z). unfold Distance, SquaredDistance, Norm, Norm2, Dot, Sub. cbn [vx vy vz]. rewrite !fsub_self by assumption. split; reflexivity.
Qed.
Print Assumptions C99_Distance_self.
Example C99_nonvacuous : (let v := mkvec (p2 600) (fz 0) (fz 0) in sf (Norm v) = sf (finf B64)) /\
  (let v := mkvec (fz 3) (finf B64) (fz 0) in sf (Distance v v) = SpecFloat.S754_nan /\ sf (Norm v) = sf (finf B64) /\ no_diff (vy v) (vy v)) /\
  (let v := mkvec (fz 3) (fz 7) (fz 0) in fin_vec v /\ sf (Distance v v) = sf (fz 0)).
Proof. repeat split; try (vm_compute; reflexivity). right. right. split; reflexivity. Qed.

(** ** C100: Norm and Distance are within a few units in the last place of the exact values *)
Theorem C100_Norm (v : vec B64) : fin_vec v -> mid (rnorm (rvec v)) ->
  is_finite (Norm v : b64) = true /\ Rabs (B2R (Norm v : b64) - rnorm (rvec v)) <= 4 * / 2 ^ 53 * rnorm (rvec v).
Proof.
  intros F M. destruct (norm_acc v F M) as [Q N]. split; [exact Q|]. pose proof (mid_pos _ M). pose proof (nr_abs 3 (rnorm (rvec v)) _ ltac:(lia) ltac:(lra) N) as K.
  change (INR (3 + 1)) with (INR 4) in K. replace (INR 4) with 4 in K by (simpl; lra). unfold u53 in K. exact K.
Qed.
Print Assumptions C100_Norm.
Theorem C100_Distance (v w : vec B64) : fin_vec v -> fin_vec w -> mid (rdist (rvec v) (rvec w)) ->
  is_finite (Distance v w : b64) = true /\ Rabs (B2R (Distance v w : b64) - rdist (rvec v) (rvec w)) <= 5 * / 2 ^ 53 * rdist (rvec v) (rvec w).
Proof.
  intros F G M. destruct (dist_acc v w F G M) as [Q N]. split; [exact Q|]. pose proof (mid_pos _ M). pose proof (nr_abs 4 (rdist (rvec v) (rvec w)) _ ltac:(lia) ltac:(lra) N) as K.
  change (INR (4 + 1)) with (INR 5) in K. replace (INR 5) with 5 in K by (simpl; lra). unfold u53 in K. exact K.
Qed.
Print Assumptions C100_Distance.

Lemma mid_1_2 x : 1 <= x <= 4 -> mid (sqrt x).
Proof.
  intros [L U]. assert (1 <= sqrt x) by (rewrite <- sqrt_1; apply sqrt_le_1_alt; auto).
  assert (sqrt x <= 2) by (rewrite <- (sqrt_square 2) by lra; apply sqrt_le_1_alt; lra).
  split; [apply Rle_trans with (bpow radix2 0); [apply bpow_le; lia|exact H]|apply Rle_trans with (bpow radix2 1); [exact H0|apply bpow_le; lia]].
Qed.
Definition ex100 : vec B64 := mkvec (fz 1) (fz (-1)) (fz 1).
Lemma ex100_r : rvec ex100 = RV 1 (-1) 1.
Proof. unfold rvec. f_equal; cbn; unfold Defs.F2R; cbn; lra. Qed.
Lemma zero_r : rvec (mkvec (fz 0) (fz 0) (fz 0)) = RV 0 0 0. Proof. reflexivity. Qed.
Example C100_nonvacuous : fin_vec ex100 /\ mid (rnorm (rvec ex100)) /\ mid (rdist (rvec ex100) (rvec (mkvec (fz 0) (fz 0) (fz 0)))) /\
  sf (Norm ex100) = SpecFloat.S754_finite false 7800463371553962 (-52).
Proof.
  rewrite zero_r, ex100_r. split; [repeat split; vm_compute; reflexivity|]. split; [apply mid_1_2; unfold rdot; cbn; lra|].
  split; [apply mid_1_2; unfold rdist2, rdot, rsub; cbn; lra|vm_compute; reflexivity].
Qed.

(** ** C101: REFUTED: distinct finite points have a positive finite distance *)
Definition distance_separates64 : Prop := forall v w : vec B64, fin_vec v -> fin_vec w -> rvec v <> rvec w ->
  flt B64 (fofZ B64 0) (Distance v w) = true /\ flt B64 (Distance v w) (finf B64) = true.
Theorem C101_separates_refuted : ~ distance_separates64.
Proof.
  intros H. destruct (H (mkvec (p2 (-600)) (fz 0) (fz 0)) (mkvec (fz 0) (fz 0) (fz 0))) as [Q _].
  - repeat split; vm_compute; reflexivity.
  - repeat split; vm_compute; reflexivity.
  - rewrite zero_r. intros E. apply (f_equal rx) in E. change (B2R (p2 (-600) : b64) = 0) in E. revert E. apply Rgt_not_eq.
    assert (S : sf (p2 (-600)) = SpecFloat.S754_finite false 4503599627370496 (-652)) by (vm_compute; reflexivity).
    unfold sf in S. rewrite <- SF2R_B2SF, S. apply Float_prop.F2R_gt_0. reflexivity.
  - vm_compute in Q. discriminate.
Qed.
Print Assumptions C101_separates_refuted.
Theorem C101_overflow_refuted : exists v w : vec B64, fin_vec v /\ fin_vec w /\ sf (Distance v w) = sf (finf B64).
Proof. exists (mkvec (p2 600) (fz 0) (fz 0)), (mkvec (fz 0) (fz 0) (fz 0)). repeat split; vm_compute; reflexivity. Qed.
Print Assumptions C101_overflow_refuted.
(* what holds *)
Theorem C101_separates_mid (v w : vec B64) : fin_vec v -> fin_vec w -> mid (rdist (rvec v) (rvec w)) ->
  flt B64 (fofZ B64 0) (Distance v w) = true /\ flt B64 (Distance v w) (finf B64) = true.
Proof.
  intros F G M. pose proof (dist_acc v w F G M) as A. pose proof (mid_pos _ M) as P. destruct (ap_pos _ _ _ P A) as [Q R].
  split; rewrite val_lt, (val_fin (Distance v w)) by exact Q; [|reflexivity]. change (xltb (Fin 0) (Fin (B2R (Distance v w : b64))) = true). apply Rltb_true. exact R.
Qed.
Print Assumptions C101_separates_mid.

(** ** C102: REFUTED: normalising a finite non-zero vector gives a unit vector *)
Definition normalize_unit64 : Prop := forall v : vec B64, fin_vec v -> rvec v <> RV 0 0 0 -> IsUnit (Normalize v) = true.
Theorem C102_normalize_refuted : ~ normalize_unit64.
Proof.
  intros H. assert (Q : IsUnit (Normalize (mkvec (p2 600) (fz 0) (fz 0))) = true); [|vm_compute in Q; discriminate]. apply H.
  - repeat split; vm_compute; reflexivity.
  - intros E. apply (f_equal rx) in E. change (B2R (p2 600 : b64) = 0) in E. revert E. apply Rgt_not_eq.
    assert (S : sf (p2 600) = SpecFloat.S754_finite false 4503599627370496 548) by (vm_compute; reflexivity).
    unfold sf in S. rewrite <- SF2R_B2SF, S. apply Float_prop.F2R_gt_0. reflexivity.
Qed.
Print Assumptions C102_normalize_refuted.
(* both overflow and underflow of the squared norm give the zero vector *)
Theorem C102_normalize_zero_refuted : vsf (Normalize (mkvec (p2 600) (fz 0) (fz 0))) = vsf Zero /\ vsf (Normalize (mkvec (p2 (-540)) (fz 0) (fz 0))) = vsf Zero.
Proof. split; vm_compute; reflexivity. Qed.
Print Assumptions C102_normalize_zero_refuted.
(* what holds *)
Theorem C102_normalize_mid (v : vec B64) : fin_vec v -> mid (rnorm (rvec v)) ->
  let n := rnorm (rvec v) in let w := Normalize v in
  IsUnit w = true /\ fin_vec w /\
  Rabs (B2R (vx w : b64) - rx (rvec v) / n) <= 7 * / 2 ^ 53 * (Rabs (rx (rvec v)) / n) + bpow radix2 (-1074) /\
  Rabs (B2R (vy w : b64) - ry (rvec v) / n) <= 7 * / 2 ^ 53 * (Rabs (ry (rvec v)) / n) + bpow radix2 (-1074) /\
  Rabs (B2R (vz w : b64) - rz (rvec v) / n) <= 7 * / 2 ^ 53 * (Rabs (rz (rvec v)) / n) + bpow radix2 (-1074).
Proof. intros F M n w. split; [exact (normalize_isunit v F M)|exact (normalize_acc v F M)]. Qed.
Print Assumptions C102_normalize_mid.
Example C102_nonvacuous : fin_vec ex100 /\ mid (rnorm (rvec ex100)) /\ IsUnit (Normalize ex100) = true /\
  vsf (Normalize ex100) = (SpecFloat.S754_finite false 5200308914369309 (-53), SpecFloat.S754_finite true 5200308914369309 (-53), SpecFloat.S754_finite false 5200308914369309 (-53)).
Proof. split; [apply C100_nonvacuous|]. split; [apply C100_nonvacuous|]. split; vm_compute; reflexivity. Qed.

(** ** C103: IsUnit is a sound and complete test of the exact squared norm, up to rounding *)
Theorem C103_IsUnit_sound (v : vec B64) : IsUnit v = true -> fin_vec v /\ Rabs (rdot (rvec v) (rvec v) - 1) <= 6 / 100000000000000.
Proof. exact (isunit_sound v). Qed.
Print Assumptions C103_IsUnit_sound.
Theorem C103_IsUnit_complete (v : vec B64) : fin_vec v -> Rabs (rdot (rvec v) (rvec v) - 1) <= 4 / 100000000000000 -> IsUnit v = true.
Proof. exact (isunit_complete v). Qed.
Print Assumptions C103_IsUnit_complete.
Example C103_nonvacuous : IsUnit (mkvec (fz 1) (fz 0) (fz 0)) = true /\ IsUnit (mkvec (fofQ B64 (3 # 5)) (fofQ B64 (4 # 5)) (fz 0)) = true /\
  IsUnit (mkvec (fofQ B64 (3 # 5)) (fofQ B64 (4 # 5)) (fofQ B64 (1 # 1000000))) = false /\
  IsUnit (mkvec ((B754_nan : b64) : B64) (fz 0) (fz 1) : vec B64) = false.
Proof. repeat split; vm_compute; reflexivity. Qed.

(** ** C104: the small helpers of package mesh *)
Theorem C104_edge_isEqual (e f : edge) : edge_isEqual e f = true <-> e = f.
Proof.
  unfold edge_isEqual. destruct e as [a b], f as [c d]. cbn [estart eend].
  destruct (Z.eqb_spec a c), (Z.eqb_spec b d); subst; split; try discriminate; auto; congruence.
Qed.
Print Assumptions C104_edge_isEqual.
(* dpLess is a strict weak order when no distance is NaN *)
Definition dp_numbers (l : distancePairList B64) : Prop := forall d, In d l -> number64 (dpdistance d).
Theorem C104_Less_order (l : distancePairList B64) : dp_numbers l -> forall i j k, (0 <= i < dpLen l)%Z -> (0 <= j < dpLen l)%Z -> (0 <= k < dpLen l)%Z ->
  dpLess l i i = Ok false /\ (dpLess l i j = Ok true -> dpLess l j i = Ok false) /\
  (dpLess l i j = Ok true -> dpLess l j k = Ok true -> dpLess l i k = Ok true) /\
  (dpLess l i j = Ok false -> dpLess l j k = Ok false -> dpLess l i k = Ok false).
Proof.
  intros N i j k Hi Hj Hk.
  destruct (zget_in_range l i Hi) as [a Ea], (zget_in_range l j Hj) as [b Eb], (zget_in_range l k Hk) as [c Ec].
  assert (Nn : forall t x, zget l t = Ok x -> number64 (dpdistance x)).
  { intros t x E. apply N. apply zget_ok in E as [_ E]. eapply nth_error_In; eauto. }
  pose proof (Nn _ _ Ea) as Na. pose proof (Nn _ _ Eb) as Nb. pose proof (Nn _ _ Ec) as Nc.
  unfold dpLess. rewrite Ea, Eb, Ec. cbn [rbind].
  rewrite !(o_lt _ _ ord64) by assumption.
  pose proof (o_trans _ _ ord64 (dpdistance a) (dpdistance b) (dpdistance c) Na Nb Nc) as T1.
  pose proof (o_trans _ _ ord64 (dpdistance c) (dpdistance b) (dpdistance a) Nc Nb Na) as T2.
  pose proof (o_trans _ _ ord64 (dpdistance c) (dpdistance a) (dpdistance b) Nc Na Nb) as T3.
  pose proof (o_total _ _ ord64 (dpdistance a) (dpdistance b) Na Nb) as O1.
  pose proof (o_total _ _ ord64 (dpdistance b) (dpdistance c) Nb Nc) as O2.
  pose proof (o_total _ _ ord64 (dpdistance a) (dpdistance a) Na Na) as O3.
  destruct (fle B64 (dpdistance a) (dpdistance a)), (fle B64 (dpdistance a) (dpdistance b)), (fle B64 (dpdistance b) (dpdistance a)),
    (fle B64 (dpdistance b) (dpdistance c)), (fle B64 (dpdistance c) (dpdistance b)), (fle B64 (dpdistance c) (dpdistance a));
  cbn [negb]; repeat split; intros; auto; try discriminate;
  try (destruct O1; discriminate); try (destruct O2; discriminate); try (destruct O3; discriminate);
  try (specialize (T2 eq_refl eq_refl); discriminate); try (specialize (T3 eq_refl eq_refl); discriminate).
Qed.
Print Assumptions C104_Less_order.

(* it compares the distances: nearer first *)
Theorem C104_Less_spec (l : distancePairList B64) i j a b : zget l i = Ok a -> zget l j = Ok b ->
  is_finite (dpdistance a : b64) = true -> is_finite (dpdistance b : b64) = true ->
  exists r, dpLess l i j = Ok r /\ (r = true <-> B2R (dpdistance a : b64) < B2R (dpdistance b : b64)).
Proof.
  intros Ea Eb Fa Fb. unfold dpLess. rewrite Ea, Eb. cbn [rbind]. eexists. split; [reflexivity|].
  rewrite val_lt, !val_fin by assumption. apply Rltb_true.
Qed.
Print Assumptions C104_Less_spec.
(* with a NaN distance incomparability is not transitive: sort.Sort may return any order *)
Definition less_weak_order : Prop := forall l : distancePairList B64, forall i j k, (0 <= i < dpLen l)%Z -> (0 <= j < dpLen l)%Z -> (0 <= k < dpLen l)%Z ->
  dpLess l i j = Ok false -> dpLess l j i = Ok false -> dpLess l j k = Ok false -> dpLess l k j = Ok false -> dpLess l i k = Ok false.
Definition dpz (x : B64) : distancePair B64 := mkdistancePair Zero x.
Theorem C104_Less_nan_refuted : ~ less_weak_order.
Proof.
  intros H. specialize (H [dpz (fz 1); dpz ((B754_nan : b64) : B64); dpz (fz 2)] 0%Z 1%Z 2%Z).
  assert (Q : dpLess [dpz (fz 1); dpz ((B754_nan : b64) : B64); dpz (fz 2)] 0 2 = Ok false) by (apply H; cbn; lia || reflexivity).
  vm_compute in Q. discriminate.
Qed.
Print Assumptions C104_Less_nan_refuted.
(* dpSwap exchanges two entries and nothing else, and panics exactly out of range; dpLen is the length *)
Theorem C104_Swap {A : Arith} (l : distancePairList A) i j a b : zget l i = Ok a -> zget l j = Ok b ->
  exists m, dpSwap l i j = Ok m /\ dpLen m = dpLen l /\ zget m i = Ok b /\ zget m j = Ok a /\ forall k, k <> i -> k <> j -> zget m k = zget l k.
Proof.
  intros Ea Eb. pose proof (zget_lt _ _ _ Ea) as Ri. pose proof (zget_lt _ _ _ Eb) as Rj.
  unfold dpSwap. rewrite Ea, Eb. cbn [rbind]. rewrite zset_in_range by exact Ri. cbn [rbind].
  assert (Rj' : (0 <= j < Z.of_nat (length (list_upd l (Z.to_nat i) b)))%Z) by (rewrite list_upd_length; exact Rj).
  rewrite zset_in_range by exact Rj'. eexists. split; [reflexivity|]. unfold dpLen. rewrite !list_upd_length. split; [reflexivity|].
  assert (G : forall k, zget (list_upd (list_upd l (Z.to_nat i) b) (Z.to_nat j) a) k = if Z.eq_dec j k then Ok a else if Z.eq_dec i k then Ok b else zget l k).
  { intros k. rewrite zget_upd by exact Rj'. destruct (Z.eq_dec j k); [reflexivity|]. apply zget_upd. exact Ri. }
  rewrite !G. split; [|split].
  - destruct (Z.eq_dec j i) as [->|]; [congruence|]. destruct (Z.eq_dec i i); [reflexivity|easy].
  - destruct (Z.eq_dec j j); [reflexivity|easy].
  - intros k N M. rewrite G. destruct (Z.eq_dec j k); [congruence|]. destruct (Z.eq_dec i k); [congruence|reflexivity].
Qed.
Print Assumptions C104_Swap.
Theorem C104_Swap_Less_panic {A : Arith} (l : distancePairList A) i j : ~ (0 <= i < dpLen l)%Z \/ ~ (0 <= j < dpLen l)%Z -> dpSwap l i j = Panic /\ dpLess l i j = Panic.
Proof.
  assert (P : forall k, ~ (0 <= k < dpLen l)%Z -> zget l k = Panic).
  { intros k H. destruct (zget l k) eqn:E; auto. apply zget_lt in E. contradiction. unfold zget in E. destruct (k <? 0)%Z; [discriminate|]. destruct (nth_error _ _); discriminate. }
  unfold dpSwap, dpLess. intros [H|H]; rewrite (P _ H); cbn [rbind]; [split; [|reflexivity]|split; [reflexivity|]].
  - destruct (zget l j) eqn:E; auto. unfold zget in E. destruct (j <? 0)%Z; [discriminate|]. destruct (nth_error _ _); discriminate.
  - destruct (zget l i) eqn:E; auto. unfold zget in E. destruct (i <? 0)%Z; [discriminate|]. destruct (nth_error _ _); discriminate.
Qed.
Print Assumptions C104_Swap_Less_panic.
(* the slice built by computeBoundingBox lists the eight corners of the box, each once when the box is not flat *)
Theorem C104_boundingBox {A : Arith} (h : helper A) (v : vec A) : length (computeBoundingBox h) = 8%nat /\
  (In v (computeBoundingBox h) <->
   (vx v = vx (hmin h) \/ vx v = vx (hmax h)) /\ (vy v = vy (hmin h) \/ vy v = vy (hmax h)) /\ (vz v = vz (hmin h) \/ vz v = vz (hmax h))) /\
  (vx (hmin h) <> vx (hmax h) -> vy (hmin h) <> vy (hmax h) -> vz (hmin h) <> vz (hmax h) -> NoDup (computeBoundingBox h)).
Proof.
  destruct h as [[a b c] [d e f]], v as [x y z]. unfold computeBoundingBox. cbn [hmin hmax vx vy vz app length In]. split; [reflexivity|]. split.
  - split.
    + intros H. repeat destruct H as [H|H]; try contradiction; injection H as <- <- <-; auto.
    + intros ([-> | ->] & [-> | ->] & [-> | ->]); tauto.
  - intros X Y Z. repeat constructor; cbn [In]; intros H; repeat destruct H as [H|H]; try contradiction; injection H; congruence.
Qed.
Print Assumptions C104_boundingBox.
Example C104_nonvacuous : (let l := [dpz (fz 3); dpz (finf B64); dpz (fz 1)] in dp_numbers l /\ dpLess l 2 0 = Ok true /\ dpLess l 1 0 = Ok false /\
    match dpSwap l 0 2 with Ok m => map (fun d => sf (dpdistance d)) m = [sf (fz 1); sf (finf B64); sf (fz 3)] | _ => False end /\ dpLess l 0 3 = Panic) /\
  edge_isEqual (mkedge 1 2) (mkedge 2 1) = false /\ edge_isEqual (mkedge 1 2) (mkedge 1 2) = true.
Proof.
  split; [|split; reflexivity]. cbv zeta. split; [|repeat split; vm_compute; reflexivity].
  intros d H. repeat (destruct H as [<-|H]; [reflexivity|]). destruct H.
Qed.
