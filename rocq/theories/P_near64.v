(** getNearestPoint of package mesh and the float64 distance. *)
From Coq Require Import ZArith Lia List Bool Reals Lra QArith Psatz.
From Flocq Require Import Core BinarySingleNaN.
From Verif Require Import Base Arith M_r3 M_meshing Spec_r3 Spec_mesh Spec_grid3 XRvec P_insphere_b64 P_b64sc P_b64err P_b64hash P_b64laws P_b64rel P_b64norm P_seedmin P_meshgeom P_b64grid3 P_b64interp.
Import ListNotations.
Open Scope R_scope.

Lemma le_num (x y : B64) : fle B64 x y = true -> number64 x /\ number64 y.
Proof. destruct x as [[]|[]| |[] mx ex Bx], y as [[]|[]| |[] my ey By]; cbn; try discriminate; intros _; split; reflexivity. Qed.
Lemma not_lt_of_le (x y : B64) : fle B64 x y = true -> flt B64 y x = false.
Proof. intros L. destruct (le_num _ _ L) as [Hx Hy]. rewrite (o_lt _ _ ord64) by auto. rewrite L. reflexivity. Qed.
Lemma not_lt_trans (x y z : B64) : fle B64 x y = true -> flt B64 z y = false -> flt B64 z x = false.
Proof.
  intros L N. destruct (flt B64 z x) eqn:E; auto. destruct (le_num _ _ L) as [Hx Hy]. destruct (o_ok _ _ ord64 _ _ E) as [Hz _].
  rewrite (o_lt _ _ ord64) in N by auto. apply negb_false_iff in N. rewrite (o_lt _ _ ord64) in E by auto.
  rewrite (o_trans _ _ ord64 x y z Hx Hy Hz L N) in E. discriminate.
Qed.
Lemma le_trans64 (x y z : B64) : fle B64 x y = true -> fle B64 y z = true -> fle B64 x z = true.
Proof. intros L M. destruct (le_num _ _ L), (le_num _ _ M). apply (o_trans _ _ ord64) with y; auto. Qed.

Lemma nearest_loop q (l : list (vec B64)) : forall m best,
  let r := getNearestPoint_loop q m best l in
  (r = best /\ forall u, In u l -> fle B64 (Distance u q) m = false) \/
  (exists l1 v l2, l = l1 ++ v :: l2 /\ r = v /\ fle B64 (Distance v q) m = true /\
    (forall u, In u l1 -> flt B64 (Distance u q) (Distance v q) = false) /\
    (forall u, In u l2 -> fle B64 (Distance u q) (Distance v q) = false)).
Proof.
  induction l as [|a l IH]; intros m best; cbn [getNearestPoint_loop]; cbv zeta.
  - left. split; [reflexivity|intros u []].
  - destruct (fle B64 (Distance a q) m) eqn:E.
    + destruct (IH (Distance a q) a) as [[R H]|(l1 & v & l2 & -> & R & L & H1 & H2)]; right.
      * exists [], a, l. split; [reflexivity|]. split; [exact R|]. split; [exact E|]. split; [intros u []|exact H].
      * exists (a :: l1), v, l2. split; [reflexivity|]. split; [exact R|]. split; [eapply le_trans64; eassumption|]. split; [|exact H2].
        intros u [<-|Hu]; [apply not_lt_of_le; exact L|auto].
    + destruct (IH m best) as [[R H]|(l1 & v & l2 & -> & R & L & H1 & H2)].
      * left. split; [exact R|]. intros u [<-|Hu]; auto.
      * right. exists (a :: l1), v, l2. split; [reflexivity|]. split; [exact R|]. split; [exact L|]. split; [|exact H2].
        intros u [<-|Hu]; [|auto]. destruct (flt B64 (Distance a q) (Distance v q)) eqn:Q; auto.
        rewrite (le_trans64 _ _ _ (lt_le ord64 _ _ Q) L) in E. discriminate.
Qed.

(** a distance is at most MaxFloat64 exactly when it is finite *)
Lemma sqrt_le_max (x : B64) : fle B64 (fsqrt B64 x) MaxFloat64 = is_finite (fsqrt B64 x : b64).
Proof.
  assert (N : fsqrt B64 x <> (B754_infinity true : b64)).
  { intros E. pose proof (Bsqrt_correct 53 1024 b64_prec b64_pe mode_NE x) as (S1 & S2 & S3). cbn [fsqrt B64] in E.
    destruct x as [[]|[]| |[] mx ex Bx]; try (discriminate E); rewrite E in S2; discriminate S2. }
  destruct (fsqrt B64 x : b64) as [[]|[]| |s m e B] eqn:E.
  - vm_compute; reflexivity.
  - vm_compute; reflexivity.
  - exfalso. apply N. reflexivity.
  - vm_compute; reflexivity.
  - vm_compute; reflexivity.
  - cbn [fle B64]. change (is_finite (B754_finite s m e B)) with true.
    destruct frel_max as [FM _]. rewrite Bleb_correct by auto. apply Rle_bool_true.
    rewrite B2R_maxfloat. eapply Rle_trans; [apply Rle_abs|].
    eapply Rle_trans; [apply (abs_B2R_le_emax_minus_prec 53 1024); reflexivity|].
    unfold maxfloat. replace (1024 - 53)%Z with 971%Z by reflexivity.
    rewrite !bpow_powerRZ. change (IZR radix2) with 2%R. cbn [powerRZ].
    change (Pos.to_nat 1024) with 1024%nat. change (Pos.to_nat 971) with 971%nat. lra.
Qed.
Lemma dist_le_max (u q : vec B64) : fle B64 (Distance u q) MaxFloat64 = is_finite (Distance u q : b64).
Proof. apply sqrt_le_max. Qed.

Lemma nearest64 q (l : list (vec B64)) : let r := getNearestPoint l q in
  (r = Zero /\ forall u, In u l -> is_finite (Distance u q : b64) = false) \/
  (exists l1 v l2, l = l1 ++ v :: l2 /\ r = v /\ is_finite (Distance v q : b64) = true /\
    (forall u, In u l1 -> is_finite (Distance u q : b64) = true -> B2R (Distance v q : b64) <= B2R (Distance u q : b64)) /\
    (forall u, In u l2 -> is_finite (Distance u q : b64) = true -> B2R (Distance v q : b64) < B2R (Distance u q : b64))).
Proof.
  cbv zeta. unfold getNearestPoint. destruct (nearest_loop q l MaxFloat64 Zero) as [[R H]|(l1 & v & l2 & E & R & L & H1 & H2)].
  - left. split; [exact R|]. intros u Hu. rewrite <- dist_le_max. auto.
  - right. exists l1, v, l2. rewrite dist_le_max in L. split; [exact E|]. split; [exact R|]. split; [exact L|]. split; intros u Hu F.
    + specialize (H1 u Hu). cbn [flt B64] in H1. rewrite Bltb_correct in H1 by assumption. destruct (Rlt_bool_spec (B2R (Distance u q : b64)) (B2R (Distance v q : b64))); [discriminate|assumption].
    + specialize (H2 u Hu). cbn [fle B64] in H2. rewrite Bleb_correct in H2 by assumption. destruct (Rle_bool_spec (B2R (Distance u q : b64)) (B2R (Distance v q : b64))); [discriminate|assumption].
Qed.
(** equal points are at distance zero *)
Lemma dist_zero (v w : vec B64) : fin_vec v -> fin_vec w -> rdist (rvec v) (rvec w) = 0 -> ap 4 (rdist (rvec v) (rvec w)) (Distance v w).
Proof.
  intros (F1 & F2 & F3) (G1 & G2 & G3) Z. rewrite Z. unfold rdist, rdist2, rdot in Z. cbn [rvec rsub rx ry rz] in Z.
  set (x := B2R (vx v : b64) - B2R (vx w : b64)) in *. set (y := B2R (vy v : b64) - B2R (vy w : b64)) in *. set (z := B2R (vz v : b64) - B2R (vz w : b64)) in *.
  pose proof (sq_nonneg x) as X. pose proof (sq_nonneg y) as Y. pose proof (sq_nonneg z) as Zz. apply sqrt_eq_0 in Z; [|lra].
  assert (x = 0) by (apply Rmult_integral in Z || idtac; destruct (Rmult_integral x x ltac:(lra)); auto).
  assert (y = 0) by (destruct (Rmult_integral y y ltac:(lra)); auto). assert (z = 0) by (destruct (Rmult_integral z z ltac:(lra)); auto).
  assert (SZ : forall a b : b64, is_finite a = true -> is_finite b = true -> B2R a - B2R b = 0 -> is_finite (fsub B64 a b : b64) = true /\ B2R (fsub B64 a b : b64) = 0).
  { intros a b Fa Fb E. destruct (fsub_val a b Fa Fb) as [Q1 Q2]; [rewrite E, Rabs_R0; apply bpow_ge_0|]. split; auto. rewrite Q2, E. apply round_0. typeclasses eauto. }
  assert (MZ : forall a : b64, is_finite a = true /\ B2R a = 0 -> is_finite (fmul B64 a a : b64) = true /\ B2R (fmul B64 a a : b64) = 0).
  { intros a [Fa E]. destruct (fmul_exact a a (fofZ B64 0) Fa Fa eq_refl) as [Q1 Q2]; [rewrite E; change (B2R (fofZ B64 0 : b64)) with 0; ring|]. split; auto. }
  assert (AZ : forall a b : b64, is_finite a = true /\ B2R a = 0 -> is_finite b = true /\ B2R b = 0 -> is_finite (fadd B64 a b : b64) = true /\ B2R (fadd B64 a b : b64) = 0).
  { intros a b [Fa Ea] [Fb Eb]. destruct (fadd_exact a b (fofZ B64 0) Fa Fb eq_refl) as [Q1 Q2]; [rewrite Ea, Eb; change (B2R (fofZ B64 0 : b64)) with 0; ring|]. split; auto. }
  assert (N : is_finite (SquaredDistance v w : b64) = true /\ B2R (SquaredDistance v w : b64) = 0).
  { unfold SquaredDistance, Norm2, Dot, Sub. cbn [vx vy vz]. apply AZ; [apply AZ|]; apply MZ; apply SZ; auto. }
  destruct N as [N1 N2]. assert (A0 : ap (2 * 3) 0 (SquaredDistance v w)) by (split; auto; rewrite N2; apply nr_refl; lra).
  pose proof (ap_sqrt 3 0 _ A0 ltac:(lia) ltac:(lra)) as S. rewrite sqrt_0 in S. apply S. left. reflexivity.
Qed.
(** relative error of the choice *)
Lemma nearest_true q (l : list (vec B64)) : l <> [] -> fin_vec q -> (forall v, In v l -> fin_vec v /\ (rdist (rvec v) (rvec q) = 0 \/ mid (rdist (rvec v) (rvec q)))) ->
  exists v, In v l /\ getNearestPoint l q = v /\ forall w, In w l -> (1 - u) ^ 8 * rdist (rvec v) (rvec q) <= rdist (rvec w) (rvec q).
Proof.
  intros N Fq H.
  assert (D : forall v, In v l -> ap 4 (rdist (rvec v) (rvec q)) (Distance v q)).
  { intros v Hv. destruct (H v Hv) as [Fv [Z|M]]; [apply dist_zero|apply dist_acc]; auto. }
  destruct (nearest64 q l) as [[_ C]|(l1 & v & l2 & E & R & F & H1 & H2)].
  - destruct l as [|a l]; [congruence|]. destruct (D a (or_introl eq_refl)) as [X _]. rewrite C in X by (left; auto). discriminate.
  - exists v. assert (Iv : In v l) by (rewrite E; apply in_or_app; right; left; auto). split; [exact Iv|]. split; [exact R|].
    intros w Hw. destruct (D w Hw) as [Gw [A1 A2]], (D v Iv) as [Gv [B1 B2]].
    assert (L : B2R (Distance v q : b64) <= B2R (Distance w q : b64)).
    { rewrite E in Hw. apply in_app_or in Hw. destruct Hw as [Hw|[<-|Hw]]; [auto|lra|left; auto]. }
    pose proof (pw 4) as P. replace ((1 - u) ^ 8) with ((1 - u) ^ 4 * (1 - u) ^ 4) by ring.
    apply Rle_trans with ((1 - u) ^ 4 * B2R (Distance v q : b64)).
    + rewrite Rmult_assoc. apply Rmult_le_compat_l; lra.
    + apply Rle_trans with ((1 - u) ^ 4 * B2R (Distance w q : b64)); [apply Rmult_le_compat_l; lra|exact A2].
Qed.

(** ** on a grid the rounded square root keeps the order of the squares *)
Lemma sqrt_gap a b : (0 <= a < b)%Z -> (b <= 2 ^ 50)%Z -> sqrt (IZR a) * (1 + 2 * u) < sqrt (IZR b) * (1 - u).
Proof.
  intros L B. assert (Pa : 0 <= IZR a) by (apply IZR_le; lia). assert (Pb : 1 <= IZR b) by (apply IZR_le; lia).
  assert (G : IZR a + 1 <= IZR b) by (rewrite <- plus_IZR; apply IZR_le; lia).
  assert (Bb : IZR b <= bp 50). { change (bp 50) with (IZR (2 ^ 50)). apply IZR_le, B. }
  pose proof (sqrt_pos (IZR a)) as Sa. pose proof (sqrt_lt_R0 (IZR b) ltac:(lra)) as Sb.
  pose proof (sqrt_sqrt (IZR a) Pa) as Qa. pose proof (sqrt_sqrt (IZR b) ltac:(lra)) as Qb.
  assert (U : 8 * u * bp 50 = 1).
  { rewrite u_val. change (bp 50) with 1125899906842624. lra. }
  pose proof u_pos as Up. set (s := sqrt (IZR a)) in *. set (t := sqrt (IZR b)) in *.
  assert (ST : s < t) by (apply sqrt_lt_1; lra).
  assert (D : 1 <= (t - s) * (t + s)) by (ring_simplify; simpl; lra).
  (* t - s >= 1 / (2 t) and t * t <= 2^50 *)
  assert (D2 : 1 <= (t - s) * (2 * t)).
  { apply Rle_trans with (1 := D). apply Rmult_le_compat_l; lra. }
  assert (E : u * (3 * t) < t - s).
  { apply Rmult_lt_reg_r with (2 * t); [lra|]. apply Rlt_le_trans with (2 := D2).
    replace (u * (3 * t) * (2 * t)) with (6 * u * (t * t)) by ring. rewrite Qb.
    apply Rle_lt_trans with (6 * u * bp 50); [apply Rmult_le_compat_l; lra|lra]. }
  assert (u * s <= u * t) by (apply Rmult_le_compat_l; lra). lra.
Qed.

Ltac rl := first [eassumption | apply rel_add; [rl|rl|cbv; discriminate|unfold okexp; lia]
  | apply rel_sub; [rl|rl|cbv; discriminate|unfold okexp; lia] | apply rel_mul; [rl|rl|cbv; discriminate|unfold okexp; lia]].
Section Grid.
Variables e ox oy oz : Z.
Hypothesis G : okgrid e ox oy oz.
Lemma sqdist_grid v w : vrel e ox oy oz (2 ^ 20) v (fv (rvec v)) -> vrel e ox oy oz (2 ^ 20) w (fv (rvec w)) ->
  exists k, (0 <= k <= 2 ^ 50)%Z /\ is_finite (SquaredDistance v w : b64) = true /\ B2R (SquaredDistance v w : b64) = bp (e + e) * IZR k /\
    rdist2 (rvec v) (rvec w) = bp (e + e) * IZR k.
Proof.
  destruct G as (He & Hx & Hy & Hz). intros (A1 & A2 & A3) (B1 & B2 & B3).
  pose proof (crel_sub e He ox oy oz ox (2 ^ 20) _ _ _ _ Hx ltac:(lia) A1 B1) as X. pose proof (crel_sub e He ox oy oz oy (2 ^ 20) _ _ _ _ Hy ltac:(lia) A2 B2) as Y.
  pose proof (crel_sub e He ox oy oz oz (2 ^ 20) _ _ _ _ Hz ltac:(lia) A3 B3) as Z.
  assert (S : rel (SquaredDistance v w) (SquaredDistance (fv (rvec v)) (fv (rvec w))) (e + e) (2 ^ 20 * 2 ^ 20 + 2 ^ 20 * 2 ^ 20 + 2 ^ 20 * 2 ^ 20)).
  { unfold SquaredDistance, Norm2, Dot. rl. }
  destruct S as (k & ((F & E) & K) & W).
  assert (D : rdist2 (rvec v) (rvec w) = bp (e + e) * IZR k).
  { rewrite <- E. unfold SquaredDistance in W at 1. rewrite Sub_fv in W. cbv zeta in W. rewrite Norm2_fv in W. apply Fin_inj in W. exact W. }
  exists k. split; [|auto]. split; [|lia].
  apply le_IZR. apply Rmult_le_reg_l with (bp (e + e)); [apply bpow_gt_0|]. rewrite Rmult_0_r, <- D. unfold rdist2, rdot.
  set (d := rsub _ _). pose proof (sq_nonneg (rx d)). pose proof (sq_nonneg (ry d)). pose proof (sq_nonneg (rz d)). lra.
Qed.
Lemma dist_grid v w : fin3 v /\ in_cube e ox oy oz (2 ^ 20) (rvec v) -> fin3 w /\ in_cube e ox oy oz (2 ^ 20) (rvec w) ->
  exists k, (0 <= k <= 2 ^ 50)%Z /\ rdist (rvec v) (rvec w) = bp e * sqrt (IZR k) /\
    ap 1 (rdist (rvec v) (rvec w)) (Distance v w) /\ B2R (Distance v w : b64) = rndF (rdist (rvec v) (rvec w)).
Proof.
  intros [Fv Cv] [Fw Cw]. destruct (sqdist_grid v w (vrel_cube _ _ _ _ _ _ Fv Cv) (vrel_cube _ _ _ _ _ _ Fw Cw)) as (k & K & F & E & D).
  assert (Pk : 0 <= IZR k) by (apply IZR_le; lia).
  assert (R : rdist (rvec v) (rvec w) = bp e * sqrt (IZR k)).
  { unfold rdist. rewrite D. rewrite sqrt_mult; [|apply bpow_ge_0|exact Pk]. f_equal. rewrite bpow_plus. apply sqrt_square, bpow_ge_0. }
  exists k. split; [exact K|]. split; [exact R|]. split.
  - unfold rdist. rewrite D. rewrite <- E. change (ap (0 + 1) (sqrt (B2R (SquaredDistance v w : b64))) (fsqrt B64 (SquaredDistance v w))).
    assert (P0 : 0 <= B2R (SquaredDistance v w : b64)) by (rewrite E; apply Rmult_le_pos; [apply bpow_ge_0|exact Pk]).
    apply (ap_sqrt 0); [apply ap_exact; auto|lia|exact P0|]. rewrite E, <- D. change (sqrt (rdist2 (rvec v) (rvec w))) with (rdist (rvec v) (rvec w)). rewrite R.
    destruct (Z.eq_dec k 0) as [->|N]; [left; rewrite sqrt_0; ring|right]. destruct G as (He & _).
    assert (1 <= IZR k) by (apply IZR_le; lia). assert (IZR k <= bp 50) by (change (bp 50) with (IZR (2 ^ 50)); apply IZR_le; lia).
    assert (S1 : 1 <= sqrt (IZR k)) by (rewrite <- sqrt_1; apply sqrt_le_1_alt; assumption).
    assert (S2 : sqrt (IZR k) <= bp 25).
    { rewrite <- (sqrt_square (bp 25)) by apply bpow_ge_0. apply sqrt_le_1_alt. rewrite <- bpow_plus. assumption. }
    split.
    + apply Rle_trans with (bp e * 1); [rewrite Rmult_1_r; apply bpow_le; lia|apply Rmult_le_compat_l; [apply bpow_ge_0|exact S1]].
    + apply Rle_trans with (bp e * bp 25); [apply Rmult_le_compat_l; [apply bpow_ge_0|exact S2]|]. rewrite <- bpow_plus. apply bpow_le. lia.
  - pose proof (Bsqrt_correct 53 1024 b64_prec b64_pe mode_NE (SquaredDistance v w)) as (S1 & _). unfold rdist. rewrite D, <- E. exact S1.
Qed.
Lemma dist_order v w q : fin3 v /\ in_cube e ox oy oz (2 ^ 20) (rvec v) -> fin3 w /\ in_cube e ox oy oz (2 ^ 20) (rvec w) -> fin3 q /\ in_cube e ox oy oz (2 ^ 20) (rvec q) ->
  (rdist (rvec v) (rvec q) < rdist (rvec w) (rvec q) <-> B2R (Distance v q : b64) < B2R (Distance w q : b64)).
Proof.
  intros Hv Hw Hq. destruct (dist_grid v q Hv Hq) as (a & Ka & Ra & [_ Aa] & Ea), (dist_grid w q Hw Hq) as (b & Kb & Rb & [_ Ab] & Eb). split.
  - intros L. rewrite Ra, Rb in L. apply Rmult_lt_reg_l in L; [|apply bpow_gt_0].
    assert (AB : (a < b)%Z).
    { apply lt_IZR. apply sqrt_lt_0_alt. exact L. }
    pose proof (sqrt_gap a b ltac:(lia) ltac:(lia)) as Gp. rewrite Ra in Aa. rewrite Rb in Ab. unfold nr in Aa, Ab. rewrite pow_1 in Aa, Ab.
    pose proof u_pos as U. pose proof (bpow_gt_0 radix2 e) as Be. set (s := sqrt (IZR a)) in *. set (t := sqrt (IZR b)) in *.
    assert (Ps : 0 <= s) by apply sqrt_pos.
    apply Rlt_le_trans with (2 := proj1 Ab). replace ((1 - u) * (bp e * t)) with (bp e * (t * (1 - u))) by ring.
    apply Rle_lt_trans with (bp e * (s * (1 + 2 * u))); [|apply Rmult_lt_compat_l; assumption].
    apply Rmult_le_reg_l with (1 - u); [lra|]. apply Rle_trans with (1 := proj2 Aa).
    replace ((1 - u) * (bp e * (s * (1 + 2 * u)))) with (bp e * s * ((1 - u) * (1 + 2 * u))) by ring.
    rewrite <- (Rmult_1_r (bp e * s)) at 1. apply Rmult_le_compat_l; [apply Rmult_le_pos; lra|].
    assert (u * u <= / 4 * u) by (apply Rmult_le_compat_r; lra). lra.
  - intros L. destruct (Rlt_or_le (rdist (rvec v) (rvec q)) (rdist (rvec w) (rvec q))) as [H|H]; auto.
    exfalso. apply (rndF_mono _ _) in H. rewrite <- Ea, <- Eb in H. lra.
Qed.
Lemma nearest_grid q (l : list (vec B64)) : l <> [] -> (forall v, In v (q :: l) -> fin3 v /\ in_cube e ox oy oz (2 ^ 20) (rvec v)) ->
  exists l1 v l2, l = l1 ++ v :: l2 /\ getNearestPoint l q = v /\
    (forall w, In w l1 -> rdist (rvec v) (rvec q) <= rdist (rvec w) (rvec q)) /\ (forall w, In w l2 -> rdist (rvec v) (rvec q) < rdist (rvec w) (rvec q)).
Proof.
  intros N H. assert (Hq := H q (or_introl eq_refl)).
  destruct (nearest64 q l) as [[_ C]|(l1 & v & l2 & E & R & F & H1 & H2)].
  - destruct l as [|a l]; [congruence|]. destruct (dist_grid a q (H a ltac:(right; left; auto)) Hq) as (_ & _ & _ & [X _] & _). rewrite C in X by (left; auto). discriminate.
  - exists l1, v, l2. split; [exact E|]. split; [exact R|].
    assert (Iv : In v l) by (rewrite E; apply in_or_app; right; left; auto). assert (Hv := H v (or_intror Iv)).
    split; intros w Hw; assert (Iw : In w l) by (rewrite E; apply in_or_app; (left; assumption) || (right; right; assumption)); assert (Hw' := H w (or_intror Iw));
      destruct (dist_grid w q Hw' Hq) as (_ & _ & _ & [Fw _] & _).
    + specialize (H1 w Hw Fw). apply Rnot_lt_le. intros L. apply dist_order in L; auto. lra.
    + specialize (H2 w Hw Fw). apply dist_order; auto.
Qed.
End Grid.
