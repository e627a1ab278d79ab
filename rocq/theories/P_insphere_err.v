(** Forward error analysis of predicates.inSphere (C12).

    The analysis is done for an arbitrary rounding function with the standard
    properties of round-to-nearest with unit roundoff u = 2^-53 and no
    overflow/underflow, then instantiated with IEEE binary64. *)
From Coq Require Import Reals Lra Lia ZArith QArith Qreals Bool Psatz.
From Flocq Require Import Core Relative BinarySingleNaN.
From Verif Require Import Base Arith M_r3 M_predicates Spec_r3 Spec_sphere XRvec P_r3 P_predicates.
Open Scope R_scope.

Definition u53 : R := / 2 ^ 53.

Section Err.
Variable rnd : R -> R.
Variable cst : Q -> R.
Notation u := u53.
Hypothesis rnd_err : forall x, Rabs (rnd x - x) <= u * Rabs (rnd x).
Hypothesis rnd_err' : forall x, Rabs (rnd x - x) <= u * Rabs x.
Hypothesis rnd_mono : forall x y, x <= y -> rnd x <= rnd y.
Hypothesis rnd_opp : forall x, rnd (- x) = - rnd x.
Hypothesis cst_bound : Q2R isperrboundAQ <= (1 + u) * cst isperrboundAQ.
Hypothesis cst_zero : cst 0 = 0.

(** rounded real arithmetic as an instance of the model's arithmetic *)
Definition FX : Arith :=
  mkArith R (fun a b => rnd (a + b)) (fun a b => rnd (a - b)) (fun a b => rnd (a * b))
    (fun a b => rnd (a / b)) Ropp Rabs (fun a => rnd (sqrt a)) (fun a => IZR (Zceil a))
    Rmax Rmin Rltb Rleb Reqb (fun z => rnd (IZR z)) cst 0 Ztrunc.

Lemma u_pos : 0 < u.
Proof. unfold u53. apply Rinv_0_lt_compat. apply pow_lt. lra. Qed.

Lemma rnd_0 : rnd 0 = 0.
Proof.
  pose proof (rnd_err' 0) as H. rewrite Rabs_R0, Rmult_0_r in H.
  replace (rnd 0 - 0) with (rnd 0) in H by ring.
  destruct (Req_dec (rnd 0) 0) as [E|E]; auto. apply Rabs_pos_lt in E. lra.
Qed.
Lemma rnd_pos x : 0 <= x -> 0 <= rnd x.
Proof. intros H. rewrite <- rnd_0. apply rnd_mono, H. Qed.
Lemma rnd_abs x : rnd (Rabs x) = Rabs (rnd x).
Proof.
  unfold Rabs at 1. destruct (Rcase_abs x) as [H|H].
  - rewrite rnd_opp. assert (0 <= rnd (- x)) by (apply rnd_pos; lra).
    rewrite rnd_opp in H0. rewrite <- Rabs_Ropp. symmetry. apply Rabs_pos_eq. lra.
  - assert (0 <= rnd x) by (apply rnd_pos; lra). symmetry; apply Rabs_pos_eq; lra.
Qed.
Lemma rnd_le_abs x y : Rabs x <= y -> Rabs (rnd x) <= rnd y.
Proof. intros H. rewrite <- rnd_abs. apply rnd_mono, H. Qed.
Lemma rnd_upper x : 0 <= x -> x <= (1 + u) * rnd x.
Proof.
  intros H. pose proof (rnd_err x) as E. pose proof (rnd_pos x H).
  rewrite (Rabs_pos_eq (rnd x)) in E by auto.
  apply Rabs_le_inv in E. lra.
Qed.
Lemma rnd_bound x : Rabs (rnd x) <= (1 + u) * Rabs x.
Proof.
  pose proof (rnd_err' x) as E.
  replace (rnd x) with ((rnd x - x) + x) by ring.
  eapply Rle_trans; [apply Rabs_triang|]. lra.
Qed.

(** [approx k e f p]: the computed [f] approximates the exact [e] with at most
    [k] accumulated roundings, measured against the computed magnitude [p] *)
Definition approx (k : nat) (e f p : R) : Prop :=
  Rabs (e - f) <= ((1 + u) ^ k - 1) * p /\ Rabs f <= p.

Lemma pow1u_ge1 k : 1 <= (1 + u) ^ k.
Proof. apply pow_R1_Rle. pose proof u_pos; lra. Qed.
Lemma approx_pos k e f p : approx k e f p -> 0 <= p.
Proof. intros [_ H]. pose proof (Rabs_pos f); lra. Qed.
Lemma approx_weaken k l e f p : (k <= l)%nat -> approx k e f p -> approx l e f p.
Proof.
  intros Hkl [H1 H2]. split; auto.
  eapply Rle_trans; [exact H1|]. apply Rmult_le_compat_r.
  - pose proof (Rabs_pos f); lra.
  - assert ((1 + u) ^ k <= (1 + u) ^ l); [|lra]. apply Rle_pow; auto. pose proof u_pos; lra.
Qed.
Lemma approx_exact_bound k e f p : approx k e f p -> Rabs e <= (1 + u) ^ k * p.
Proof.
  intros [H1 H2]. replace e with ((e - f) + f) by ring.
  eapply Rle_trans; [apply Rabs_triang|]. lra.
Qed.
Lemma approx_diff a b : approx 1 (a - b) (rnd (a - b)) (Rabs (rnd (a - b))).
Proof.
  split; [|lra]. rewrite Rabs_minus_sym. replace ((1 + u) ^ 1 - 1) with u by ring. apply rnd_err.
Qed.

Lemma approx_round k e x p :
  Rabs (e - x) <= ((1 + u) ^ k - 1) * p -> Rabs x <= p -> approx (S k) e (rnd x) (rnd p).
Proof.
  intros H1 H2. assert (Hp : 0 <= p) by (pose proof (Rabs_pos x); lra).
  split; [|apply rnd_le_abs; auto].
  replace (e - rnd x) with ((e - x) + (x - rnd x)) by ring.
  eapply Rle_trans; [apply Rabs_triang|].
  pose proof (rnd_err x) as E. rewrite Rabs_minus_sym in E.
  pose proof (rnd_le_abs x p H2) as G. pose proof (rnd_upper p Hp) as U.
  pose proof (pow1u_ge1 k). pose proof u_pos.
  assert (((1 + u) ^ k - 1) * p <= ((1 + u) ^ k - 1) * ((1 + u) * rnd p))
    by (apply Rmult_le_compat_l; lra).
  assert (u * Rabs (rnd x) <= u * rnd p) by (apply Rmult_le_compat_l; lra).
  replace (((1 + u) ^ S k - 1) * rnd p) with (((1 + u) ^ k - 1) * ((1 + u) * rnd p) + u * rnd p)
    by (simpl; ring).
  lra.
Qed.

Lemma approx_mul k l e f p e' f' p' :
  approx k e f p -> approx l e' f' p' -> approx (S (k + l)) (e * e') (rnd (f * f')) (rnd (p' * p)).
Proof.
  intros H H'. pose proof (approx_exact_bound _ _ _ _ H') as B.
  pose proof (approx_pos _ _ _ _ H) as P0. pose proof (approx_pos _ _ _ _ H') as P0'.
  destruct H as [H1 H2], H' as [H1' H2'].
  pose proof (pow1u_ge1 k). pose proof (pow1u_ge1 l).
  apply approx_round.
  - replace (e * e' - f * f') with ((e - f) * e' + f * (e' - f')) by ring.
    eapply Rle_trans; [apply Rabs_triang|]. rewrite !Rabs_mult.
    replace (((1 + u) ^ (k + l) - 1) * (p' * p)) with
      (((1 + u) ^ k - 1) * p * ((1 + u) ^ l * p') + p * (((1 + u) ^ l - 1) * p'))
      by (rewrite pow_add; ring).
    apply Rplus_le_compat; apply Rmult_le_compat; auto using Rabs_pos.
  - rewrite Rabs_mult, Rmult_comm. apply Rmult_le_compat; auto using Rabs_pos.
Qed.
Lemma approx_add k e f p e' f' p' :
  approx k e f p -> approx k e' f' p' -> approx (S k) (e + e') (rnd (f + f')) (rnd (p + p')).
Proof.
  intros [H1 H2] [H1' H2']. apply approx_round.
  - replace (e + e' - (f + f')) with ((e - f) + (e' - f')) by ring.
    eapply Rle_trans; [apply Rabs_triang|]. lra.
  - eapply Rle_trans; [apply Rabs_triang|]. lra.
Qed.
Lemma approx_opp k e f p : approx k e f p -> approx k (- e) (- f) p.
Proof.
  intros [H1 H2]. split.
  - replace (- e - - f) with (- (e - f)) by ring. rewrite Rabs_Ropp. auto.
  - rewrite Rabs_Ropp; auto.
Qed.
Lemma approx_sub k e f p e' f' p' :
  approx k e f p -> approx k e' f' p' -> approx (S k) (e - e') (rnd (f - f')) (rnd (p + p')).
Proof. intros H H'. apply approx_add; [auto|apply approx_opp; auto]. Qed.

(** a product of two coordinate differences *)
Lemma approx_prod e f e' f' :
  approx 1 e f (Rabs f) -> approx 1 e' f' (Rabs f') ->
  approx 3 (e * e') (rnd (f * f')) (Rabs (rnd (f * f'))).
Proof.
  intros H H'. pose proof (approx_mul _ _ _ _ _ _ _ _ H H') as G. simpl in G.
  rewrite <- Rabs_mult, rnd_abs, (Rmult_comm f' f) in G. exact G.
Qed.
Lemma approx_minor e f e' f' g h g' h' :
  approx 1 e f (Rabs f) -> approx 1 e' f' (Rabs f') ->
  approx 1 g h (Rabs h) -> approx 1 g' h' (Rabs h') ->
  approx 4 (e * e' - g * g') (rnd (rnd (f * f') - rnd (h * h')))
    (rnd (Rabs (rnd (f * f')) + Rabs (rnd (h * h')))).
Proof. intros. apply approx_sub; apply approx_prod; auto. Qed.
Lemma approx_zminor z zf m mf mp :
  approx 1 z zf (Rabs zf) -> approx 4 m mf mp ->
  approx 6 (z * m) (rnd (zf * mf)) (rnd (mp * Rabs zf)).
Proof. intros H H'. exact (approx_mul _ _ _ _ _ _ _ _ H H'). Qed.
Lemma approx_sum3 e1 f1 p1 e2 f2 p2 e3 f3 p3 :
  approx 6 e1 f1 p1 -> approx 6 e2 f2 p2 -> approx 6 e3 f3 p3 ->
  approx 8 (e1 + e2 + e3) (rnd (rnd (f1 + f2) + f3)) (rnd (rnd (p1 + p2) + p3)).
Proof.
  intros. apply (approx_add 7); [apply (approx_add 6); auto|]. apply (approx_weaken 6); auto.
Qed.
Lemma approx_sum3' e1 f1 p1 e2 f2 p2 e3 f3 p3 :
  approx 6 e1 f1 p1 -> approx 6 e2 f2 p2 -> approx 6 e3 f3 p3 ->
  approx 8 (e1 - e2 + e3) (rnd (rnd (f1 - f2) + f3)) (rnd (rnd (p1 + p2) + p3)).
Proof.
  intros. apply (approx_add 7); [apply (approx_sub 6); auto|]. apply (approx_weaken 6); auto.
Qed.
Lemma approx_square e f :
  approx 1 e f (Rabs f) -> approx 3 (e * e) (rnd (f * f)) (rnd (f * f)).
Proof.
  intros H. pose proof (approx_prod _ _ _ _ H H) as G.
  rewrite (Rabs_pos_eq (rnd (f * f))) in G; auto. apply rnd_pos. apply Rle_0_sqr.
Qed.
Lemma approx_lift e1 f1 e2 f2 e3 f3 :
  approx 1 e1 f1 (Rabs f1) -> approx 1 e2 f2 (Rabs f2) -> approx 1 e3 f3 (Rabs f3) ->
  approx 5 (e1 * e1 + e2 * e2 + e3 * e3)
    (rnd (rnd (rnd (f1 * f1) + rnd (f2 * f2)) + rnd (f3 * f3)))
    (rnd (rnd (rnd (f1 * f1) + rnd (f2 * f2)) + rnd (f3 * f3))).
Proof.
  intros. apply (approx_add 4); [apply (approx_add 3); apply approx_square; auto|].
  apply (approx_weaken 3); [lia|]. apply approx_square; auto.
Qed.
Lemma approx_term l lf m mf mp :
  approx 5 l lf lf -> approx 8 m mf mp -> approx 14 (l * m) (rnd (lf * mf)) (rnd (mp * lf)).
Proof. intros H H'. exact (approx_mul _ _ _ _ _ _ _ _ H H'). Qed.

(** the last three additions, where determinant and permanent associate differently *)
Definition Kfinal : R := (((1 + u) ^ 14 - 1) + u * (1 + u) + u * (1 + u) ^ 2) * (1 + u) ^ 3.

Lemma approx_final eA fA pA eB fB pB eC fC pC eD fD pD :
  approx 14 eA fA pA -> approx 14 eB fB pB -> approx 14 eC fC pC -> approx 14 eD fD pD ->
  Rabs ((eC - eD) + (eA - eB) - rnd (rnd (fC - fD) + rnd (fA - fB)))
    <= Kfinal * rnd (rnd (rnd (pA + pB) + pC) + pD).
Proof.
  intros HA HB HC HD.
  pose proof (approx_pos _ _ _ _ HA) as PA. pose proof (approx_pos _ _ _ _ HB) as PB.
  pose proof (approx_pos _ _ _ _ HC) as PC. pose proof (approx_pos _ _ _ _ HD) as PD.
  destruct HA as [A1 A2], HB as [B1 B2], HC as [C1 C2], HD as [D1 D2].
  pose proof u_pos as Hu. set (k := (1 + u) ^ 14 - 1) in *.
  assert (Hk : 0 <= k) by (unfold k; pose proof (pow1u_ge1 14); lra).
  set (S := pA + pB + pC + pD).
  assert (SB : S <= (1 + u) ^ 3 * rnd (rnd (rnd (pA + pB) + pC) + pD)).
  { pose proof (rnd_upper (pA + pB) ltac:(lra)) as U1.
    pose proof (rnd_pos (pA + pB) ltac:(lra)) as Z1.
    pose proof (rnd_upper (rnd (pA + pB) + pC) ltac:(lra)) as U2.
    pose proof (rnd_pos (rnd (pA + pB) + pC) ltac:(lra)) as Z2.
    pose proof (rnd_upper (rnd (rnd (pA + pB) + pC) + pD) ltac:(lra)) as U3.
    unfold S.
    set (q1 := rnd (pA + pB)) in *. set (q2 := rnd (q1 + pC)) in *. set (q3 := rnd (q2 + pD)) in *.
    assert (pA + pB + pC <= (1 + u) * ((1 + u) * q2)).
    { apply Rle_trans with ((1 + u) * (q1 + pC)).
      - assert (0 <= u * pC) by (apply Rmult_le_pos; lra). lra.
      - apply Rmult_le_compat_l; lra. }
    apply Rle_trans with ((1 + u) * (1 + u) * (q2 + pD)).
    - assert (0 <= (2 * u + u * u) * pD).
      { apply Rmult_le_pos; [|lra]. assert (0 < u * u) by (apply Rmult_lt_0_compat; auto). lra. }
      lra.
    - replace ((1 + u) ^ 3 * q3) with ((1 + u) * (1 + u) * ((1 + u) * q3)) by ring.
      apply Rmult_le_compat_l; auto. apply Rmult_le_pos; lra. }
  assert (E1 : Rabs (fC - fD) <= pC + pD).
  { eapply Rle_trans; [apply Rabs_triang|]. rewrite Rabs_Ropp. lra. }
  assert (E2 : Rabs (fA - fB) <= pA + pB).
  { eapply Rle_trans; [apply Rabs_triang|]. rewrite Rabs_Ropp. lra. }
  pose proof (rnd_bound (fC - fD)) as N1. pose proof (rnd_bound (fA - fB)) as N2.
  pose proof (rnd_bound (rnd (fC - fD) + rnd (fA - fB))) as N3.
  pose proof (rnd_err (fC - fD)) as R1. pose proof (rnd_err (fA - fB)) as R2.
  pose proof (rnd_err (rnd (fC - fD) + rnd (fA - fB))) as R3.
  set (x1 := rnd (fC - fD)) in *. set (x2 := rnd (fA - fB)) in *. set (x3 := rnd (x1 + x2)) in *.
  assert (M1 : Rabs x1 <= (1 + u) * (pC + pD)).
  { eapply Rle_trans; [exact N1|]. apply Rmult_le_compat_l; lra. }
  assert (M2 : Rabs x2 <= (1 + u) * (pA + pB)).
  { eapply Rle_trans; [exact N2|]. apply Rmult_le_compat_l; lra. }
  assert (M3 : Rabs x3 <= (1 + u) * ((1 + u) * S)).
  { eapply Rle_trans; [exact N3|]. apply Rmult_le_compat_l; [lra|].
    eapply Rle_trans; [apply Rabs_triang|]. unfold S. lra. }
  assert (T : Rabs (eC - eD + (eA - eB) - x3) <=
     (k + u * (1 + u) + u * (1 + u) ^ 2) * S).
  { replace (eC - eD + (eA - eB) - x3) with
     ((eC - fC) - (eD - fD) + ((eA - fA) - (eB - fB)) - (x1 - (fC - fD)) - (x2 - (fA - fB))
       - (x3 - (x1 + x2))) by ring.
    assert (L1 : u * Rabs x1 <= u * ((1 + u) * (pC + pD))) by (apply Rmult_le_compat_l; lra).
    assert (L2 : u * Rabs x2 <= u * ((1 + u) * (pA + pB))) by (apply Rmult_le_compat_l; lra).
    assert (L3 : u * Rabs x3 <= u * ((1 + u) * ((1 + u) * S))) by (apply Rmult_le_compat_l; lra).
    apply Rabs_le_inv in A1, B1, C1, D1, R1, R2, R3.
    unfold S in *. apply Rabs_le; split; lra. }
  unfold Kfinal. fold k. rewrite Rmult_assoc.
  eapply Rle_trans; [exact T|]. apply Rmult_le_compat_l; auto.
  assert (0 <= u * (1 + u)) by (apply Rmult_le_pos; lra).
  assert (0 <= u * (1 + u) ^ 2) by (apply Rmult_le_pos; [lra|apply pow_le; lra]). lra.
Qed.

Lemma Kfinal_ok : (1 + u) ^ 2 * Kfinal <= Q2R isperrboundAQ.
Proof.
  let q := eval vm_compute in isperrboundAQ in change isperrboundAQ with q.
  unfold Kfinal, u53, Q2R. cbn [Qnum Qden]. lra.
Qed.

(** The result's sign is the sign of the exact determinant. *)
Lemma inSphere_sign_rounded a b c d e :
  let r := inSphere (A:=FX) (rx a) (ry a) (rz a) (rx b) (ry b) (rz b)
     (rx c) (ry c) (rz c) (rx d) (ry d) (rz d) (rx e) (ry e) (rz e) in
  (0 < r -> 0 < insphere_poly a b c d e) /\ (r < 0 -> insphere_poly a b c d e < 0).
Proof.
  cbv zeta.
  set (aex := rnd (rx a - rx e)). set (bex := rnd (rx b - rx e)).
  set (cex := rnd (rx c - rx e)). set (dex := rnd (rx d - rx e)).
  set (aey := rnd (ry a - ry e)). set (bey := rnd (ry b - ry e)).
  set (cey := rnd (ry c - ry e)). set (dey := rnd (ry d - ry e)).
  set (aez := rnd (rz a - rz e)). set (bez := rnd (rz b - rz e)).
  set (cez := rnd (rz c - rz e)). set (dez := rnd (rz d - rz e)).
  assert (Aaex : approx 1 (rx a - rx e) aex (Rabs aex)) by apply approx_diff.
  assert (Abex : approx 1 (rx b - rx e) bex (Rabs bex)) by apply approx_diff.
  assert (Acex : approx 1 (rx c - rx e) cex (Rabs cex)) by apply approx_diff.
  assert (Adex : approx 1 (rx d - rx e) dex (Rabs dex)) by apply approx_diff.
  assert (Aaey : approx 1 (ry a - ry e) aey (Rabs aey)) by apply approx_diff.
  assert (Abey : approx 1 (ry b - ry e) bey (Rabs bey)) by apply approx_diff.
  assert (Acey : approx 1 (ry c - ry e) cey (Rabs cey)) by apply approx_diff.
  assert (Adey : approx 1 (ry d - ry e) dey (Rabs dey)) by apply approx_diff.
  assert (Aaez : approx 1 (rz a - rz e) aez (Rabs aez)) by apply approx_diff.
  assert (Abez : approx 1 (rz b - rz e) bez (Rabs bez)) by apply approx_diff.
  assert (Acez : approx 1 (rz c - rz e) cez (Rabs cez)) by apply approx_diff.
  assert (Adez : approx 1 (rz d - rz e) dez (Rabs dez)) by apply approx_diff.
  pose proof (approx_minor _ _ _ _ _ _ _ _ Aaex Abey Abex Aaey) as Mab.
  pose proof (approx_minor _ _ _ _ _ _ _ _ Abex Acey Acex Abey) as Mbc.
  pose proof (approx_minor _ _ _ _ _ _ _ _ Acex Adey Adex Acey) as Mcd.
  pose proof (approx_minor _ _ _ _ _ _ _ _ Adex Aaey Aaex Adey) as Mda.
  pose proof (approx_minor _ _ _ _ _ _ _ _ Aaex Acey Acex Aaey) as Mac.
  pose proof (approx_minor _ _ _ _ _ _ _ _ Abex Adey Adex Abey) as Mbd.
  pose proof (approx_sum3' _ _ _ _ _ _ _ _ _ (approx_zminor _ _ _ _ _ Aaez Mbc)
    (approx_zminor _ _ _ _ _ Abez Mac) (approx_zminor _ _ _ _ _ Acez Mab)) as Tabc.
  pose proof (approx_sum3' _ _ _ _ _ _ _ _ _ (approx_zminor _ _ _ _ _ Abez Mcd)
    (approx_zminor _ _ _ _ _ Acez Mbd) (approx_zminor _ _ _ _ _ Adez Mbc)) as Tbcd.
  pose proof (approx_sum3 _ _ _ _ _ _ _ _ _ (approx_zminor _ _ _ _ _ Acez Mda)
    (approx_zminor _ _ _ _ _ Adez Mac) (approx_zminor _ _ _ _ _ Aaez Mcd)) as Tcda.
  pose proof (approx_sum3 _ _ _ _ _ _ _ _ _ (approx_zminor _ _ _ _ _ Adez Mab)
    (approx_zminor _ _ _ _ _ Aaez Mbd) (approx_zminor _ _ _ _ _ Abez Mda)) as Tdab.
  pose proof (approx_lift _ _ _ _ _ _ Aaex Aaey Aaez) as La.
  pose proof (approx_lift _ _ _ _ _ _ Abex Abey Abez) as Lb.
  pose proof (approx_lift _ _ _ _ _ _ Acex Acey Acez) as Lc.
  pose proof (approx_lift _ _ _ _ _ _ Adex Adey Adez) as Ld.
  pose proof (approx_final _ _ _ _ _ _ _ _ _ _ _ _
    (approx_term _ _ _ _ _ La Tbcd) (approx_term _ _ _ _ _ Lb Tcda)
    (approx_term _ _ _ _ _ Lc Tdab) (approx_term _ _ _ _ _ Ld Tabc)) as Fin.
  clear Mab Mbc Mcd Mda Mac Mbd Tabc Tbcd Tcda Tdab La Lb Lc Ld
    Aaex Abex Acex Adex Aaey Abey Acey Adey Aaez Abez Acez Adez.
  unfold inSphere. cbv zeta.
  cbn [FX F fadd fsub fmul fabs fneg flt fofQ inSphereAdapt].
  fold aex bex cex dex aey bey cey dey aez bez cez dez.
  rewrite (Rplus_comm (Rabs (rnd (dex * bey))) (Rabs (rnd (bex * dey)))).
  rewrite (Rplus_comm (Rabs (rnd (cex * aey))) (Rabs (rnd (aex * cey)))).
  match type of Fin with Rabs (?ex - ?dt) <= _ * ?pm =>
    set (E := ex) in *; set (det := dt) in *; set (perm := pm) in * end.
  change (insphere_poly a b c d e) with E.
  assert (Hperm : 0 <= perm).
  { (* from the bound itself the permanent is nonnegative when Kfinal > 0 *)
    assert (0 <= Kfinal * perm) by (eapply Rle_trans; [apply Rabs_pos|exact Fin]).
    assert (0 < Kfinal).
    { unfold Kfinal. pose proof u_pos. pose proof (pow1u_ge1 14).
      apply Rmult_lt_0_compat; [|apply pow_lt; lra].
      assert (0 < u * (1 + u)) by (apply Rmult_lt_0_compat; lra).
      assert (0 < u * (1 + u) ^ 2) by (apply Rmult_lt_0_compat; [lra|apply pow_lt; lra]). lra. }
    apply Rmult_le_reg_l with Kfinal; lra. }
  set (errb := rnd (cst isperrboundAQ * perm)).
  assert (Hc : (1 + u) * Kfinal <= cst isperrboundAQ).
  { pose proof u_pos. apply Rmult_le_reg_l with (1 + u); [lra|].
    eapply Rle_trans; [|exact cst_bound]. eapply Rle_trans; [|exact Kfinal_ok]. right; ring. }
  assert (Kp : 0 <= Kfinal * perm) by (eapply Rle_trans; [apply Rabs_pos|exact Fin]).
  assert (HK : Kfinal * perm <= errb).
  { pose proof u_pos. apply Rmult_le_reg_l with (1 + u); [lra|].
    apply Rle_trans with (cst isperrboundAQ * perm).
    - rewrite <- Rmult_assoc. apply Rmult_le_compat_r; auto.
    - apply rnd_upper. eapply Rle_trans with ((1 + u) * Kfinal * perm).
      + rewrite Rmult_assoc. apply Rmult_le_pos; lra.
      + apply Rmult_le_compat_r; auto. }
  apply Rabs_le_inv in Fin.
  match goal with |- context [if ?b then _ else _] => change b with (Rltb errb det || Rltb errb (- det))%bool end.
  rewrite cst_zero.
  destruct (Rltb_spec errb det), (Rltb_spec errb (- det)); simpl; split; intros; lra.
Qed.
End Err.
