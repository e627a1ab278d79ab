(** inSphere in IEEE binary64: link between the B64 run and the rounded reals
    of P_insphere_err, for coordinates that cannot overflow or underflow. *)
From Coq Require Import Reals Lra Lia ZArith QArith Qreals Bool.
From Flocq Require Import Core Relative BinarySingleNaN.
From Verif Require Import Base Arith M_r3 M_predicates Spec_r3 Spec_sphere XRvec P_r3 P_predicates P_insphere_err.
Open Scope R_scope.

Definition rndX : R -> R := round radix2 (FLX_exp 53) ZnearestE.
Definition cstX (q : Q) : R := B2R (b64_of_Q q).

Local Instance prec53 : Prec_gt_0 53 := eq_refl.

Lemma u53_bpow : / 2 * bpow radix2 (- (53) + 1) = u53.
Proof. unfold u53. simpl. lra. Qed.
Lemma rndX_err x : Rabs (rndX x - x) <= u53 * Rabs (rndX x).
Proof. rewrite <- u53_bpow. apply relative_error_N_FLX_round. reflexivity. Qed.
Lemma rndX_err' x : Rabs (rndX x - x) <= u53 * Rabs x.
Proof. rewrite <- u53_bpow. apply relative_error_N_FLX. reflexivity. Qed.
Lemma rndX_mono x y : x <= y -> rndX x <= rndX y.
Proof. apply round_le; typeclasses eauto. Qed.
Lemma rndX_opp x : rndX (- x) = - rndX x.
Proof. apply round_NE_opp. Qed.

Definition isperrB : b64 := b64_of_Q isperrboundAQ.
Lemma isperrB_sf : B2SF isperrB = SpecFloat.S754_finite false 4503599627370503 (-101).
Proof. vm_compute. reflexivity. Qed.
Lemma isperrB_R : B2R isperrB = IZR 4503599627370503 * bpow radix2 (-101).
Proof.
  rewrite <- SF2R_B2SF, isperrB_sf. reflexivity.
Qed.
Lemma cstX_bound : Q2R isperrboundAQ <= (1 + u53) * cstX isperrboundAQ.
Proof.
  unfold cstX. fold isperrB. rewrite isperrB_R.
  let q := eval vm_compute in isperrboundAQ in change isperrboundAQ with q.
  unfold u53, Q2R. cbn [Qnum Qden]. unfold bpow. 
  let z := eval vm_compute in (Z.pow_pos radix2 101) in change (Z.pow_pos radix2 101) with z.
  lra.
Qed.
Lemma cstX_zero : cstX 0 = 0.
Proof. reflexivity. Qed.

(** [rel x r m M]: the float [x] is finite, has value [r], a multiple of 2^-m, at most 2^M *)
Definition fixm (m : Z) (r : R) : Prop := exists k, r = IZR k * bpow radix2 (- m).
Definition rel (x : b64) (r : R) (m M : Z) : Prop :=
  is_finite x = true /\ B2R x = r /\ fixm m r /\ Rabs r <= bpow radix2 M.

Lemma fixm_generic m r : fixm m r <-> generic_format radix2 (FIX_exp (- m)) r.
Proof.
  split.
  - intros [k ->]. apply generic_format_FIX.
    exists (Float radix2 k (- m)); reflexivity.
  - intros H. apply FIX_format_generic in H. destruct H as [[k e] E1 E2]. simpl in E2. subst e.
    exists k. exact E1.
Qed.
Lemma fixm_round m r : fixm m r -> fixm m (rndX r).
Proof.
  rewrite !fixm_generic. intros H. apply generic_round_generic; auto; typeclasses eauto.
Qed.
Lemma fixm_add m r s : fixm m r -> fixm m s -> fixm m (r + s).
Proof. intros [k ->] [l ->]. exists (k + l)%Z. rewrite plus_IZR. ring. Qed.
Lemma fixm_opp m r : fixm m r -> fixm m (- r).
Proof. intros [k ->]. exists (- k)%Z. rewrite opp_IZR. ring. Qed.
Lemma fixm_mul m n r s : fixm m r -> fixm n s -> fixm (m + n) (r * s).
Proof.
  intros [k ->] [l ->]. exists (k * l)%Z. rewrite mult_IZR.
  replace (- (m + n))%Z with (- m + - n)%Z by lia. rewrite bpow_plus. ring.
Qed.

Notation rndF := (round radix2 (SpecFloat.fexp 53 1024) (round_mode mode_NE)).

Lemma rndF_rndX m r : (m <= 1022)%Z -> fixm m r -> rndF r = rndX r.
Proof.
  intros Hm [k ->]. destruct (Z.eq_dec k 0) as [->|Hk].
  - rewrite Rmult_0_l. unfold rndX. rewrite !round_0; auto; typeclasses eauto.
  - unfold rndX. simpl round_mode. rewrite <- round_FLT_FLX with (emin := (-1074)%Z); [reflexivity|].
    rewrite Rabs_mult, (Rabs_pos_eq (bpow _ _)) by apply bpow_ge_0.
    apply Rle_trans with (1 * bpow radix2 (- m)).
    + rewrite Rmult_1_l. apply bpow_le. lia.
    + apply Rmult_le_compat_r; [apply bpow_ge_0|]. rewrite <- abs_IZR. apply IZR_le. lia.
Qed.
Lemma rndX_bound r M : Rabs r <= bpow radix2 M -> Rabs (rndX r) <= bpow radix2 M.
Proof.
  intros H. apply abs_round_le_generic; auto; try typeclasses eauto.
  apply generic_format_FLX. exists (Float radix2 1 M).
  - unfold F2R; simpl. ring.
  - simpl. lia.
Qed.

Lemma rel_round x r m M :
  (m <= 1022)%Z -> (M < 1024)%Z -> fixm m r -> Rabs r <= bpow radix2 M ->
  (Rlt_bool (Rabs (rndF r)) (bpow radix2 1024) = true ->
     B2R x = rndF r /\ is_finite x = true) ->
  rel x (rndX r) m M.
Proof.
  intros Hm HM Hf Hb H.
  rewrite (rndF_rndX m r Hm Hf) in H.
  assert (Hb' : Rabs (rndX r) <= bpow radix2 M) by (apply rndX_bound; auto).
  destruct H as [E1 E2].
  - apply Rlt_bool_true. eapply Rle_lt_trans; [exact Hb'|]. apply bpow_lt; auto.
  - repeat split; auto. apply fixm_round; auto.
Qed.

Lemma bpow_add1 M : bpow radix2 (M + 1) = 2 * bpow radix2 M.
Proof. rewrite bpow_plus. change (bpow radix2 1) with 2. ring. Qed.

Lemma rel_add x r y s m M :
  (m <= 1022)%Z -> (M + 1 < 1024)%Z -> rel x r m M -> rel y s m M ->
  rel (fadd B64 x y) (rndX (r + s)) m (M + 1).
Proof.
  intros Hm HM (Fx & <- & Gx & Bx) (Fy & <- & Gy & By).
  apply rel_round; auto.
  - apply fixm_add; auto.
  - rewrite bpow_add1. eapply Rle_trans; [apply Rabs_triang|]. lra.
  - intros H. pose proof (Bplus_correct 53 1024 b64_prec b64_pe mode_NE x y Fx Fy) as C.
    rewrite H in C. tauto.
Qed.
Lemma rel_sub x r y s m M :
  (m <= 1022)%Z -> (M + 1 < 1024)%Z -> rel x r m M -> rel y s m M ->
  rel (fsub B64 x y) (rndX (r - s)) m (M + 1).
Proof.
  intros Hm HM (Fx & <- & Gx & Bx) (Fy & <- & Gy & By).
  apply rel_round; auto.
  - apply fixm_add; auto. apply fixm_opp; auto.
  - rewrite bpow_add1. eapply Rle_trans; [apply Rabs_triang|]. rewrite Rabs_Ropp. lra.
  - intros H. pose proof (Bminus_correct 53 1024 b64_prec b64_pe mode_NE x y Fx Fy) as C.
    rewrite H in C. tauto.
Qed.
Lemma rel_mul x r y s m M n N :
  (m + n <= 1022)%Z -> (M + N < 1024)%Z -> rel x r m M -> rel y s n N ->
  rel (fmul B64 x y) (rndX (r * s)) (m + n) (M + N).
Proof.
  intros Hm HM (Fx & <- & Gx & Bx) (Fy & <- & Gy & By).
  apply rel_round; auto.
  - apply fixm_mul; auto.
  - rewrite bpow_plus, Rabs_mult. apply Rmult_le_compat; auto using Rabs_pos.
  - intros H. pose proof (Bmult_correct 53 1024 b64_prec b64_pe mode_NE x y) as C.
    rewrite H in C. destruct C as (C1 & C2 & _). rewrite Fx, Fy in C2. auto.
Qed.
Lemma rel_abs x r m M : rel x r m M -> rel (fabs B64 x) (Rabs r) m M.
Proof.
  intros (Fx & <- & Gx & Bx). unfold rel. cbn [fabs B64].
  rewrite is_finite_Babs, B2R_Babs, Rabs_Rabsolu. repeat split; auto.
  unfold Rabs. destruct Rcase_abs; auto. apply fixm_opp; auto.
Qed.
Lemma rel_neg x r m M : rel x r m M -> rel (fneg B64 x) (- r) m M.
Proof.
  intros (Fx & <- & Gx & Bx). unfold rel. cbn [fneg B64].
  rewrite is_finite_Bopp, B2R_Bopp, Rabs_Ropp. repeat split; auto.
  apply fixm_opp; auto.
Qed.
Lemma rel_weaken x r m M N : (M <= N)%Z -> rel x r m M -> rel x r m N.
Proof.
  intros H (Fx & E & Gx & Bx). repeat split; auto.
  eapply Rle_trans; [exact Bx|]. apply bpow_le; auto.
Qed.
Lemma rel_lt x r m M y s n N : rel x r m M -> rel y s n N -> flt B64 x y = Rltb r s.
Proof.
  intros (Fx & <- & _) (Fy & <- & _). cbn [flt B64]. rewrite Bltb_correct by auto.
  unfold Rltb. destruct (Rlt_dec (B2R x) (B2R y)).
  - apply Rlt_bool_true; auto.
  - apply Rlt_bool_false; lra.
Qed.

(** structured pieces with concrete exponents *)
Notation cM := 180%Z.
Notation crd x r := (rel x r 180 200).
Lemma rel_diff x r y s : crd x r -> crd y s -> rel (fsub B64 x y) (rndX (r - s)) 180 201.
Proof. apply (rel_sub _ _ _ _ 180 200); lia. Qed.
Lemma rel_prod x r y s :
  rel x r 180 201 -> rel y s 180 201 -> rel (fmul B64 x y) (rndX (r * s)) 360 402.
Proof. apply (rel_mul _ _ _ _ 180 201 180 201); lia. Qed.
Lemma rel_minor x r y s :
  rel x r 360 402 -> rel y s 360 402 -> rel (fsub B64 x y) (rndX (r - s)) 360 403.
Proof. apply (rel_sub _ _ _ _ 360 402); lia. Qed.
Lemma rel_minor' x r y s :
  rel x r 360 402 -> rel y s 360 402 ->
  rel (fadd B64 (fabs B64 x) (fabs B64 y)) (rndX (Rabs r + Rabs s)) 360 403.
Proof. intros. apply (rel_add _ _ _ _ 360 402); try lia; apply rel_abs; auto. Qed.
Lemma rel_zm x r y s :
  rel x r 180 201 -> rel y s 360 403 -> rel (fmul B64 x y) (rndX (r * s)) 540 604.
Proof. apply (rel_mul _ _ _ _ 180 201 360 403); lia. Qed.
Lemma rel_zm' x r y s :
  rel x r 180 201 -> rel y s 360 403 ->
  rel (fmul B64 y (fabs B64 x)) (rndX (s * Rabs r)) 540 604.
Proof. intros. apply (rel_mul _ _ _ _ 360 403 180 201); try lia; auto. apply rel_abs; auto. Qed.
Lemma rel_sum3 x r y s z t :
  rel x r 540 604 -> rel y s 540 604 -> rel z t 540 604 ->
  rel (fadd B64 (fadd B64 x y) z) (rndX (rndX (r + s) + t)) 540 606.
Proof.
  intros. apply (rel_add _ _ _ _ 540 605); try lia.
  - apply (rel_add _ _ _ _ 540 604); auto; lia.
  - apply (rel_weaken _ _ _ 604); auto; lia.
Qed.
Lemma rel_sum3' x r y s z t :
  rel x r 540 604 -> rel y s 540 604 -> rel z t 540 604 ->
  rel (fadd B64 (fsub B64 x y) z) (rndX (rndX (r - s) + t)) 540 606.
Proof.
  intros. apply (rel_add _ _ _ _ 540 605); try lia.
  - apply (rel_sub _ _ _ _ 540 604); auto; lia.
  - apply (rel_weaken _ _ _ 604); auto; lia.
Qed.
Lemma rel_lift x r y s z t :
  rel x r 180 201 -> rel y s 180 201 -> rel z t 180 201 ->
  rel (fadd B64 (fadd B64 (fmul B64 x x) (fmul B64 y y)) (fmul B64 z z))
      (rndX (rndX (rndX (r * r) + rndX (s * s)) + rndX (t * t))) 360 404.
Proof.
  intros. apply (rel_add _ _ _ _ 360 403); try lia.
  - apply (rel_add _ _ _ _ 360 402); try lia; apply rel_prod; auto.
  - apply (rel_weaken _ _ _ 402); [lia|]. apply rel_prod; auto.
Qed.
Lemma rel_term x r y s :
  rel x r 360 404 -> rel y s 540 606 -> rel (fmul B64 x y) (rndX (r * s)) 900 1010.
Proof. apply (rel_mul _ _ _ _ 360 404 540 606); lia. Qed.
Lemma rel_term' x r y s :
  rel x r 360 404 -> rel y s 540 606 -> rel (fmul B64 y x) (rndX (s * r)) 900 1010.
Proof. intros; apply (rel_mul _ _ _ _ 540 606 360 404); auto; lia. Qed.
Lemma rel_det a ra b rb c rc d rd :
  rel a ra 900 1010 -> rel b rb 900 1010 -> rel c rc 900 1010 -> rel d rd 900 1010 ->
  rel (fadd B64 (fsub B64 c d) (fsub B64 a b)) (rndX (rndX (rc - rd) + rndX (ra - rb))) 900 1012.
Proof. intros. apply (rel_add _ _ _ _ 900 1011); try lia; apply (rel_sub _ _ _ _ 900 1010); auto; lia. Qed.
Lemma rel_perm a ra b rb c rc d rd :
  rel a ra 900 1010 -> rel b rb 900 1010 -> rel c rc 900 1010 -> rel d rd 900 1010 ->
  rel (fadd B64 (fadd B64 (fadd B64 a b) c) d) (rndX (rndX (rndX (ra + rb) + rc) + rd)) 900 1013.
Proof.
  intros. apply (rel_add _ _ _ _ 900 1012); try lia.
  - apply (rel_add _ _ _ _ 900 1011); try lia.
    + apply (rel_add _ _ _ _ 900 1010); auto; lia.
    + apply (rel_weaken _ _ _ 1010); auto; lia.
  - apply (rel_weaken _ _ _ 1010); auto; lia.
Qed.
Lemma rel_cst : rel isperrB (cstX isperrboundAQ) 101 0.
Proof.
  split; [|split; [|split]].
  - rewrite <- is_finite_SF_B2SF, isperrB_sf. reflexivity.
  - reflexivity.
  - unfold cstX. fold isperrB. rewrite isperrB_R. eexists; reflexivity.
  - unfold cstX. fold isperrB. rewrite isperrB_R. rewrite Rabs_pos_eq.
    + unfold bpow. 
      let z := eval vm_compute in (Z.pow_pos radix2 101) in change (Z.pow_pos radix2 101) with z. lra.
    + apply Rmult_le_pos; [lra|apply bpow_ge_0].
Qed.
Lemma rel_errb x r : rel x r 900 1013 ->
  rel (fmul B64 isperrB x) (rndX (cstX isperrboundAQ * r)) 1001 1013.
Proof. intros. apply (rel_mul _ _ _ _ 101 0 900 1013); auto; try lia. apply rel_cst. Qed.

Lemma inSphere_b64_sim ax ay az bx by' bz cx cy cz dx dy dz ex ey ez a b c d e :
  crd ax (rx a) -> crd ay (ry a) -> crd az (rz a) ->
  crd bx (rx b) -> crd by' (ry b) -> crd bz (rz b) ->
  crd cx (rx c) -> crd cy (ry c) -> crd cz (rz c) ->
  crd dx (rx d) -> crd dy (ry d) -> crd dz (rz d) ->
  crd ex (rx e) -> crd ey (ry e) -> crd ez (rz e) ->
  rel (inSphere (A:=B64) ax ay az bx by' bz cx cy cz dx dy dz ex ey ez)
      (inSphere (A:=FX rndX cstX) (rx a) (ry a) (rz a) (rx b) (ry b) (rz b)
     (rx c) (ry c) (rz c) (rx d) (ry d) (rz d) (rx e) (ry e) (rz e)) 900 1012.
Proof.
  intros Hax Hay Haz Hbx Hby Hbz Hcx Hcy Hcz Hdx Hdy Hdz Hex Hey Hez.
  pose proof (rel_diff _ _ _ _ Hax Hex) as Aaex. pose proof (rel_diff _ _ _ _ Hbx Hex) as Abex.
  pose proof (rel_diff _ _ _ _ Hcx Hex) as Acex. pose proof (rel_diff _ _ _ _ Hdx Hex) as Adex.
  pose proof (rel_diff _ _ _ _ Hay Hey) as Aaey. pose proof (rel_diff _ _ _ _ Hby Hey) as Abey.
  pose proof (rel_diff _ _ _ _ Hcy Hey) as Acey. pose proof (rel_diff _ _ _ _ Hdy Hey) as Adey.
  pose proof (rel_diff _ _ _ _ Haz Hez) as Aaez. pose proof (rel_diff _ _ _ _ Hbz Hez) as Abez.
  pose proof (rel_diff _ _ _ _ Hcz Hez) as Acez. pose proof (rel_diff _ _ _ _ Hdz Hez) as Adez.
  clear Hax Hay Haz Hbx Hby Hbz Hcx Hcy Hcz Hdx Hdy Hdz Hex Hey Hez.
  unfold inSphere. cbv zeta.
  cbn [FX F fadd fsub fmul fabs fneg flt fofQ inSphereAdapt].
  change (b64_of_Q isperrboundAQ) with isperrB.
  change (@Bminus 53 1024 b64_prec b64_pe mode_NE) with (fsub B64) in *.
  change (@Bmult 53 1024 b64_prec b64_pe mode_NE) with (fmul B64) in *.
  change (@Bplus 53 1024 b64_prec b64_pe mode_NE) with (fadd B64) in *.
  change (@Babs 53 1024) with (fabs B64) in *.
  repeat match goal with H : rel ?x ?r 180 201 |- _ =>
    generalize dependent x; generalize dependent r; intros end.
  match goal with |- rel (if (flt B64 ?eb ?dt || _)%bool then _ else _)
     (if (Rltb ?reb ?rdt || _)%bool then _ else _) _ _ =>
    assert (Hdet : rel dt rdt 900 1012);
    [|assert (Herr : rel eb reb 1001 1013)] end.
  - apply rel_det; apply rel_term; try (apply rel_lift; assumption);
      first [apply rel_sum3 | apply rel_sum3']; apply rel_zm; try assumption;
      apply rel_minor; apply rel_prod; assumption.
  - apply rel_errb. apply rel_perm; apply rel_term'; try (apply rel_lift; assumption);
      apply rel_sum3; apply rel_zm'; try assumption;
      apply rel_minor'; apply rel_prod; assumption.
  - rewrite (rel_lt _ _ _ _ _ _ _ _ Herr Hdet).
    rewrite (rel_lt _ _ _ _ _ _ _ _ Herr (rel_neg _ _ _ _ Hdet)).
    match goal with |- rel (if ?c then _ else _) _ _ _ => destruct c end; [exact Hdet|].
    unfold inSphereAdapt. cbn [fofQ FX B64 fneg].
    repeat split.
    + rewrite cstX_zero, Ropp_0. reflexivity.
    + rewrite cstX_zero, Ropp_0. exists 0%Z. ring.
    + rewrite cstX_zero, Ropp_0, Rabs_R0. apply bpow_ge_0.
Qed.

(** C12 *)
(** a coordinate: finite, an integer multiple of 2^-180, of magnitude at most 2^200 *)
Definition tame (x : b64) : Prop :=
  is_finite x = true /\ (exists k, B2R x = IZR k * bpow radix2 (-180)) /\ Rabs (B2R x) <= bpow radix2 200.
Definition tame_vec (v : vec B64) : Prop := tame (vx v) /\ tame (vy v) /\ tame (vz v).
Definition rvec (v : vec B64) : rv :=
  RV (B2R (vx v : b64)) (B2R (vy v : b64)) (B2R (vz v : b64)).

Lemma inSphere_b64_sign (a b c d e : vec B64) :
  tame_vec a -> tame_vec b -> tame_vec c -> tame_vec d -> tame_vec e ->
  let r : b64 := inSphere (vx a) (vy a) (vz a) (vx b) (vy b) (vz b) (vx c) (vy c) (vz c)
     (vx d) (vy d) (vz d) (vx e) (vy e) (vz e) in
  is_finite r = true /\
  (0 < B2R r -> 0 < insphere_det (rvec a) (rvec b) (rvec c) (rvec d) (rvec e)) /\
  (B2R r < 0 -> insphere_det (rvec a) (rvec b) (rvec c) (rvec d) (rvec e) < 0).
Proof.
  assert (T : forall x, tame x -> crd x (B2R x)).
  { intros x (H1 & H2 & H3). repeat split; auto. }
  intros (Ha1 & Ha2 & Ha3) (Hb1 & Hb2 & Hb3) (Hc1 & Hc2 & Hc3) (Hd1 & Hd2 & Hd3) (He1 & He2 & He3).
  cbv zeta.
  destruct (inSphere_b64_sim _ _ _ _ _ _ _ _ _ _ _ _ _ _ _
     (rvec a) (rvec b) (rvec c) (rvec d) (rvec e)
     (T _ Ha1) (T _ Ha2) (T _ Ha3) (T _ Hb1) (T _ Hb2) (T _ Hb3) (T _ Hc1) (T _ Hc2) (T _ Hc3)
     (T _ Hd1) (T _ Hd2) (T _ Hd3) (T _ He1) (T _ He2) (T _ He3)) as (F1 & F2 & _).
  rewrite F2. split; [exact F1|]. rewrite <- insphere_poly_det.
  apply (inSphere_sign_rounded rndX cstX rndX_err rndX_err' rndX_mono rndX_opp cstX_bound cstX_zero).
Qed.

Lemma inSphere_b64_geometric (a b c d e : vec B64) (o : rv) (r2 : R) :
  tame_vec a -> tame_vec b -> tame_vec c -> tame_vec d -> tame_vec e ->
  circumsphere o r2 (rvec a) (rvec b) (rvec c) (rvec d) ->
  signed_volume (rvec a) (rvec b) (rvec c) (rvec d) < 0 ->
  let r : b64 := inSphere (vx a) (vy a) (vz a) (vx b) (vy b) (vz b) (vx c) (vy c) (vz c)
     (vx d) (vy d) (vz d) (vx e) (vy e) (vz e) in
  (0 < B2R r -> inside_sphere o r2 (rvec e)) /\ (B2R r < 0 -> outside_sphere o r2 (rvec e)).
Proof.
  intros Ha Hb Hc Hd He Hs Hv.
  destruct (inSphere_b64_sign a b c d e Ha Hb Hc Hd He) as (_ & P & N). cbv zeta in *.
  destruct (insphere_sign _ _ _ _ (rvec e) _ _ Hs) as (s & Es & G & _).
  rewrite insphere_fast_det in Es. injection Es as <-.
  destruct (G Hv) as (G1 & _ & G3). split; intros H.
  - apply G1, P, H.
  - apply G3, N, H.
Qed.
