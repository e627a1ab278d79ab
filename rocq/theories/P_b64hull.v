(** ConvexHull in binary64 on grid points k * 2^e with |k| <= 2^24: every test it makes is exact. *)
From Coq Require Import ZArith Lia List Bool Reals Lra QArith Permutation Sorted.
From Flocq Require Import Core BinarySingleNaN.
From Verif Require Import Base Arith M_r3 M_tri2 Spec_r3 Spec_plane XRvec P_tri2 P_hull
  P_insphere_err P_insphere_b64 P_b64sc P_b64grid.
Import ListNotations.
Open Scope Z_scope.

(** ** the run follows the exact one as long as the tests agree *)
Section Sim.
Variable P : vec B64 -> Prop.
Hypothesis Hcross : forall a b c, P a -> P b -> P c ->
  testU a b c = Rltb (-1 * ccw (rvec a) (rvec b) (rvec c)) 0 /\ testL a b c = Rltb (1 * ccw (rvec a) (rvec b) (rvec c)) 0.
Hypothesis Hnear : forall a b, P a -> P b -> flt B64 (SquaredDistance a b) eps = Rltb (rdist2 (rvec a) (rvec b)) epsR.
Hypothesis Hless : forall a b, P a -> P b -> lessXY a b = lessXY (fv (rvec a)) (fv (rvec b)).
Definition allP (l : list (vec B64)) : Prop := forall v, In v l -> P v.
Notation vals := (map rvec).

Lemma popWhile_allP (test : vec B64 -> vec B64 -> vec B64 -> bool) p st : allP st -> allP (popWhile test p st).
Proof.
  induction st as [|b [|a st] IH]; intros H; cbn [popWhile]; auto.
  destruct (test a b p); auto. apply IH. intros v Hv. apply H. right; auto.
Qed.
Lemma popU_sim p st : P p -> allP st -> vals (popWhile testU p st) = popR (-1) (rvec p) (vals st).
Proof.
  intros Hp. induction st as [|b [|a st] IH]; intros H; [reflexivity..|].
  cbn [map popWhile popR] in *. rewrite (proj1 (Hcross a b p (H a ltac:(simpl; auto)) (H b ltac:(simpl; auto)) Hp)).
  destruct (Rltb _ 0); [|reflexivity]. apply IH. intros v Hv. apply H. right; auto.
Qed.
Lemma popL_sim p st : P p -> allP st -> vals (popWhile testL p st) = popR 1 (rvec p) (vals st).
Proof.
  intros Hp. induction st as [|b [|a st] IH]; intros H; [reflexivity..|].
  cbn [map popWhile popR] in *. rewrite (proj2 (Hcross a b p (H a ltac:(simpl; auto)) (H b ltac:(simpl; auto)) Hp)).
  destruct (Rltb _ 0); [|reflexivity]. apply IH. intros v Hv. apply H. right; auto.
Qed.
Lemma fold_sim l : forall U L, allP l -> allP U -> allP L ->
  let s := fold_left hullStep l (U, L) in
  fold_left hullStepR (vals l) (vals U, vals L) = (vals (fst s), vals (snd s)).
Proof.
  induction l as [|p l IH]; intros U L Hl HU HL; [reflexivity|].
  cbn [map fold_left hullStep hullStepR]. assert (Hp : P p) by (apply Hl; left; auto).
  rewrite <- popU_sim, <- popL_sim by auto.
  apply (IH (p :: popWhile testU p U) (p :: popWhile testL p L)).
  - intros v Hv. apply Hl. right; auto.
  - intros v [<-|Hv]; auto. revert v Hv. apply popWhile_allP; auto.
  - intros v [<-|Hv]; auto. revert v Hv. apply popWhile_allP; auto.
Qed.
Lemma far_sim l : forall prev, allP l -> (forall q, prev = Some q -> P q) ->
  vals (farPrev prev l) = farR (option_map rvec prev) (vals l) /\ incl (farPrev prev l) l.
Proof.
  induction l as [|p l IH]; intros prev Hl Hq; [split; [reflexivity|intros x []]|].
  assert (Hp : P p) by (apply Hl; left; auto).
  destruct (IH (Some p)) as [E I].
  { intros v Hv; apply Hl; right; auto. } { intros q [= <-]; auto. }
  cbn [map farPrev farR]. cbn [option_map] in E.
  assert (G : match prev with Some q => flt B64 (SquaredDistance p q) eps | None => false end =
              match option_map rvec prev with Some q => Rltb (rdist2 (rvec p) q) epsR | None => false end).
  { destruct prev as [q|]; [|reflexivity]. cbn [option_map]. apply Hnear; auto. }
  rewrite <- G. destruct (match prev with Some q => _ | None => _ end).
  - split; [exact E|]. intros x Hx. right. auto.
  - cbn [map]. rewrite E. split; [reflexivity|]. intros x [<-|Hx]; [left; auto|right; auto].
Qed.
Lemma popWhile_incl (test : vec B64 -> vec B64 -> vec B64 -> bool) p st : incl (popWhile test p st) st.
Proof.
  induction st as [|b [|a st] IH]; cbn [popWhile]; try apply incl_refl.
  destruct (test a b p); [|apply incl_refl]. apply incl_tl. apply IH.
Qed.
Lemma fold_incl (l : list (vec B64)) : forall U L X, incl l X -> incl U X -> incl L X ->
  let s := fold_left hullStep l (U, L) in incl (fst s) X /\ incl (snd s) X.
Proof.
  induction l as [|p l IH]; intros U L X Hl HU HL; [split; auto|].
  cbn [fold_left hullStep]. apply IH.
  - intros v Hv; apply Hl; right; auto.
  - intros v [<-|Hv]; [apply Hl; left; auto|]. apply HU. eapply popWhile_incl; eauto.
  - intros v [<-|Hv]; [apply Hl; left; auto|]. apply HL. eapply popWhile_incl; eauto.
Qed.
Lemma hull_sim srt vs : allP vs -> sorts lessXY vs (srt vs) -> exists h ss,
  ConvexHull srt vs = Ok h /\ incl h vs /\
  vals h = hullR (farR None ss) /\ sorts lessXY (map fv (vals vs)) (map fv ss).
Proof.
  intros Hv [Hp Hs]. assert (Hss : allP (srt vs)) by (intros v H; apply Hv; eapply Permutation_in; [apply Permutation_sym, Hp|auto]).
  rewrite ConvexHull_unfold. destruct (far_sim (srt vs) None Hss ltac:(discriminate)) as [Ef If].
  pose proof (fold_sim (farPrev None (srt vs)) [] [] ltac:(intros v H; apply Hss, If, H) ltac:(intros v []) ltac:(intros v [])) as F.
  pose proof (fold_incl (farPrev None (srt vs)) [] [] (srt vs) If ltac:(intros v []) ltac:(intros v [])) as [IU IL].
  cbv zeta in F, IU, IL. destruct (fold_left hullStep (farPrev None (srt vs)) ([], [])) as [U L] eqn:EUL. cbn [fst snd] in F, IU, IL.
  exists (rev (tl L) ++ removelast U), (vals (srt vs)). split; [reflexivity|]. split; [|split].
  - intros v Hi. apply (Permutation_in v (Permutation_sym Hp)). apply in_app_iff in Hi. destruct Hi as [Hi|Hi].
    + apply IL. rewrite <- in_rev in Hi. destruct L; [destruct Hi|right; auto].
    + apply IU. clear -Hi. induction U as [|a [|b U] IH]; [destruct Hi|destruct Hi|]. destruct Hi as [<-|Hi]; [left; auto|right; apply IH; auto].
  - cbn [option_map] in Ef. rewrite <- Ef. unfold hullR. change (@nil rv) with (vals []). rewrite F. rewrite map_app, map_rev. f_equal.
    + destruct L; reflexivity.
    + clear. induction U as [|a [|b U] IH]; [reflexivity..|]. simpl in *. rewrite IH. reflexivity.
  - split; [apply Permutation_map, Permutation_map; auto|].
    clear -Hs Hss Hless. induction Hs as [|a l H IH F]; [constructor|]. cbn [map]. constructor.
    + apply IH. intros v Hv. apply Hss. right; auto.
    + rewrite Forall_forall in *. intros y Hy. apply in_map_iff in Hy. destruct Hy as (y' & <- & Hy). apply in_map_iff in Hy. destruct Hy as (z & <- & Hz).
      rewrite <- Hless; [apply F; auto| |]; apply Hss; [right; auto|left; auto].
Qed.
End Sim.

(** ** grid points *)
Definition on_grid24 (e : Z) (v : vec B64) : Prop :=
  exists X Y Z, si (vx v) e X 16777216 /\ si (vy v) e Y 16777216 /\ si (vz v) e Z 16777216.
Section Grid.
Variable e : Z.
Hypothesis He : -300 <= e <= 300.
Notation G := (on_grid24 e).
Ltac okx := unfold okexp; lia.
Lemma h_sub x k y l : si x e k 16777216 -> si y e l 16777216 -> si (fsub B64 x y) e (k - l) 33554432.
Proof. intros. apply (si_sub _ _ _ _ _ 16777216 16777216); auto; okx. Qed.
Lemma h_mul x k y l : si x e k 33554432 -> si y e l 33554432 -> si (fmul B64 x y) (2 * e) (k * l) 1125899906842624.
Proof. intros. apply (si_mulE _ _ _ _ e e _ 33554432 33554432); auto; okx. Qed.
Lemma rvec_si (v : vec B64) X Y Z : si (vx v) e X 16777216 -> si (vy v) e Y 16777216 -> si (vz v) e Z 16777216 ->
  rvec v = RV (bp e * IZR X) (bp e * IZR Y) (bp e * IZR Z).
Proof. intros [[_ H1] _] [[_ H2] _] [[_ H3] _]. unfold rvec. rewrite H1, H2, H3. reflexivity. Qed.
Lemma bpe2 : (bp (2 * e) = bp e * bp e)%R. Proof. rewrite <- bpow_plus. f_equal. lia. Qed.
Lemma bpe2_pos : (0 < bp e * bp e)%R. Proof. rewrite <- bpe2. apply bpow_gt_0. Qed.
Lemma sgn_lt c k : (0 < c)%R -> Rltb (c * IZR k) 0 = Rltb (IZR k) 0.
Proof.
  intros Hc. destruct (Rltb_spec (IZR k) 0) as [L|L].
  - apply Rltb_true. replace 0%R with (c * 0)%R by ring. apply Rmult_lt_compat_l; auto.
  - apply Rltb_false. apply Rmult_le_pos; lra.
Qed.
Lemma grid_cross a b c : G a -> G b -> G c ->
  testU a b c = Rltb (-1 * ccw (rvec a) (rvec b) (rvec c)) 0 /\ testL a b c = Rltb (1 * ccw (rvec a) (rvec b) (rvec c)) 0.
Proof.
  intros (xa & ya & za & A1 & A2 & A3) (xb & yb & zb & B1 & B2 & B3) (xc & yc & zc & C1 & C2 & C3).
  assert (S : si (cross2D a b c) (2 * e) ((xb - xa) * (yc - ya) - (yb - ya) * (xc - xa)) 2251799813685248).
  { unfold cross2D. apply (si_sub _ _ _ _ _ 1125899906842624 1125899906842624); try okx; apply h_mul; apply h_sub; auto. }
  rewrite (rvec_si a xa ya za), (rvec_si b xb yb zb), (rvec_si c xc yc zc) by auto.
  set (k := (xb - xa) * (yc - ya) - (yb - ya) * (xc - xa)) in *.
  assert (E : ccw (RV (bp e * IZR xa) (bp e * IZR ya) (bp e * IZR za)) (RV (bp e * IZR xb) (bp e * IZR yb) (bp e * IZR zb))
     (RV (bp e * IZR xc) (bp e * IZR yc) (bp e * IZR zc)) = (bp e * bp e * IZR k)%R).
  { unfold ccw, k; cbn [rx ry]. rewrite minus_IZR, !mult_IZR, !minus_IZR. ring. }
  rewrite E. pose proof bpe2_pos as BP. unfold testU, testL.
  rewrite (sr_lt _ _ _ _ _ (sr_zero (2 * e)) (si_sr _ _ _ _ S)), (sr_lt _ _ _ _ _ (si_sr _ _ _ _ S) (sr_zero (2 * e))). split.
  - replace (-1 * (bp e * bp e * IZR k))%R with (bp e * bp e * IZR (- k))%R by (rewrite opp_IZR; ring). rewrite sgn_lt by auto.
    rewrite opp_IZR. destruct (Rltb_spec 0 (IZR k)), (Rltb_spec (- IZR k) 0); auto; lra.
  - rewrite Rmult_1_l, sgn_lt; auto.
Qed.
Lemma eps_b64 : is_finite (@eps B64 : b64) = true /\ B2R (@eps B64 : b64) = epsR.
Proof.
  split; [reflexivity|]. unfold epsR. unfold eps. cbn. unfold Defs.F2R. cbn. lra.
Qed.
Lemma grid_near a b : G a -> G b -> flt B64 (SquaredDistance a b) eps = Rltb (rdist2 (rvec a) (rvec b)) epsR.
Proof.
  intros (xa & ya & za & A1 & A2 & A3) (xb & yb & zb & B1 & B2 & B3).
  assert (S : si (SquaredDistance a b) (2 * e) ((xa - xb) * (xa - xb) + (ya - yb) * (ya - yb) + (za - zb) * (za - zb)) 3377699720527872).
  { unfold SquaredDistance, Norm2, Dot, Sub. cbn [vx vy vz]. apply (si_add _ _ _ _ _ 2251799813685248 1125899906842624); try okx.
    - apply (si_add _ _ _ _ _ 1125899906842624 1125899906842624); try okx; apply h_mul; apply h_sub; auto.
    - apply h_mul; apply h_sub; auto. }
  rewrite (rvec_si a xa ya za), (rvec_si b xb yb zb) by auto.
  destruct S as [[F E] _]. destruct eps_b64 as [F2 E2]. cbn [flt B64]. rewrite Bltb_correct by auto. rewrite E, E2, bpe2.
  unfold rdist2, rdot, rsub; cbn [rx ry rz].
  match goal with |- Rlt_bool ?x _ = Rltb ?y _ => assert (x = y) as -> by (rewrite !plus_IZR, !mult_IZR, !minus_IZR; ring) end.
  match goal with |- Rlt_bool ?x _ = Rltb ?y _ => destruct (Rltb_spec y epsR); [apply Rlt_bool_true|apply Rlt_bool_false]; auto end.
Qed.
Lemma fin_eq (x y : b64) : is_finite x = true -> is_finite y = true -> feq B64 x y = Reqb (B2R x) (B2R y).
Proof. intros. cbn [feq B64]. rewrite Beqb_correct by auto. destruct (Reqb_spec (B2R x) (B2R y)); [apply Req_bool_true|apply Req_bool_false]; auto. Qed.
Lemma fin_lt (x y : b64) : is_finite x = true -> is_finite y = true -> flt B64 x y = Rltb (B2R x) (B2R y).
Proof. intros. cbn [flt B64]. rewrite Bltb_correct by auto. destruct (Rltb_spec (B2R x) (B2R y)); [apply Rlt_bool_true|apply Rlt_bool_false]; auto. Qed.
Lemma grid_less a b : G a -> G b -> lessXY a b = lessXY (fv (rvec a)) (fv (rvec b)).
Proof.
  intros (xa & ya & za & [[A1 _] _] & [[A2 _] _] & _) (xb & yb & zb & [[B1 _] _] & [[B2 _] _] & _).
  unfold lessXY. rewrite fin_eq, !fin_lt by auto. reflexivity.
Qed.
Lemma hull_grid srt vs : (forall v, In v vs -> G v) -> sorts lessXY vs (srt vs) -> exists h ss,
  ConvexHull srt vs = Ok h /\ incl h vs /\
  map rvec h = hullR (farR None ss) /\ sorts lessXY (map fv (map rvec vs)) (map fv ss).
Proof. exact (hull_sim G grid_cross grid_near grid_less srt vs). Qed.
(** the exact run on the values, with the sort that makes the same choices *)
Lemma hull_grid_exact srt vs : (forall v, In v vs -> G v) -> sorts lessXY vs (srt vs) -> exists h srtX,
  ConvexHull srt vs = Ok h /\ incl h vs /\ sorts lessXY (map fv (map rvec vs)) (srtX (map fv (map rvec vs))) /\
  ConvexHull srtX (map fv (map rvec vs)) = Ok (map fv (map rvec h)).
Proof.
  intros Hv Hs. destruct (hull_grid srt vs Hv Hs) as (h & ss & E & I & Eh & So).
  exists h, (fun _ => map fv ss). split; [auto|]. split; [auto|]. split; [auto|]. rewrite Eh. apply ConvexHull_fv. reflexivity.
Qed.
End Grid.
