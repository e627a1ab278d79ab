(** Validate in binary64 on grid points: the areas are exact, the perimeters carry a bounded rounding error. *)
From Coq Require Import ZArith Lia List Bool Reals Lra QArith Permutation Sorted.
From Flocq Require Import Core BinarySingleNaN.
From Verif Require Import Base Arith M_r3 M_tri2 Spec_r3 Spec_plane Spec_delaunay XRvec P_tri2 P_polygon P_hull P_validate
  P_insphere_err P_insphere_b64 P_b64sc P_b64hash P_b64err P_b64grid P_b64triang P_b64hull.
Import ListNotations.
Open Scope Z_scope.

Definition fr' (x : b64) (r : R) : Prop := is_finite x = true /\ B2R x = r.

(** ** a tolerance test passes when the values are equal *)
Lemma same_passes (x y tol : b64) r : fr' x r -> fr' y r -> is_finite tol = true -> (0 <= B2R tol)%R ->
  flt B64 tol (fabs B64 (fsub B64 x y)) = false.
Proof.
  intros [Fx Ex] [Fy Ey] Ft Ht.
  pose proof (Bminus_correct 53 1024 b64_prec b64_pe mode_NE x y Fx Fy) as C. rewrite Ex, Ey in C.
  replace (r - r)%R with 0%R in C by ring. rewrite round_0 in C by (simpl; typeclasses eauto). rewrite Rabs_R0, Rlt_bool_true in C by apply bpow_gt_0.
  destruct C as (C1 & C2 & _). change (Bminus mode_NE x y) with (fsub B64 x y) in *. 
  rewrite fin_lt; [|auto|cbn [fabs B64]; rewrite is_finite_Babs; auto]. apply Rltb_false. cbn [fabs B64]. rewrite B2R_Babs, C1, Rabs_R0. auto.
Qed.
(** ... or closer than a representable number below the tolerance *)
Lemma close_passes (x y tol : b64) r s k : fr' x r -> fr' y s -> is_finite tol = true -> (Rabs (r - s) <= bp k)%R -> -1074 <= k < 1024 -> (bp k <= B2R tol)%R ->
  flt B64 tol (fabs B64 (fsub B64 x y)) = false.
Proof.
  intros [Fx Ex] [Fy Ey] Ft Hd Hk Ht.
  pose proof (Bminus_correct 53 1024 b64_prec b64_pe mode_NE x y Fx Fy) as C. rewrite Ex, Ey in C.
  assert (L : (Rabs (rndF (r - s)) <= bp k)%R).
  { assert (Fk : fmt (bp k)) by (apply generic_format_bpow; unfold SpecFloat.fexp, SpecFloat.emin; lia).
    apply Rabs_le_inv in Hd. apply Rabs_le. split; [apply rndF_ge; [apply generic_format_opp; auto|lra]|apply rndF_le; auto; lra]. }
  rewrite Rlt_bool_true in C by (apply Rle_lt_trans with (bp k); [exact L|apply bpow_lt; lia]).
  destruct C as (C1 & C2 & _). change (Bminus mode_NE x y) with (fsub B64 x y) in *.
  rewrite fin_lt; [|auto|cbn [fabs B64]; rewrite is_finite_Babs; auto]. apply Rltb_false. cbn [fabs B64]. rewrite B2R_Babs, C1. lra.
Qed.
Definition tol64 : b64 := fofQ B64 (1 # 1000000000).
Lemma tol64_val : is_finite tol64 = true /\ (bp (-30) <= B2R tol64)%R.
Proof.
  split; [reflexivity|]. unfold tol64. change (bp (-30)) with (/ IZR (2 ^ 30))%R. cbn. unfold Defs.F2R. cbn. lra.
Qed.

Lemma zget_map' {X Y} (f : X -> Y) l i : zget (map f l) i = match zget l i with Ok a => Ok (f a) | Panic => Panic | Diverge => Diverge end.
Proof.
  unfold zget. destruct (i <? 0); [reflexivity|]. rewrite nth_error_map. destruct (nth_error l (Z.to_nat i)); reflexivity.
Qed.
Lemma zget_In' {X} (l : list X) i a : zget l i = Ok a -> In a l.
Proof. unfold zget. destruct (i <? 0); [discriminate|]. destruct (nth_error l (Z.to_nat i)) eqn:E; [|discriminate]. intros [= <-]. eapply nth_error_In; eauto. Qed.

Section Grid.
Variable e zz : Z.
Hypothesis He : -170 <= e <= 170.
Notation G := (gridpt e zz).
Ltac okx := unfold okexp; lia.
Notation be2 := (bp (2 * e)).
Lemma G_rvec v : G v -> exists X Y, si (vx v) e X 128 /\ si (vy v) e Y 128 /\ si (vz v) e zz 128 /\ rvec v = RV (bp e * IZR X) (bp e * IZR Y) (bp e * IZR zz).
Proof.
  intros (X & Y & H1 & H2 & H3). exists X, Y. split; auto. split; auto. split; auto. unfold rvec.
  rewrite (proj2 (proj1 H1)), (proj2 (proj1 H2)), (proj2 (proj1 H3)). reflexivity.
Qed.

(** halving a grid number *)
Lemma si_halve x K : si x (2 * e) K (2 ^ 53) -> fr' (fdiv B64 x (fofZ B64 2)) (be2 * IZR K / 2).
Proof.
  intros [S B].
  assert (T : sr (fofZ B64 2) 0 2) by (split; [reflexivity|]; cbn; unfold Defs.F2R; cbn; lra).
  assert (F : rndX (IZR K / 2) = (IZR K / 2)%R).
  { replace (IZR K / 2)%R with (bp (-1) * IZR K)%R by (change (bp (-1)) with (/ 2)%R; field). rewrite rndX_scale, rndX_IZR; auto. }
  destruct (sr_divE x (IZR K) _ 2 (2 * e) 0 (2 * e) S T) as [F1 F2]; try lra; try lia; try okx.
  - destruct (tame_IZR K B) as [[Q|Q] Q2]; split.
    + left. rewrite Q. field.
    + rewrite Q. replace (0 / 2)%R with 0%R by field. rewrite Rabs_R0. apply bpow_ge_0.
    + destruct (Z.eq_dec K 0) as [->|N]; [left; field|right].
      unfold Rdiv. rewrite Rabs_mult, (Rabs_pos_eq (/ 2)) by lra.
      assert (1 <= Rabs (IZR K))%R by (rewrite <- abs_IZR; apply IZR_le; lia).
      assert (bp (-300) <= bp (-1))%R by (apply bpow_le; lia). change (bp (-1)) with (/ 2)%R in *. lra.
    + unfold Rdiv. rewrite Rabs_mult, (Rabs_pos_eq (/ 2)) by lra. pose proof (Rabs_pos (IZR K)). lra.
  - split; auto. rewrite F2, F. unfold Rdiv. ring.
Qed.

(** ** polygonArea *)
Definition body64 (vs : list (vec B64)) := fun (i : Z) (p : vec B64) (result : B64) =>
  rbind (zget vs ((i + 1) mod Z.of_nat (length vs))) (fun q => Ok (fadd B64 result (fmul B64 (fsub B64 (vx p) (vx q)) (fadd B64 (vy p) (vy q))))).
Definition bodyXR (vs : list (vec XR)) := fun (i : Z) (p : vec XR) (result : XR) =>
  rbind (zget vs ((i + 1) mod Z.of_nat (length vs))) (fun q => Ok (fadd XR result (fmul XR (fsub XR (vx p) (vx q)) (fadd XR (vy p) (vy q))))).
Lemma pa_loop vs : (forall v, In v vs -> G v) -> forall l i x K n X', (forall v, In v l -> G v) ->
  si x (2 * e) K (65536 * n) -> 0 <= n -> 65536 * (n + Z.of_nat (length l)) <= 2 ^ 53 ->
  range_loop i (map fv (map rvec l)) (Fin (be2 * IZR K) : XR) (bodyXR (map fv (map rvec vs))) = Ok (Fin X') ->
  exists x' K', range_loop i l x (body64 vs) = Ok x' /\ si x' (2 * e) K' (2 ^ 53) /\ X' = (be2 * IZR K')%R.
Proof.
  intros Hvs. induction l as [|p l IH]; intros i x K n X' Hl S Hn B E.
  - cbn [map range_loop] in *. injection E as <-. exists x, K. split; auto. split; auto. apply (si_weaken _ _ _ (65536 * n)); auto. simpl length in B. lia.
  - cbn [map range_loop] in *. unfold bodyXR at 1 in E. unfold body64 at 1.
    rewrite map_length, map_length, !zget_map' in E. destruct (zget vs _) as [q| |] eqn:Eq; try discriminate. cbn [rbind] in *.
    apply zget_In' in Eq. destruct (G_rvec p (Hl p (or_introl eq_refl))) as (px & py & P1 & P2 & _ & Ep). destruct (G_rvec q (Hvs q Eq)) as (qx & qy & Q1 & Q2 & _ & Eqr).
    rewrite Ep, Eqr in E. cbn [fv vx vy rx ry fadd fsub fmul XR xadd xsub xmul xneg] in E.
    assert (S' : si (fadd B64 x (fmul B64 (fsub B64 (vx p) (vx q)) (fadd B64 (vy p) (vy q)))) (2 * e) (K + (px - qx) * (py + qy)) (65536 * (n + 1))).
    { replace (65536 * (n + 1)) with (65536 * n + 65536) by ring. cbn [length] in B.
      apply si_add; auto; try okx.
      apply d_mul; auto; [apply cd_sub; auto|]. apply (si_add _ _ _ _ _ 128 128); auto; okx. }
    apply (IH (i + 1) _ (K + (px - qx) * (py + qy)) (n + 1) X'); auto.
    + intros v Hv. apply Hl. right; auto.
    + lia.
    + cbn [length] in B. lia.
    + rewrite <- E. do 2 f_equal. rewrite plus_IZR, mult_IZR, minus_IZR, plus_IZR.
      replace be2 with (bp e * bp e)%R by (rewrite <- bpow_plus; f_equal; lia). ring.
Qed.
Lemma area64 vs : (forall v, In v vs -> G v) -> Z.of_nat (length vs) <= 2 ^ 37 ->
  exists x, polygonArea vs = Ok x /\ fr' x (shoelace (map rvec vs)).
Proof.
  intros Hv Hn. pose proof (polygonArea_shoelace (map rvec vs)) as E. unfold polygonArea in *.
  destruct (range_loop 0 (map fv (map rvec vs)) _ _) as [X| |] eqn:EL in E; try discriminate. cbn [rbind] in E.
  destruct X as [X| | |]; try discriminate.
  2,3: cbn [fdiv fofZ XR xdiv] in E; destruct (Rleb 0 2); discriminate.
  destruct (pa_loop vs Hv vs 0 (fofZ B64 0) 0 0 X Hv) as (x & K & E1 & S & ->).
  - apply si_zero.
  - lia.
  - lia.
  - etransitivity; [|exact EL]. rewrite Rmult_0_r. reflexivity.
  - exists (fdiv B64 x (fofZ B64 2)). split; [|].
    { match goal with |- rbind ?l _ = _ => change l with (range_loop 0 vs (fofZ B64 0) (body64 vs)) end. setoid_rewrite E1. reflexivity. }
    destruct (si_halve x K S) as [F1 F2]. split; auto. rewrite F2.
    cbn [fdiv fofZ XR xdiv] in E. destruct (Reqb_spec 2 0); [lra|]. injection E as <-. reflexivity.
Qed.

(** ** tri_area *)
Lemma tri_loop64 vs : (forall v, In v vs -> G v) -> forall k T x K, length T = (3 * k)%nat -> in_range vs T ->
  si x (2 * e) K (2 ^ 53) -> (forall t, In t (triples T) -> (0 < area3 (map rvec vs) t)%R) ->
  (be2 * IZR K + 2 * Spec_plane.Rsum (map (area3 (map rvec vs)) (triples T)) <= be2 * IZR (2 ^ 53))%R -> 0 <= K ->
  exists x' K', tri_area_loop vs T x = Ok x' /\ si x' (2 * e) K' (2 ^ 53) /\
    (be2 * IZR K' = be2 * IZR K + 2 * Spec_plane.Rsum (map (area3 (map rvec vs)) (triples T)))%R.
Proof.
  intros Hv. pose proof (bpow_gt_0 radix2 (2 * e)) as BP. induction k as [|k IH]; intros T x K E Rg S Pos Tot HK.
  - destruct T; [|discriminate]. cbn [triples map Spec_plane.Rsum tri_area_loop]. exists x, K. split; auto. split; auto. lra.
  - destruct T as [|a [|b [|c T]]]; simpl in E; try lia. cbn [tri_area_loop].
    assert (Gz : forall v, In v (a :: b :: c :: T) -> exists p X Y, zget vs v = Ok p /\ point (map rvec vs) v = RV (bp e * IZR X) (bp e * IZR Y) (bp e * IZR zz) /\ si (vx p) e X 128 /\ si (vy p) e Y 128).
    { intros v Hin. specialize (Rg v Hin). destruct (nth_error vs (Z.to_nat v)) as [p|] eqn:En.
      2:{ apply nth_error_None in En. lia. }
      destruct (G_rvec p (Hv p (nth_error_In _ _ En))) as (X & Y & S1 & S2 & _ & Er). exists p, X, Y. split; [|split; [|auto]].
      - apply zget_ok. split; [lia|auto].
      - unfold point. rewrite <- Er. apply nth_error_nth. rewrite nth_error_map, En. reflexivity. }
    destruct (Gz a) as (pa & xa & ya & Ea & Pa & A1 & A2); [simpl; auto|].
    destruct (Gz b) as (pb & xb & yb & Eb & Pb & B1 & B2); [simpl; auto|].
    destruct (Gz c) as (pc & xc & yc & Ec & Pc & C1 & C2); [simpl; auto|].
    rewrite Ea, Eb, Ec. cbn [rbind triples map Spec_plane.Rsum] in *.
    pose proof (area_si e He _ _ _ _ _ _ _ _ _ A1 A2 B1 B2 C1 C2) as SA.
    set (k0 := (yb - ya) * (xc - xb) - (xb - xa) * (yc - yb)) in *.
    assert (Ear : (2 * area3 (map rvec vs) (a, b, c) = be2 * IZR k0)%R).
    { unfold area3. rewrite Pa, Pb, Pc. unfold ccw, k0; cbn [rx ry]. rewrite minus_IZR, !mult_IZR, !minus_IZR.
      replace be2 with (bp e * bp e)%R by (rewrite <- bpow_plus; f_equal; lia). field. }
    assert (Hk0 : 0 < k0).
    { apply lt_IZR. apply Rmult_lt_reg_l with be2; auto. rewrite <- Ear. pose proof (Pos _ (or_introl eq_refl)). lra. }
    assert (Rn : (0 <= Spec_plane.Rsum (map (area3 (map rvec vs)) (triples T)))%R).
    { assert (Q : forall l, (forall t, In t l -> (0 < area3 (map rvec vs) t)%R) -> (0 <= Spec_plane.Rsum (map (area3 (map rvec vs)) l))%R).
      { induction l as [|t l IHl]; intros Hl; cbn [map Spec_plane.Rsum]; [lra|]. pose proof (Hl t (or_introl eq_refl)). specialize (IHl ltac:(intros; apply Hl; right; auto)). lra. }
      apply Q. intros t Ht. apply Pos. right; auto. }
    assert (KB : K + k0 <= 2 ^ 53).
    { apply le_IZR. apply Rmult_le_reg_l with be2; auto. rewrite plus_IZR. lra. }
    assert (S' : si (fadd B64 x (area pa pb pc)) (2 * e) (K + k0) (2 ^ 53)).
    { destruct S as [S _]. destruct SA as [SA _]. split; [|lia]. rewrite <- (rndX_IZR (K + k0)) by lia. rewrite plus_IZR.
      apply sr_add; auto; [okx|]. rewrite <- plus_IZR. apply tame_IZR. lia. }
    destruct (IH T _ (K + k0) ltac:(lia) ltac:(intros v Hin; apply Rg; simpl; auto) S' ltac:(intros t Ht; apply Pos; right; auto)) as (x' & K' & E1 & S1 & V1).
    + rewrite plus_IZR. lra.
    + lia.
    + exists x', K'. split; auto. split; auto. rewrite V1, plus_IZR. lra.
Qed.
Lemma tri_area64 vs h T H k : (forall v, In v vs -> G v) -> length T = (3 * k)%nat -> in_range vs T ->
  (forall t, In t (triples T) -> (0 < area3 (map rvec vs) t)%R) ->
  (2 * Spec_plane.Rsum (map (area3 (map rvec vs)) (triples T)) <= be2 * IZR (2 ^ 53))%R ->
  exists x, tri_area (mkTriangulation vs h T H) = Ok x /\ fr' x (Spec_plane.Rsum (map (area3 (map rvec vs)) (triples T))).
Proof.
  intros Hv E Rg Pos Tot. unfold tri_area. cbn [tVectors tTriangles].
  destruct (tri_loop64 vs Hv k T (fofZ B64 0) 0 E Rg) as (x & K & E1 & S & V); auto; try lia.
  - apply (si_weaken _ _ _ 0); [lia|apply si_zero].
  - rewrite Rmult_0_r, Rplus_0_l. auto.
  - rewrite E1. cbn [rbind]. eexists. split; [reflexivity|]. destruct (si_halve x K S) as [F1 F2]. split; auto. rewrite F2, V. field.
Qed.

(** ** polygonPerimeter *)
Lemma sr_sqrt x K : sr x (2 * e) K -> (K = 0 \/ 1 <= K <= 131072)%R -> sr (fsqrt B64 x) e (rndX (sqrt K)).
Proof.
  intros [Fx Ex] HK. pose proof (Bsqrt_correct 53 1024 b64_prec b64_pe mode_NE x) as (S1 & S2 & _).
  change (Bsqrt mode_NE x) with (fsqrt B64 x) in *. pose proof (bpow_gt_0 radix2 (2 * e)) as BP.
  assert (Nn : (0 <= B2R x)%R) by (rewrite Ex; apply Rmult_le_pos; lra).
  split.
  - rewrite S2. destruct x as [|[]| |[] m ex B]; try discriminate; auto. exfalso.
    simpl in Nn. unfold F2R in Nn. simpl in Nn.
    assert (0 < IZR (Z.pos m) * bp ex)%R by (apply Rmult_lt_0_compat; [apply IZR_lt; lia|apply bpow_gt_0]).
    change (Z.neg m) with (- Z.pos m) in Nn. rewrite opp_IZR in Nn. lra.
  - rewrite S1, Ex. replace (sqrt (be2 * K)) with (bp e * sqrt K)%R.
    + apply rndF_scale; [okx|]. destruct HK as [->|[K1 K2]].
      * rewrite sqrt_0. split; [auto|]. rewrite Rabs_R0. apply bpow_ge_0.
      * assert (1 <= sqrt K)%R by (rewrite <- sqrt_1; apply sqrt_le_1; lra).
        assert (sqrt K <= 363)%R by (rewrite <- (sqrt_square 363) by lra; apply sqrt_le_1; lra).
        unfold tame_r. rewrite (Rabs_pos_eq (sqrt K)) by lra. split.
        { right. apply Rle_trans with (bp 0); [apply bpow_le; lia|simpl; lra]. }
        apply Rle_trans with (bp 10); [simpl; lra|apply bpow_le; lia].
    + rewrite sqrt_mult by lra. f_equal. replace be2 with (bp e * bp e)%R by (rewrite <- bpow_plus; f_equal; lia).
      symmetry. apply sqrt_square. apply bpow_ge_0.
Qed.
(* the computed distance in grid units *)
Definition dd (p q : vec B64) : R := (B2R (Distance p q : b64) * bp (- e))%R.
Lemma Distance_sr p q : G p -> G q -> sr (Distance p q) e (dd p q) /\ (dd p q = 0 \/ 1 <= dd p q <= 363)%R.
Proof.
  intros Hp Hq. destruct (G_rvec p Hp) as (px & py & P1 & P2 & P3 & _). destruct (G_rvec q Hq) as (qx & qy & Q1 & Q2 & Q3 & _).
  set (K := (px - qx) * (px - qx) + (py - qy) * (py - qy)).
  assert (S : si (Dot (Sub p q) (Sub p q)) (2 * e) K 131072).
  { unfold Dot, Sub; cbn [vx vy vz]. replace K with (K + (zz - zz) * (zz - zz)) by lia. apply (si_weaken _ _ _ (131072 + 0)); [lia|].
    apply si_add; [lia|okx| |].
    - apply d_sq2; auto; apply cd_sub; auto.
    - pose proof (d_mul e He _ _ _ _ (cd_sub e He _ _ _ _ P3 Q3) (cd_sub e He _ _ _ _ P3 Q3)) as [D _]. split; [exact D|lia]. }
  assert (K0 : 0 <= K <= 131072).
  { pose proof (si_bd _ _ _ _ S). pose proof (Z.square_nonneg (px - qx)). pose proof (Z.square_nonneg (py - qy)). unfold K in *. lia. }
  assert (KR : (IZR K = 0 \/ 1 <= IZR K <= 131072)%R).
  { destruct (Z.eq_dec K 0) as [Z|Z]; [left; rewrite Z; auto|right; split; apply IZR_le; lia]. }
  assert (SD : sr (Distance p q) e (rndX (sqrt (IZR K)))).
  { unfold Distance, Norm. apply sr_sqrt; auto. apply (si_sr _ _ _ _ S). }
  assert (Ed : dd p q = rndX (sqrt (IZR K))).
  { unfold dd. rewrite (proj2 SD). rewrite (Rmult_comm (bp e)), Rmult_assoc, <- bpow_plus. replace (e + - e) with 0 by lia. simpl. ring. }
  rewrite Ed. split; auto. destruct KR as [->|[K1 K2]]; [left; rewrite sqrt_0; apply rndX_0|right].
  assert (1 <= sqrt (IZR K))%R by (rewrite <- sqrt_1; apply sqrt_le_1; lra).
  assert (sqrt (IZR K) <= 363)%R by (rewrite <- (sqrt_square 363) by lra; apply sqrt_le_1; lra).
  split; [rewrite <- (rndX_IZR 1) by (simpl; lia)|rewrite <- (rndX_IZR 363) by (simpl; lia)]; apply rndX_mono; auto.
Qed.
Fixpoint dsum (q : vec B64) (l : list (vec B64)) : R := match l with [] => 0%R | p :: l' => (dd p q + dsum p l')%R end.
Lemma per_loop : forall l i q x X n D, G q -> (forall v, In v l -> G v) -> sr x e X -> (X = 0 \/ 1 <= X)%R -> 0 <= n ->
  (X <= 363 * IZR n)%R -> 363 * (n + Z.of_nat (length l)) <= 2 ^ 53 -> (Rabs (X - D) <= u53 * 363 * (IZR n * (IZR n + 1) / 2))%R ->
  exists x' X' q', range_loop i l (x, q) (fun _ p '(result, q) => Ok (fadd B64 result (Distance p q), p)) = Ok (x', q') /\
    sr x' e X' /\ (let m := (n + Z.of_nat (length l))%Z in Rabs (X' - (D + dsum q l)) <= u53 * 363 * (IZR m * (IZR m + 1) / 2))%R.
Proof.
  induction l as [|p l IH]; intros i q x X n D Hq Hl S Xc Hn Xb B Er.
  - exists x, X, q. split; [reflexivity|]. split; auto. cbn [dsum length]. cbv zeta. rewrite Rplus_0_r. replace (n + Z.of_nat 0) with n by lia. auto.
  - cbn [range_loop rbind]. destruct (Distance_sr p q (Hl p (or_introl eq_refl)) Hq) as [Sd Db]. cbn [length] in B.
    assert (Xn : (0 <= X)%R) by lra. 
    assert (B' : (IZR n + 1 <= IZR (2 ^ 53))%R) by (rewrite <- plus_IZR; apply IZR_le; lia).
    assert (Sx : sr (fadd B64 x (Distance p q)) e (rndX (X + dd p q))).
    { apply sr_add; auto; [okx|]. split.
      - destruct Xc as [->|Xc]; destruct Db as [->|Db]; try (right; rewrite Rabs_pos_eq by lra; apply Rle_trans with (bp 0); [apply bpow_le; lia|simpl; lra]).
        left; ring.
      - rewrite Rabs_pos_eq by lra. apply Rle_trans with (IZR (363 * 2 ^ 53)); [rewrite mult_IZR; lra|].
        change (bp 300) with (IZR (2 ^ 300)). apply IZR_le. lia. }
    assert (Xb' : (rndX (X + dd p q) <= 363 * IZR (n + 1))%R).
    { rewrite <- mult_IZR. rewrite <- (rndX_IZR (363 * (n + 1))) by lia. apply rndX_mono. rewrite mult_IZR, plus_IZR. lra. }
    assert (Xc' : (rndX (X + dd p q) = 0 \/ 1 <= rndX (X + dd p q))%R).
    { assert (C : (X + dd p q = 0 \/ 1 <= X + dd p q)%R) by lra. destruct C as [->|C]; [left; apply rndX_0|right].
      rewrite <- (rndX_IZR 1) by (simpl; lia). apply rndX_mono; auto. }
    destruct (IH (i + 1) p _ _ (n + 1) (D + dd p q)%R (Hl p (or_introl eq_refl)) ltac:(intros v Hv; apply Hl; right; auto) Sx Xc' ltac:(lia) Xb' ltac:(lia)) as (x' & X' & q' & E1 & S1 & V1).
    + pose proof (rndX_err (X + dd p q)) as Q. assert (Rn : (0 <= rndX (X + dd p q))%R) by lra. rewrite (Rabs_pos_eq (rndX _)) in Q by auto.
      rewrite plus_IZR in Xb'. rewrite plus_IZR.
      assert (U : (0 < u53)%R) by (unfold u53; apply Rinv_0_lt_compat, pow_lt; lra).
      assert (Q2 : (u53 * rndX (X + dd p q) <= u53 * (363 * (IZR n + 1)))%R) by (apply Rmult_le_compat_l; lra).
      replace (rndX (X + dd p q) - (D + dd p q))%R with ((rndX (X + dd p q) - (X + dd p q)) + (X - D))%R by ring.
      eapply Rle_trans; [apply Rabs_triang|]. eapply Rle_trans; [apply Rplus_le_compat; [exact (Rle_trans _ _ _ Q Q2)|exact Er]|].
      apply Req_le. field.
    + exists x', X', q'. split; auto. split; auto. cbn [dsum length]. cbv zeta in *.
      replace (n + Z.of_nat (Datatypes.S (length l))) with (n + 1 + Z.of_nat (length l)) by lia. rewrite <- Rplus_assoc. auto.
Qed.
Lemma per64 vs : (forall v, In v vs -> G v) -> vs <> [] -> Z.of_nat (length vs) <= 2 ^ 40 ->
  exists x X, polygonPerimeter vs = Ok x /\ sr x e X /\
    (let m := Z.of_nat (length vs) in Rabs (X - dsum (last vs (mkvec (fofZ B64 0) (fofZ B64 0) (fofZ B64 0))) vs) <= u53 * 363 * (IZR m * (IZR m + 1) / 2))%R.
Proof.
  intros Hv NE Hn. destruct (exists_last NE) as (m & z & Ez). unfold polygonPerimeter.
  assert (Ln : length vs = Datatypes.S (length m)) by (rewrite Ez, app_length; simpl; lia).
  destruct (Z.eqb_spec (Z.of_nat (length vs)) 0); [lia|].
  assert (Eg : zget vs (Z.of_nat (length vs) - 1) = Ok z).
  { replace (Z.of_nat (length vs) - 1) with (Z.of_nat (length m)) by lia. rewrite zget_nat. rewrite Ez, nth_error_app2, Nat.sub_diag by lia. reflexivity. }
  rewrite Eg. cbn [rbind]. assert (EL : forall d, last vs d = z) by (intros d; rewrite Ez; apply last_last). rewrite EL.
  destruct (per_loop vs 0 z (fofZ B64 0) 0 0 0%R) as (x & X & q & E1 & S & V); auto; try lia.
  - apply Hv. rewrite Ez. apply in_app_iff. right; left; auto.
  - apply sr_zero.
  - lra.
  - replace (0 - 0)%R with 0%R by ring. rewrite Rabs_R0. lra.
  - exists x, X. split; [setoid_rewrite E1; reflexivity|]. split; auto. cbv zeta in *. rewrite Rplus_0_l in V. exact V.
Qed.

(* the same from the values *)
Definition ddR (a b : rv) : R := rndX (sqrt (((rx a - rx b) * (rx a - rx b) + (ry a - ry b) * (ry a - ry b)) * bp (- (2 * e)))).
Lemma dd_ddR p q : G p -> G q -> dd p q = ddR (rvec p) (rvec q).
Proof.
  intros Hp Hq. destruct (G_rvec p Hp) as (px & py & P1 & P2 & P3 & Ep). destruct (G_rvec q Hq) as (qx & qy & Q1 & Q2 & Q3 & Eq).
  set (K := (px - qx) * (px - qx) + (py - qy) * (py - qy)).
  assert (S : si (Dot (Sub p q) (Sub p q)) (2 * e) K 131072).
  { unfold Dot, Sub; cbn [vx vy vz]. replace K with (K + (zz - zz) * (zz - zz)) by lia. apply (si_weaken _ _ _ (131072 + 0)); [lia|].
    apply si_add; [lia|okx| |].
    - apply d_sq2; auto; apply cd_sub; auto.
    - pose proof (d_mul e He _ _ _ _ (cd_sub e He _ _ _ _ P3 Q3) (cd_sub e He _ _ _ _ P3 Q3)) as [D _]. split; [exact D|lia]. }
  assert (K0 : 0 <= K <= 131072).
  { pose proof (si_bd _ _ _ _ S). pose proof (Z.square_nonneg (px - qx)). pose proof (Z.square_nonneg (py - qy)). unfold K in *. lia. }
  assert (KR : (IZR K = 0 \/ 1 <= IZR K <= 131072)%R).
  { destruct (Z.eq_dec K 0) as [Z|Z]; [left; rewrite Z; auto|right; split; apply IZR_le; lia]. }
  assert (SD : sr (Distance p q) e (rndX (sqrt (IZR K)))).
  { unfold Distance, Norm. apply sr_sqrt; auto. apply (si_sr _ _ _ _ S). }
  transitivity (rndX (sqrt (IZR K))).
  { unfold dd. rewrite (proj2 SD). rewrite (Rmult_comm (bp e)), Rmult_assoc, <- bpow_plus. replace (e + - e) with 0 by lia. simpl. ring. }
  unfold ddR. rewrite Ep, Eq. cbn [rx ry]. do 2 f_equal. unfold K. rewrite plus_IZR, !mult_IZR, !minus_IZR.
  assert (BB : (bp e * bp e * bp (- (2 * e)) = 1)%R) by (rewrite <- !bpow_plus; replace (e + e + - (2 * e)) with 0 by lia; reflexivity).
  replace (((bp e * IZR px - bp e * IZR qx) * (bp e * IZR px - bp e * IZR qx) + (bp e * IZR py - bp e * IZR qy) * (bp e * IZR py - bp e * IZR qy)) * bp (- (2 * e)))%R
    with (((IZR px - IZR qx) * (IZR px - IZR qx) + (IZR py - IZR qy) * (IZR py - IZR qy)) * (bp e * bp e * bp (- (2 * e))))%R by ring.
  rewrite BB. ring.
Qed.
Lemma ddR_sym a b : ddR a b = ddR b a. Proof. unfold ddR. do 3 f_equal. ring. Qed.
Lemma dsum_psum : forall l q, G q -> (forall v, In v l -> G v) -> dsum q l = psum ddR (rvec q :: map rvec l).
Proof.
  induction l as [|p l IH]; intros q Hq Hl; [reflexivity|]. cbn [dsum map]. rewrite psum_cons2, dd_ddR, ddR_sym; auto; [|apply Hl; left; auto].
  f_equal. apply IH; [apply Hl; left; auto|intros v Hv; apply Hl; right; auto].
Qed.
Lemma dsum_close vs d : (forall v, In v vs -> G v) -> vs <> [] -> dsum (last vs d) vs = psum ddR (close (map rvec vs)).
Proof.
  intros Hv NE. destruct (exists_last NE) as (m & z & Ez).
  assert (EL : last vs d = z) by (rewrite Ez; apply last_last). rewrite EL, dsum_psum; auto.
  2:{ apply Hv. rewrite Ez. apply in_app_iff. right; left; auto. }
  rewrite Ez, map_app. cbn [map]. rewrite <- close_rot. reflexivity.
Qed.

(** ** the verdict *)
Theorem validate64 srt vs h h2 T H k : (forall v, In v vs -> G v) -> incl h vs -> incl h2 vs -> h <> [] ->
  length T = (3 * k)%nat -> in_range vs T ->
  twins H -> (exists h1 h3, map rvec h = h1 ++ h3 /\ map rvec h2 = h3 ++ h1) ->
  ConvexHull srt vs = Ok h2 ->
  (forall t, In t (triples T) -> (0 < area3 (map rvec vs) t)%R) ->
  Spec_plane.Rsum (map (area3 (map rvec vs)) (triples T)) = shoelace (map rvec h) ->
  Z.of_nat (length h) <= 2 ^ 36 ->
  (let m := IZR (Z.of_nat (length h)) in m * (m + 1) * bp e <= 23108)%R ->
  Validate srt (mkTriangulation vs h T H) = Ok true.
Proof.
  intros Hv Ih Ih2 NE ET Rg Tw (g1 & g3 & Eg & Eg2) EC Pos Ar Len Bd. cbv zeta in Bd.
  assert (Hh : forall v, In v h -> G v) by (intros v Q; apply Hv, Ih, Q).
  assert (Hh2 : forall v, In v h2 -> G v) by (intros v Q; apply Hv, Ih2, Q).
  assert (Len2 : length h2 = length h).
  { rewrite <- (map_length rvec h), <- (map_length rvec h2), Eg, Eg2, !app_length. lia. }
  assert (NE2 : h2 <> []) by (intros Q; rewrite Q in Len2; destruct h; [contradiction|discriminate]).
  unfold Validate. cbn [tHalfedges tVectors tConvexHull]. apply validate_halfedges_iff in Tw. rewrite Tw. cbn [rbind negb]. rewrite EC. cbn [rbind].
  destruct (area64 h Hh ltac:(lia)) as (x1 & E1 & A1). destruct (area64 h2 Hh2 ltac:(lia)) as (x2 & E2 & A2).
  assert (Tot : (2 * Spec_plane.Rsum (map (area3 (map rvec vs)) (triples T)) <= be2 * IZR (2 ^ 53))%R).
  { rewrite Ar. destruct (pa_loop h Hh h 0 (fofZ B64 0) 0 0 (2 * shoelace (map rvec h))%R Hh) as (x & K & _ & [_ KB] & Q); try lia.
    - apply si_zero.
    - rewrite Rmult_0_r. pose proof (polygonArea_shoelace (map rvec h)) as Q. unfold polygonArea in Q.
      match type of Q with rbind ?l _ = _ => change l with (range_loop 0 (map fv (map rvec h)) (Fin 0 : XR) (bodyXR (map fv (map rvec h)))) in Q;
        destruct (range_loop 0 (map fv (map rvec h)) (Fin 0 : XR) (bodyXR (map fv (map rvec h)))) as [X| |]; try discriminate end.
      cbn [rbind] in Q. destruct X as [X| | |]; try discriminate; cbn [fdiv fofZ XR xdiv] in Q.
      + destruct (Reqb_spec 2 0); [lra|]. injection Q as <-. do 2 f_equal. field.
      + destruct (Rleb 0 2); discriminate.
      + destruct (Rleb 0 2); discriminate.
    - rewrite Q. apply Rmult_le_compat_l; [apply bpow_ge_0|apply IZR_le; lia]. }
  destruct (tri_area64 vs h T H k Hv ET Rg Pos Tot) as (x3 & E3 & A3).
  rewrite E1, E2, E3. cbn [rbind]. destruct tol64_val as [Ft Vt]. pose proof (bpow_gt_0 radix2 (-30)) as B30. change (fofQ B64 (1 # 1000000000)) with tol64.
  assert (Sh : shoelace (map rvec h2) = shoelace (map rvec h)) by (rewrite Eg, Eg2; apply shoelace_rot).
  rewrite (same_passes x1 x2 tol64 (shoelace (map rvec h))); auto; [|rewrite <- Sh; auto|lra].
  rewrite (same_passes x1 x3 tol64 (shoelace (map rvec h))); auto; [|rewrite <- Ar; auto|lra]. cbn [orb].
  destruct (per64 h Hh NE ltac:(lia)) as (y1 & Y1 & P1 & S1 & V1). destruct (per64 h2 Hh2 NE2 ltac:(lia)) as (y2 & Y2 & P2 & S2 & V2).
  rewrite P1, P2. cbn [rbind]. cbv zeta in V1, V2. rewrite dsum_close in V1, V2 by auto. rewrite Len2 in V2.
  assert (Ps : psum ddR (close (map rvec h2)) = psum ddR (close (map rvec h))) by (rewrite Eg, Eg2; apply close_rot_app). rewrite Ps in V2.
  destruct S1 as [F1 W1]. destruct S2 as [F2 W2].
  rewrite (close_passes y1 y2 tol64 _ _ (-30) (conj F1 W1) (conj F2 W2)); auto; [|lia].
  set (m := IZR (Z.of_nat (length h))) in *. set (D := psum ddR (close (map rvec h))) in *.
  assert (Dif : (Rabs (Y1 - Y2) <= u53 * 363 * (m * (m + 1)))%R).
  { replace (Y1 - Y2)%R with ((Y1 - D) + - (Y2 - D))%R by ring. eapply Rle_trans; [apply Rabs_triang|]. rewrite Rabs_Ropp. lra. }
  pose proof (bpow_gt_0 radix2 e) as BE. rewrite <- Rmult_minus_distr_l, Rabs_mult, (Rabs_pos_eq (bp e)) by lra.
  apply Rle_trans with (bp e * (u53 * 363 * (m * (m + 1))))%R; [apply Rmult_le_compat_l; lra|].
  replace (bp e * (u53 * 363 * (m * (m + 1))))%R with (u53 * 363 * (m * (m + 1) * bp e))%R by ring.
  apply Rle_trans with (u53 * 363 * 23108)%R; [apply Rmult_le_compat_l; auto; unfold u53; lra|].
  change (bp (-30)) with (/ IZR (2 ^ 30))%R. unfold u53. simpl. lra.
Qed.
End Grid.
