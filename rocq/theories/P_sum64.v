(** Accumulated rounding errors in binary64: polygonArea, Triangulation.area, polygonPerimeter (C159). *)
From Coq Require Import Reals Lra Lia ZArith Bool List.
From Flocq Require Import Core Relative BinarySingleNaN.
From Verif Require Import Base Arith GoLoop M_r3 M_tri2 Spec_r3 Spec_plane Spec_delaunay Spec_acc64 Spec_sum64 XRvec P_r3 P_polygon P_insphere_err P_insphere_b64 P_b64sc P_acc64.
Import ListNotations.
Open Scope R_scope.
Notation u := u53.
Notation g k := ((1 + u53) ^ k).
Notation bp := (bpow radix2).
Local Instance prec53s : Prec_gt_0 53 := eq_refl.

(** ** sums of many terms *)
Lemma g_le3 k : (Z.of_nat k <= 2 ^ 53)%Z -> g k <= 3.
Proof.
  intros H. apply IZR_le in H. rewrite <- INR_IZR_INZ in H. pose proof u0 as U. pose proof (pos_INR k) as P. replace (IZR (2 ^ 53)) with (2 ^ 53) in H by (simpl; lra).
  assert (Q : INR k * u <= 1). { eapply Rle_trans; [apply Rmult_le_compat_r; [lra|exact H]|]. unfold u53. lra. }
  pose proof (gamma_quad k Q) as G. unfold gamma in G. fold u53 in G. assert (Q2 : INR k * u * (INR k * u) <= 1 * 1) by (apply Rmult_le_compat; try lra; apply Rmult_le_pos; lra). lra.
Qed.
Lemma acc_add_B x e p y e' p' k m M : (m <= 1022)%Z -> (M + 1 < 1024)%Z -> acc x e p k m M -> acc y e' p' k m M -> g (S k) * (p + p') <= bp M ->
  acc (fadd B64 x y) (e + e') (p + p') (S k) m M.
Proof.
  intros Hm HM Ax Ay B. pose proof (acc_add _ _ _ _ _ _ _ _ _ Hm HM Ax Ay) as Q. pose proof (acc_f _ _ _ _ _ _ Q) as F. destruct Q as ((F1 & F2 & F3 & F4) & Q2 & Q3).
  split; [|split; [exact Q2|exact Q3]]. split; [exact F1|]. split; [exact F2|]. split; [exact F3|]. lra.
Qed.
Lemma acc_zero k m M : acc (fofZ B64 0) 0 0 k m M.
Proof.
  split; [|split].
  - split; [reflexivity|]. split; [reflexivity|]. change (B2R (fofZ B64 0 : b64)) with 0. split; [exists 0%Z; ring|]. rewrite Rabs_R0. apply bpow_ge_0.
  - change (B2R (fofZ B64 0 : b64)) with 0. rewrite Rminus_0_r, Rabs_R0. lra.
  - rewrite Rabs_R0. lra.
Qed.
Lemma bp_mul a b : bp a * bp b = bp (a + b). Proof. rewrite bpow_plus. reflexivity. Qed.
(* one more term: n terms of size at most 2^B have been added, k0 roundings each *)
Lemma acc_step k0 (n : nat) B m x e p y e' p' : (m <= 1022)%Z -> (0 <= B <= 900)%Z -> (Z.of_nat (k0 + S n) <= 2 ^ 50)%Z ->
  acc x e p (k0 + n) m (B + 60) -> p <= INR n * bp B -> acc y e' p' k0 m (B + 60) -> p' <= bp B ->
  acc (fadd B64 x y) (e + e') (p + p') (k0 + S n) m (B + 60) /\ p + p' <= INR (S n) * bp B.
Proof.
  intros Hm HB Hn Ax Px Ay Py. assert (P2 : p + p' <= INR (S n) * bp B) by (rewrite S_INR; lra). split; [|exact P2].
  replace (k0 + S n)%nat with (S (k0 + n)) by lia. apply acc_add_B; auto; [lia| |].
  - apply (acc_weaken _ _ p' _ k0 _ _ (B + 60)); auto; [lia|lia|lra].
  - assert (G : g (S (k0 + n)) <= 3) by (apply g_le3; lia).
    assert (N : INR (S n) <= bp 50). { rewrite INR_IZR_INZ. change (bp 50) with (IZR (2 ^ 50)). apply IZR_le. lia. }
    pose proof (acc_p _ _ _ _ _ _ Ax). pose proof (acc_p _ _ _ _ _ _ Ay). pose proof (g1 (S (k0 + n))) as G1. pose proof (bpow_ge_0 radix2 B) as BB.
    apply Rle_trans with (3 * (bp 50 * bp B)).
    + apply Rmult_le_compat; try lra. eapply Rle_trans; [exact P2|]. apply Rmult_le_compat_r; lra.
    + rewrite bp_mul. apply Rle_trans with (bp 2 * bp (50 + B)); [apply Rmult_le_compat_r; [apply bpow_ge_0|simpl; lra]|]. rewrite bp_mul. apply bpow_le. lia.
Qed.
Lemma rndX_B2R (x : b64) : rndX (B2R x) = B2R x.
Proof.
  unfold rndX. apply round_generic; [typeclasses eauto|]. apply (generic_inclusion_mag radix2 (SpecFloat.fexp 53 1024)); [|apply generic_format_B2R].
  intros N. unfold FLX_exp, SpecFloat.fexp, SpecFloat.emin. lia.
Qed.
Lemma acc_halve x e p k m M : (m <= 1000)%Z -> (M < 1020)%Z -> acc x e p k m M -> acc (fdiv B64 x (fofZ B64 2)) (e / 2) (p / 2) k (m + 1) M.
Proof.
  intros Hm HM (Rx & H1 & H2). pose proof Rx as (F & _ & Gx & Bx).
  assert (E2 : B2R (fofZ B64 2 : b64) = 2) by (cbn; unfold Defs.F2R; cbn; lra).
  assert (Fh : fixm (m + 1) (B2R x / 2)). { destruct Gx as (z & E). exists z. rewrite E. replace (- (m + 1))%Z with (- m + - 1)%Z by lia. rewrite bpow_plus. change (bp (-1)) with (/ 2). field. }
  assert (Ex : rndX (B2R x / 2) = B2R x / 2). { replace (B2R x / 2) with (bp (-1) * B2R x) by (change (bp (-1)) with (/ 2); field). rewrite rndX_scale, rndX_B2R. reflexivity. }
  assert (Bh : Rabs (B2R x / 2) <= bp M). { unfold Rdiv. rewrite Rabs_mult, (Rabs_pos_eq (/ 2)) by lra. pose proof (Rabs_pos (B2R x)). lra. }
  assert (Rz : rel (fdiv B64 x (fofZ B64 2)) (rndX (B2R x / 2)) (m + 1) M).
  { apply rel_round; auto; [lia|lia|]. intros H. pose proof (Bdiv_correct 53 1024 b64_prec b64_pe mode_NE x (fofZ B64 2 : b64) ltac:(rewrite E2; lra)) as C. rewrite E2 in C. rewrite H in C. destruct C as (C1 & C2 & _). split; [exact C1|]. etransitivity; [exact C2|exact F]. }
  rewrite Ex in Rz. destruct (rel_self _ _ _ _ Rz) as (Rs & E). split; [exact Rs|]. rewrite E. split.
  - replace (e / 2 - B2R x / 2) with ((e - B2R x) / 2) by field. unfold Rdiv at 1. rewrite Rabs_mult, (Rabs_pos_eq (/ 2)) by lra. lra.
  - unfold Rdiv. rewrite Rabs_mult, (Rabs_pos_eq (/ 2)) by lra. lra.
Qed.
Lemma acc_plus x y : tame x -> tame y -> acc (fadd B64 x y) (B2R x + B2R y) (Rabs (B2R x + B2R y)) 1 180 201.
Proof.
  intros Hx Hy. destruct (rel_self _ _ _ _ (rel_add _ _ _ _ 180 200 ltac:(lia) ltac:(lia) (tame_rel x Hx) (tame_rel y Hy))) as (Rz & E). split; [exact Rz|]. rewrite E. split; [|lra].
  rewrite Rabs_minus_sym. replace (g 1 - 1) with u by ring. apply rndX_err'.
Qed.
Lemma tame_bd x : tame x -> Rabs (B2R x) <= bp 200. Proof. intros (_ & _ & H). exact H. Qed.
Lemma two_bd a b : Rabs a <= bp 200 -> Rabs b <= bp 200 -> Rabs (a - b) <= bp 201 /\ Rabs (a + b) <= bp 201.
Proof. intros Ha Hb. change 201%Z with (200 + 1)%Z. rewrite bpow_add1. split; (eapply Rle_trans; [apply Rabs_triang|]); rewrite ?Rabs_Ropp; lra. Qed.

(** ** polygonArea *)
Definition pfn (p q : rv) : R := (rx p - rx q) * (ry p + ry q).
Definition pfa (p q : rv) : R := Rabs (rx p - rx q) * Rabs (ry p + ry q).
Definition abody (vs : list (vec B64)) := fun (i : Z) (p : vec B64) (result : B64) =>
  rbind (zget vs ((i + 1) mod Z.of_nat (length vs))) (fun q => Ok (fadd B64 result (fmul B64 (fsub B64 (vx p) (vx q)) (fadd B64 (vy p) (vy q))))).
Lemma term_acc (p q : vec B64) : tame_xy p -> tame_xy q ->
  acc (fmul B64 (fsub B64 (vx p) (vx q)) (fadd B64 (vy p) (vy q))) (pfn (rvec p) (rvec q)) (pfa (rvec p) (rvec q)) 3 360 462 /\ pfa (rvec p) (rvec q) <= bp 402.
Proof.
  intros (Px & Py) (Qx & Qy). split.
  - apply (acc_weaken _ _ (pfa (rvec p) (rvec q)) _ 3 _ _ 402); [lia|lia|lra|]. exact (acc_mul _ _ _ _ _ _ 1 1 180 201 180 201 ltac:(lia) ltac:(lia) (acc_diff _ _ Px Qx) (acc_plus _ _ Py Qy)).
  - unfold pfa. cbn [rx ry rvec]. change 402%Z with (201 + 201)%Z. rewrite bpow_plus. apply Rmult_le_compat; try apply Rabs_pos; [exact (proj1 (two_bd _ _ (tame_bd _ Px) (tame_bd _ Qx)))|exact (proj2 (two_bd _ _ (tame_bd _ Py) (tame_bd _ Qy)))].
Qed.
Lemma parea_loop vs : (forall v, In v vs -> tame_xy v) -> forall l pre x e p (n : nat), vs = pre ++ l -> acc x e p (3 + n) 360 462 -> p <= INR n * bp 402 ->
  (Z.of_nat (n + length l) <= 2 ^ 49)%Z ->
  exists x', range_loop (Z.of_nat (length pre)) l x (abody vs) = Ok x' /\
    let c := map rvec (l ++ match vs with [] => [] | y :: _ => [y] end) in acc x' (e + psum pfn c) (p + psum pfa c) (3 + n + length l) 360 462.
Proof.
  intros Hvs. induction l as [|v l IH]; intros pre x e p n H Ax Pn Hn.
  - exists x. split; [reflexivity|]. cbv zeta. assert (Z0 : forall f, psum f (map rvec ([] ++ match vs with [] => [] | y :: _ => [y] end)) = 0) by (intros f; destruct vs; reflexivity).
    rewrite !Z0, !Rplus_0_r. cbn [length]. rewrite Nat.add_0_r. exact Ax.
  - cbn [range_loop]. unfold abody at 1. set (w := match l with y :: _ => y | [] => match vs with [] => v | y :: _ => y end end).
    assert (Hq : zget vs ((Z.of_nat (length pre) + 1) mod Z.of_nat (length vs)) = Ok w).
    { assert (L : length vs = (length pre + S (length l))%nat) by (rewrite H, app_length; reflexivity). unfold w. destruct l as [|y l].
      - replace (Z.of_nat (length pre) + 1)%Z with (Z.of_nat (length vs)) by (rewrite L; simpl; lia).
        rewrite Z_mod_same_full. destruct vs as [|y vs]; [destruct pre; discriminate|]. reflexivity.
      - rewrite Z.mod_small by (rewrite L; simpl; lia). replace (Z.of_nat (length pre) + 1)%Z with (Z.of_nat (S (length pre))) by lia.
        rewrite zget_nat, H, nth_error_app2 by lia. replace (S (length pre) - length pre)%nat with 1%nat by lia. reflexivity. }
    rewrite Hq. cbn [rbind]. assert (Iv : In v vs) by (rewrite H; apply in_app_iff; right; left; reflexivity).
    assert (Iw : In w vs). { unfold w. destruct l as [|y l]; [destruct vs; [destruct Iv|left; reflexivity]|rewrite H; apply in_app_iff; right; right; left; reflexivity]. }
    destruct (term_acc v w (Hvs v Iv) (Hvs w Iw)) as (Ta & Tb). cbn [length] in Hn.
    destruct (acc_step 3 n 402 360 _ _ _ _ _ _ ltac:(lia) ltac:(lia) ltac:(lia) Ax Pn Ta Tb) as (Sx & Sp).
    destruct (IH (pre ++ [v]) _ _ _ (S n) ltac:(rewrite <- app_assoc; exact H) Sx Sp ltac:(lia)) as (x' & E & A'). exists x'.
    replace (Z.of_nat (length pre) + 1)%Z with (Z.of_nat (length (pre ++ [v]))) by (rewrite app_length; simpl; lia). split; [exact E|]. cbv zeta in *.
    replace (3 + n + length (v :: l))%nat with (3 + S n + length l)%nat by (cbn [length]; lia).
    assert (Ps : forall f, psum f (map rvec ((v :: l) ++ match vs with [] => [] | y :: _ => [y] end)) = f (rvec v) (rvec w) + psum f (map rvec (l ++ match vs with [] => [] | y :: _ => [y] end))).
    { intros f. unfold w. destruct l as [|y l]; [destruct vs as [|y vs]; [destruct Iv|reflexivity]|reflexivity]. }
    rewrite !Ps, <- !Rplus_assoc. exact A'.
Qed.
Lemma psum_shoelace l : psum pfn (close l) / 2 = shoelace l.
Proof.
  unfold shoelace. rewrite (edges_psum (fun p q => rx p * ry q - rx q * ry p)). f_equal.
  transitivity (psum (fun p q => (rx p * ry q - rx q * ry p) + (rx p * ry p - rx q * ry q)) (close l)).
  { apply psum_ext. intros; unfold pfn; ring. }
  rewrite psum_add. replace (psum (fun p q => rx p * ry p - rx q * ry q) (close l)) with 0; [ring|].
  destruct l as [|x l]; [reflexivity|]. symmetry. unfold close. simpl app. rewrite (psum_tele (fun v => rx v * ry v)). ring.
Qed.
Lemma polygonArea_acc vs : (forall v, In v vs -> tame_xy v) -> (Z.of_nat (length vs) <= 2 ^ 49)%Z ->
  exists x, polygonArea vs = Ok x /\ acc x (shoelace (map rvec vs)) (polygon_terms (map rvec vs)) (3 + length vs) 361 462.
Proof.
  intros Hv Hn. destruct (parea_loop vs Hv vs [] (fofZ B64 0) 0 0 0 eq_refl (acc_zero _ _ _) ltac:(simpl; lra) Hn) as (x & E & A). cbv zeta in A.
  exists (fdiv B64 x (fofZ B64 2)). split.
  - unfold polygonArea. match goal with |- rbind ?l _ = _ => change l with (range_loop 0 vs (fofZ B64 0) (abody vs)) end. setoid_rewrite E. reflexivity.
  - rewrite !Rplus_0_l in A. assert (C : map rvec (vs ++ match vs with [] => [] | y :: _ => [y] end) = close (map rvec vs)) by (destruct vs; [reflexivity|]; rewrite map_app; reflexivity).
    rewrite C in A. pose proof (acc_halve _ _ _ _ 360 462 ltac:(lia) ltac:(lia) A) as Q. rewrite psum_shoelace in Q.
    unfold polygon_terms. rewrite (edges_psum pfa). exact Q.
Qed.

(** ** Triangulation.area *)
Lemma area_bd (a b c : vec B64) : tame_xy a -> tame_xy b -> tame_xy c -> area_terms (rvec a) (rvec b) (rvec c) <= bp 403.
Proof.
  intros (Ax & Ay) (Bx & By) (Cx & Cy). unfold area_terms. cbn [rx ry rvec]. change 403%Z with (402 + 1)%Z. rewrite bpow_add1. change 402%Z with (201 + 201)%Z. rewrite bpow_plus.
  assert (Q : forall x y z w : b64, tame x -> tame y -> tame z -> tame w -> Rabs (B2R x - B2R y) * Rabs (B2R z - B2R w) <= bp 201 * bp 201).
  { intros x y z w Hx Hy Hz Hw. apply Rmult_le_compat; try apply Rabs_pos; [exact (proj1 (two_bd _ _ (tame_bd _ Hx) (tame_bd _ Hy)))|exact (proj1 (two_bd _ _ (tame_bd _ Hz) (tame_bd _ Hw)))]. }
  pose proof (Q _ _ _ _ By Ay Cx Bx). pose proof (Q _ _ _ _ Bx Ax Cy By). lra.
Qed.
Definition tfn (pts : list rv) (t : Z * Z * Z) : R := let '(a, b, c) := t in area_terms (point pts a) (point pts b) (point pts c).
Lemma tarea_loop vs : (forall v, In v vs -> tame_xy v) -> forall k T x e p (n : nat), length T = (3 * k)%nat -> (forall v, In v T -> (0 <= v < Z.of_nat (length vs))%Z) ->
  acc x e p (4 + n) 360 463 -> p <= INR n * bp 403 -> (Z.of_nat (n + k) <= 2 ^ 49)%Z ->
  exists x' : B64, tri_area_loop (A := B64) vs T x = Ok x' /\ acc x' (e + 2 * Rsum (map (area3 (map rvec vs)) (triples T))) (p + Rsum (map (tfn (map rvec vs)) (triples T))) (4 + n + k) 360 463.
Proof.
  intros Hv. induction k as [|k IH]; intros T x e p n E Rg Ax Pn Hn.
  - destruct T; [|discriminate]. exists x. split; [reflexivity|]. cbn [triples map Rsum]. rewrite Rmult_0_r, !Rplus_0_r, Nat.add_0_r. exact Ax.
  - destruct T as [|a [|b [|c T]]]; simpl in E; try lia. cbn [tri_area_loop].
    assert (Gz : forall v, In v (a :: b :: c :: T) -> exists q, zget vs v = Ok q /\ point (map rvec vs) v = rvec q /\ tame_xy q).
    { intros v Hin. specialize (Rg v Hin). destruct (nth_error vs (Z.to_nat v)) as [q|] eqn:En; [|apply nth_error_None in En; lia].
      exists q. split; [apply zget_ok; split; [lia|auto]|]. split; [|apply Hv, (nth_error_In _ _ En)]. unfold point. apply nth_error_nth. rewrite nth_error_map, En. reflexivity. }
    destruct (Gz a) as (pa & Ea & Pa & Ta); [simpl; auto|]. destruct (Gz b) as (pb & Eb & Pb & Tb); [simpl; auto|]. destruct (Gz c) as (pc & Ec & Pc & Tc); [simpl; auto|].
    rewrite Ea, Eb, Ec. cbn [rbind triples map Rsum].
    pose proof (acc_weaken _ _ _ _ 4 4 _ 403 463 ltac:(lia) ltac:(lia) (Rle_refl _) (area_acc pa pb pc Ta Tb Tc)) as At.
    destruct (acc_step 4 n 403 360 _ _ _ _ _ _ ltac:(lia) ltac:(lia) ltac:(lia) Ax Pn At (area_bd pa pb pc Ta Tb Tc)) as (Sx & Sp).
    destruct (IH T _ _ _ (S n) ltac:(lia) ltac:(intros v Hin; apply Rg; simpl; auto) Sx Sp ltac:(lia)) as (x' & E' & A'). exists x'. split; [exact E'|].
    eapply acc_eq; [exact A'| | |lia|reflexivity|reflexivity].
    + change (area3 (map rvec vs) (a, b, c)) with (- ccw (point (map rvec vs) a) (point (map rvec vs) b) (point (map rvec vs) c) / 2). rewrite Pa, Pb, Pc. field.
    + change (tfn (map rvec vs) (a, b, c)) with (area_terms (point (map rvec vs) a) (point (map rvec vs) b) (point (map rvec vs) c)). rewrite Pa, Pb, Pc. ring.
Qed.
Lemma tri_area_acc vs h T H k : (forall v, In v vs -> tame_xy v) -> length T = (3 * k)%nat -> (forall v, In v T -> (0 <= v < Z.of_nat (length vs))%Z) -> (Z.of_nat k <= 2 ^ 49)%Z ->
  exists x, tri_area (mkTriangulation vs h T H) = Ok x /\ acc x (Rsum (map (area3 (map rvec vs)) (triples T))) (triangle_terms (map rvec vs) T) (4 + k) 361 463.
Proof.
  intros Hv E Rg Hk. unfold tri_area. cbn [tVectors tTriangles].
  destruct (tarea_loop vs Hv k T (fofZ B64 0) 0 0 0 E Rg (acc_zero _ _ _) ltac:(simpl; lra) Hk) as (x & El & A). exists (fdiv B64 x (fofZ B64 2)). split.
  - setoid_rewrite El. reflexivity.
  - eapply acc_eq; [exact (acc_halve _ _ _ _ 360 463 ltac:(lia) ltac:(lia) A)| | |lia|reflexivity|reflexivity]; [field|]. unfold triangle_terms. rewrite Rplus_0_l. reflexivity.
Qed.

(** ** polygonPerimeter *)
Lemma sqrt_fix (x : b64) : 0 <= B2R x -> fixm 360 (B2R x) -> Rabs (B2R x) <= bp 404 -> is_finite x = true -> rel (fsqrt B64 x) (rndX (sqrt (B2R x))) 240 262.
Proof.
  intros P Gx Bx Fx. pose proof (Bsqrt_correct 53 1024 b64_prec b64_pe mode_NE x) as (S1 & S2 & _). change (Bsqrt mode_NE x) with (fsqrt B64 x) in *.
  assert (Fz : is_finite (fsqrt B64 x : b64) = true).
  { etransitivity; [exact S2|]. destruct x as [|[]| |[] m ex B]; try discriminate; auto. exfalso. simpl in P. unfold F2R in P. simpl in P.
    assert (0 < IZR (Z.pos m) * bp ex) by (apply Rmult_lt_0_compat; [apply IZR_lt; lia|apply bpow_gt_0]). change (Z.neg m) with (- Z.pos m)%Z in P. rewrite opp_IZR in P. lra. }
  rewrite Rabs_pos_eq in Bx by auto.
  assert (Bs : sqrt (B2R x) <= bp 202). { rewrite <- (sqrt_square (bp 202)) by apply bpow_ge_0. apply sqrt_le_1_alt. rewrite <- bpow_plus. exact Bx. }
  destruct (Req_dec (B2R x) 0) as [E0|N0].
  { rewrite E0, sqrt_0, rndX_0 in *. split; [exact Fz|]. split; [etransitivity; [exact S1|]; apply round_0; typeclasses eauto|]. split; [exists 0%Z; ring|]. rewrite Rabs_R0. apply bpow_ge_0. }
  assert (L : bp (-360) <= B2R x).
  { destruct Gx as (z & E). rewrite E in *. assert (Hz : (1 <= z)%Z). { destruct (Z_lt_le_dec z 1) as [Q|Q]; [|exact Q]. exfalso. assert (Q' : (z <= 0)%Z) by lia. apply IZR_le in Q'. pose proof (bpow_gt_0 radix2 (-(360))). 
      destruct (Z.eq_dec z 0) as [->|]; [apply N0; ring|]. assert (Q2 : (z <= -1)%Z) by lia. apply IZR_le in Q2. assert (IZR z * bp (- (360)) <= -1 * bp (-(360))) by (apply Rmult_le_compat_r; lra). lra. }
    apply IZR_le in Hz. rewrite <- (Rmult_1_l (bp (-360))). apply Rmult_le_compat_r; [apply bpow_ge_0|exact Hz]. }
  assert (Ls : bp (-180) <= sqrt (B2R x)). { rewrite <- (sqrt_square (bp (-180))) by apply bpow_ge_0. apply sqrt_le_1_alt. rewrite <- bpow_plus. exact L. }
  pose proof (sqrt_pos (B2R x)) as Sp.
  assert (EF : rndF (sqrt (B2R x)) = rndX (sqrt (B2R x))).
  { unfold rndX. simpl round_mode. rewrite <- round_FLT_FLX with (emin := (-1074)%Z); [reflexivity|]. rewrite Rabs_pos_eq by auto. apply Rle_trans with (bp (-180)); [apply bpow_le; lia|exact Ls]. }
  assert (Lr : bp (-180) <= rndX (sqrt (B2R x))).
  { assert (Gb : generic_format radix2 (FLX_exp 53) (bp (-180))) by (apply generic_format_FLX; exists (Float radix2 1 (-180)); [unfold F2R; simpl; ring|simpl; lia]).
    unfold rndX. rewrite <- (round_generic radix2 (FLX_exp 53) ZnearestE (bp (-180)) Gb). apply round_le; [typeclasses eauto|typeclasses eauto|exact Ls]. }
  split; [exact Fz|]. split; [etransitivity; [exact S1|exact EF]|]. split.
  - pose proof (format_rndX (sqrt (B2R x))) as Gf. set (r := rndX (sqrt (B2R x))) in *. assert (R0 : 0 < r) by (pose proof (bpow_gt_0 radix2 (-180)); lra).
    rewrite Gf. unfold F2R, cexp, FLX_exp. cbn [Fnum Fexp]. assert (Mg : (-179 <= mag radix2 r)%Z). { change (-179)%Z with (-180 + 1)%Z. apply mag_ge_bpow. rewrite Rabs_pos_eq by lra. exact Lr. }
    set (z := Ztrunc _). exists (z * radix2 ^ (mag radix2 r - 53 + 240))%Z. rewrite mult_IZR, IZR_Zpower by lia. rewrite Rmult_assoc, <- bpow_plus. do 2 f_equal. lia.
  - apply rndX_bound. rewrite Rabs_pos_eq by auto. eapply Rle_trans; [exact Bs|]. apply bpow_le. lia.
Qed.
Lemma sqrt_close d e' c : 0 <= d -> 0 <= e' -> 0 <= c -> Rabs (e' - d * d) <= c * (d * d) -> Rabs (sqrt e' - d) <= c * d.
Proof.
  intros Hd He Hc H. pose proof (sqrt_pos e') as Sp. pose proof (sqrt_sqrt e' He) as Ss. destruct (Req_dec d 0) as [->|N].
  - rewrite !Rmult_0_r in *. rewrite Rminus_0_r in *. assert (e' = 0) as -> by (apply Rabs_le_inv in H; lra). rewrite sqrt_0, Rabs_R0. lra.
  - assert (Q : Rabs (sqrt e' - d) * (sqrt e' + d) <= c * d * (sqrt e' + d)).
    { rewrite <- (Rabs_pos_eq (sqrt e' + d)) at 1 by lra. rewrite <- Rabs_mult. replace ((sqrt e' - d) * (sqrt e' + d)) with (sqrt e' * sqrt e' - d * d) by ring. rewrite Ss.
      eapply Rle_trans; [exact H|]. rewrite Rmult_assoc. apply Rmult_le_compat_l; [exact Hc|]. apply Rmult_le_compat_l; lra. }
    apply Rmult_le_reg_r with (sqrt e' + d); [lra|exact Q].
Qed.
Lemma dist_acc (a b : vec B64) : tame_vec a -> tame_vec b -> acc (Distance a b) (rdist (rvec a) (rvec b)) (rdist (rvec a) (rvec b)) 6 240 262 /\ rdist (rvec a) (rvec b) <= bp 203.
Proof.
  intros Ha Hb. pose proof (sqdist_acc a b Ha Hb) as Q. set (D := rdist2 (rvec a) (rvec b)) in *. assert (D0 : 0 <= D). { pose proof (acc_p _ _ _ _ _ _ Q). exact H. }
  set (d := rdist (rvec a) (rvec b)). assert (Ed : d * d = D) by (unfold d, rdist; apply sqrt_sqrt, D0). assert (d0 : 0 <= d) by (unfold d, rdist; apply sqrt_pos).
  pose proof (acc_bound _ _ _ _ _ _ Q) as (F & B). destruct Q as ((_ & _ & G & M) & Q2 & Q3).
  assert (G5 : 0 <= gamma 5 <= / 2). { split; [unfold gamma; fold u53; pose proof (g1 5); lra|]. eapply Rle_trans; [apply gamma_lin; discriminate|]. simpl INR. lra. }
  assert (f0 : 0 <= B2R (SquaredDistance a b : b64)). { apply Rabs_le_inv in B. assert (gamma 5 * D <= / 2 * D) by (apply Rmult_le_compat_r; lra). lra. }
  pose proof (sqrt_fix _ f0 G M F) as S. rewrite <- Ed in B. pose proof (sqrt_close d _ (gamma 5) d0 f0 (proj1 G5) B) as C. destruct (rel_self _ _ _ _ S) as (Rs & E).
  split.
  - change (Distance a b) with (fsqrt B64 (SquaredDistance a b)). split; [exact Rs|]. rewrite E. split; [|rewrite Rabs_pos_eq; lra].
    set (s := sqrt (B2R (SquaredDistance a b : b64))) in *. pose proof (rndX_err' s) as Er. pose proof u0 as U. assert (s0 : 0 <= s) by apply sqrt_pos. rewrite (Rabs_pos_eq s) in Er by auto.
    assert (s1 : s <= g 5 * d). { apply Rabs_le_inv in C. unfold gamma in C. fold u53 in C. lra. }
    assert (Us : u * s <= u * (g 5 * d)) by (apply Rmult_le_compat_l; lra).
    replace (d - rndX s) with ((d - s) - (rndX s - s)) by ring. eapply Rle_trans; [apply Rabs_triang|]. rewrite Rabs_Ropp, (Rabs_minus_sym d). unfold gamma in C. fold u53 in C.
    replace (g 6) with ((1 + u) * g 5) by (simpl; ring). lra.
  - unfold d, rdist. fold D. rewrite <- (sqrt_square (bp 203)) by apply bpow_ge_0. apply sqrt_le_1_alt. rewrite <- bpow_plus.
    destruct Ha as (A1 & A2 & A3), Hb as (B1 & B2 & B3). unfold D, rdist2, rdot, rsub. cbn [rx ry rz rvec].
    assert (Sq : forall x y : b64, tame x -> tame y -> (B2R x - B2R y) * (B2R x - B2R y) <= bp 402).
    { intros x y Hx Hy. change 402%Z with (201 + 201)%Z. rewrite bpow_plus. eapply Rle_trans; [apply Rle_abs|]. rewrite Rabs_mult. apply Rmult_le_compat; try apply Rabs_pos; exact (proj1 (two_bd _ _ (tame_bd _ Hx) (tame_bd _ Hy))). }
    pose proof (Sq _ _ A1 B1). pose proof (Sq _ _ A2 B2). pose proof (Sq _ _ A3 B3). pose proof (bpow_ge_0 radix2 402). change (203 + 203)%Z with (402 + 4)%Z. rewrite bpow_plus. change (bp 4) with 16. lra.
Qed.
Lemma peri_loop : forall l i q x e p (n : nat), tame_vec q -> (forall v, In v l -> tame_vec v) -> acc x e p (6 + n) 240 263 -> p <= INR n * bp 203 -> (Z.of_nat (n + length l) <= 2 ^ 49)%Z ->
  exists x' q', range_loop i l (x, q) (fun _ p '(result, q) => Ok (fadd B64 result (Distance p q), p)) = Ok (x', q') /\ let s := psum (fun a b => rdist b a) (map rvec (q :: l)) in acc x' (e + s) (p + s) (6 + n + length l) 240 263.
Proof.
  induction l as [|v l IH]; intros i q x e p n Hq Hl Ax Pn Hn.
  - exists x, q. split; [reflexivity|]. cbn [map psum length]. cbv zeta. rewrite !Rplus_0_r, Nat.add_0_r. exact Ax.
  - cbn [range_loop rbind]. assert (Hv : tame_vec v) by (apply Hl; left; reflexivity). destruct (dist_acc v q Hv Hq) as (Ad & Bd). cbn [length] in Hn.
    pose proof (acc_weaken _ _ _ _ 6 6 _ 262 263 ltac:(lia) ltac:(lia) (Rle_refl _) Ad) as Aw.
    destruct (acc_step 6 n 203 240 _ _ _ _ _ _ ltac:(lia) ltac:(lia) ltac:(lia) Ax Pn Aw Bd) as (Sx & Sp).
    destruct (IH (i + 1)%Z v _ _ _ (S n) Hv (fun w Hw => Hl w (or_intror Hw)) Sx Sp ltac:(lia)) as (x' & q' & E & A'). exists x', q'. split; [exact E|]. cbv zeta in *.
    cbn [map length] in *. rewrite psum_cons2. eapply acc_eq; [exact A'| | |lia|reflexivity|reflexivity]; ring.
Qed.
Lemma peri_psum l m z : l = m ++ [z] -> psum (fun a b => rdist b a) (z :: l) = perimeter3 l.
Proof.
  intros Hz. unfold perimeter3. rewrite edges_psum.
  assert (Sym : forall a b, rdist b a = rdist a b). { intros. unfold rdist, rdist2. f_equal. unfold rdot, rsub; simpl; ring. }
  rewrite (psum_ext _ rdist) by auto. replace (close l) with (close (m ++ [z])) by (rewrite Hz; reflexivity). rewrite <- close_rot. rewrite Hz. unfold close. reflexivity.
Qed.
Lemma perimeter_acc vs : (forall v, In v vs -> tame_vec v) -> (Z.of_nat (length vs) <= 2 ^ 49)%Z ->
  exists x, polygonPerimeter vs = Ok x /\ acc x (perimeter3 (map rvec vs)) (perimeter3 (map rvec vs)) (6 + length vs) 240 263.
Proof.
  intros Hv Hn. unfold polygonPerimeter. destruct (Z.eqb_spec (Z.of_nat (length vs)) 0) as [E0|N].
  { destruct vs; [|cbn [length] in E0; lia]. exists (fofZ B64 0). split; [reflexivity|]. change (perimeter3 (map rvec [])) with 0. apply acc_zero. }
  destruct (exists_last (l := vs)) as (m & z & Ez); [intros ->; apply N; reflexivity|].
  assert (Ln : length vs = S (length m)) by (rewrite Ez, app_length; simpl; lia).
  assert (Eg : zget vs (Z.of_nat (length vs) - 1) = Ok z).
  { replace (Z.of_nat (length vs) - 1)%Z with (Z.of_nat (length m)) by lia. rewrite zget_nat. rewrite Ez, nth_error_app2, Nat.sub_diag by lia. reflexivity. }
  rewrite Eg. cbn [rbind].
  destruct (peri_loop vs 0 z (fofZ B64 0) 0 0 0 ltac:(apply Hv; rewrite Ez; apply in_app_iff; right; left; reflexivity) Hv (acc_zero _ _ _) ltac:(simpl; lra) Hn) as (x & q & E & A).
  exists x. split; [setoid_rewrite E; reflexivity|]. cbv zeta in A. cbn [map] in A. rewrite (peri_psum (map rvec vs) (map rvec m) (rvec z)) in A by (rewrite Ez, map_app; reflexivity). rewrite !Rplus_0_l in A. exact A.
Qed.
