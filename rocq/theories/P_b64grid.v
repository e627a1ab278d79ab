(** The predicates and the circumcircle computations of triangulate2 in binary64, on points of a grid:
    coordinates k * 2^e with |k| <= 128. *)
From Coq Require Import ZArith Lia List Bool Reals Lra QArith.
From Flocq Require Import Core BinarySingleNaN.
From Verif Require Import Base Arith M_r3 M_tri2 M_triangulator Spec_r3 Spec_plane Spec_delaunay XRvec P_tri2 P_delgeom
  P_legmodel P_tstate P_insert P_seed P_insphere_err P_insphere_b64 P_b64sc P_b64hash P_b64err P_gridgeo.
Import ListNotations.
Open Scope Z_scope.

Lemma si_cast x e f k l B C : si x e k B -> e = f -> k = l -> B <= C -> si x f l C.
Proof. intros H <- <- L. apply (si_weaken _ _ _ B); auto. Qed.
Lemma sr_cast x e f r s : sr x e r -> e = f -> r = s -> sr x f s.
Proof. intros H <- <-. auto. Qed.
Lemma sr_half x e r : sr x e r -> sr x (e - 1) (2 * r).
Proof. intros [F E]. split; auto. rewrite E. unfold Z.sub. rewrite bpow_plus. simpl (bp (-1)). simpl. lra. Qed.

Lemma si_mulE x k y l e f g B C D : si x e k B -> si y f l C -> e + f = g -> B * C <= D -> B * C <= 2 ^ 53 -> okexp g -> si (fmul B64 x y) g (k * l) D.
Proof. intros H1 H2 <- L M O. eapply si_weaken; [exact L|]. apply si_mul; auto. Qed.

Lemma sr_mulE x r y s e f g : sr x e r -> sr y f s -> e + f = g -> okexp g -> tame_r (r * s) -> sr (fmul B64 x y) g (rndX (r * s)).
Proof. intros H1 H2 <- O T. apply sr_mul; auto. Qed.
Lemma sr_divE x r y s e f g : sr x e r -> sr y f s -> s <> 0%R -> e - f = g -> okexp g -> tame_r (r / s) -> sr (fdiv B64 x y) g (rndX (r / s)).
Proof. intros H1 H2 N <- O T. apply sr_div; auto. Qed.

Section Pred.
Variable e : Z.
Hypothesis He : -170 <= e <= 170.
(* a coordinate *)
Notation cd x k := (si x e k 128).
Lemma oke k : -4 <= k <= 4 -> okexp (k * e). Proof. unfold okexp. nia. Qed.
Ltac okx := unfold okexp; lia.

Lemma cd_sub x k y l : cd x k -> cd y l -> si (fsub B64 x y) e (k - l) 256.
Proof. intros. apply (si_sub _ _ _ _ _ 128 128); auto; okx. Qed.
Lemma d_mul x k y l : si x e k 256 -> si y e l 256 -> si (fmul B64 x y) (2 * e) (k * l) 65536.
Proof. intros. apply (si_mulE _ _ _ _ e e _ 256 256); auto; okx. Qed.
Lemma d_cross x k y l z m w n : si x e k 256 -> si y e l 256 -> si z e m 256 -> si w e n 256 ->
  si (fsub B64 (fmul B64 x y) (fmul B64 z w)) (2 * e) (k * l - m * n) 131072.
Proof. intros. apply (si_sub _ _ _ _ _ 65536 65536); try okx; apply d_mul; auto. Qed.
Lemma d_sq2 x k y l : si x e k 256 -> si y e l 256 ->
  si (fadd B64 (fmul B64 x x) (fmul B64 y y)) (2 * e) (k * k + l * l) 131072.
Proof. intros. apply (si_add _ _ _ _ _ 65536 65536); try okx; apply d_mul; auto. Qed.
Lemma d_cubic x k y l z m w n : si x e k 256 -> si y (2 * e) l 131072 -> si z e m 256 -> si w (2 * e) n 131072 ->
  si (fsub B64 (fmul B64 x y) (fmul B64 w z)) (3 * e) (k * l - n * m) 67108864.
Proof.
  intros. apply (si_sub _ _ _ _ _ 33554432 33554432); try okx.
  - apply (si_mulE _ _ _ _ e (2 * e) _ 256 131072); auto; okx.
  - apply (si_mulE _ _ _ _ (2 * e) e _ 131072 256); auto; okx.
Qed.

(** [area] *)
Lemma area_si (a b c : vec B64) xa ya xb yb xc yc : cd (vx a) xa -> cd (vy a) ya -> cd (vx b) xb -> cd (vy b) yb -> cd (vx c) xc -> cd (vy c) yc ->
  si (area a b c) (2 * e) ((yb - ya) * (xc - xb) - (xb - xa) * (yc - yb)) 131072.
Proof. intros. unfold area. apply d_cross; apply cd_sub; auto. Qed.

(** [inCircle] *)
Definition zinc (xa ya xb yb xc yc xp yp : Z) : Z :=
  let dx := xa - xp in let dy := ya - yp in let ex := xb - xp in let ey := yb - yp in let fx := xc - xp in let fy := yc - yp in
  let ap := dx * dx + dy * dy in let bp := ex * ex + ey * ey in let cp := fx * fx + fy * fy in
  dx * (ey * cp - bp * fy) - dy * (ex * cp - bp * fx) + ap * (ex * fy - ey * fx).
Lemma inCircle_si (a b c p : vec B64) xa ya xb yb xc yc xp yp :
  cd (vx a) xa -> cd (vy a) ya -> cd (vx b) xb -> cd (vy b) yb -> cd (vx c) xc -> cd (vy c) yc -> cd (vx p) xp -> cd (vy p) yp ->
  inCircle a b c p = (zinc xa ya xb yb xc yc xp yp <? 0).
Proof.
  intros. unfold inCircle. rewrite <- IZR_lt_b. apply (sr_lt _ _ _ _ (4 * e)); [|apply sr_zero].
  apply (si_sr _ _ _ (3 * 17179869184)). unfold zinc. cbv zeta.
  assert (C4 : forall x k y l, si x e k 256 -> si y (3 * e) l 67108864 -> si (fmul B64 x y) (4 * e) (k * l) 17179869184).
  { intros. apply (si_mulE _ _ _ _ e (3 * e) _ 256 67108864); auto; okx. }
  apply (si_add _ _ _ _ _ (2 * 17179869184) 17179869184); try okx.
  - apply (si_sub _ _ _ _ _ 17179869184 17179869184); try okx; apply C4; try (apply cd_sub; auto); apply d_cubic; try (apply cd_sub; auto);
      apply d_sq2; apply cd_sub; auto.
  - apply (si_mulE _ _ _ _ (2 * e) (2 * e) _ 131072 131072); try okx.
    + apply d_sq2; apply cd_sub; auto.
    + apply d_cross; apply cd_sub; auto.
Qed.

(** the circumcircle; all numbers relative to corner a *)
Section Circum.
Variables (a b c : vec B64) (xa ya xb yb xc yc : Z).
Hypotheses (Hxa : cd (vx a) xa) (Hya : cd (vy a) ya) (Hxb : cd (vx b) xb) (Hyb : cd (vy b) yb) (Hxc : cd (vx c) xc) (Hyc : cd (vy c) yc).
Definition zd : Z := (xb - xa) * (yc - ya) - (yb - ya) * (xc - xa).
Definition zL : Z := (xb - xa) * (xb - xa) + (yb - ya) * (yb - ya).
Definition zC : Z := (xc - xa) * (xc - xa) + (yc - ya) * (yc - ya).
Definition zN : Z := (xc - xa) * (xc - xb) + (yc - ya) * (yc - yb).
Definition zX : Z := (yc - ya) * zL - (yb - ya) * zC.
Definition zY : Z := (xb - xa) * zC - (xc - xa) * zL.
Lemma zXY : zX * zX + zY * zY = zL * (zN * zN + zd * zd).
Proof. unfold zX, zY, zL, zC, zN, zd. ring. Qed.
Let dx := fsub B64 (vx b) (vx a).
Let dy := fsub B64 (vy b) (vy a).
Let ex := fsub B64 (vx c) (vx a).
Let ey := fsub B64 (vy c) (vy a).
Let bl := fadd B64 (fmul B64 dx dx) (fmul B64 dy dy).
Let cl := fadd B64 (fmul B64 ex ex) (fmul B64 ey ey).
Let d := fsub B64 (fmul B64 dx ey) (fmul B64 dy ex).
Let xn := fdiv B64 (fmul B64 (fsub B64 (fmul B64 ey bl) (fmul B64 dy cl)) (fofQ B64 (1 # 2))) d.
Let yn := fdiv B64 (fmul B64 (fsub B64 (fmul B64 dx cl) (fmul B64 ex bl)) (fofQ B64 (1 # 2))) d.
Lemma Hd : si d (2 * e) zd 131072. Proof. apply d_cross; apply cd_sub; auto. Qed.
Lemma Hbl : si bl (2 * e) zL 131072. Proof. apply d_sq2; apply cd_sub; auto. Qed.
Lemma Hcl : si cl (2 * e) zC 131072. Proof. apply d_sq2; apply cd_sub; auto. Qed.
Lemma d_cubic' x k y l z m w n : si x e k 256 -> si y (2 * e) l 131072 -> si z e m 256 -> si w (2 * e) n 131072 ->
  si (fmul B64 (fsub B64 (fmul B64 x y) (fmul B64 z w)) (fofQ B64 (1 # 2))) (3 * e - 1) (k * l - m * n) 67108864.
Proof.
  intros. replace (k * l - m * n) with ((k * l - m * n) * 1) by ring.
  apply (si_mulE _ _ _ _ (3 * e) (-1) _ 67108864 1); try okx; [|apply si_half].
  apply (si_sub _ _ _ _ _ 33554432 33554432); try okx.
  - apply (si_mulE _ _ _ _ e (2 * e) _ 256 131072); auto; okx.
  - apply (si_mulE _ _ _ _ e (2 * e) _ 256 131072); auto; okx.
Qed.
Lemma HX : si (fmul B64 (fsub B64 (fmul B64 ey bl) (fmul B64 dy cl)) (fofQ B64 (1 # 2))) (3 * e - 1) zX 67108864.
Proof. apply d_cubic'; try apply cd_sub; auto using Hbl, Hcl. Qed.
Lemma HY : si (fmul B64 (fsub B64 (fmul B64 dx cl) (fmul B64 ex bl)) (fofQ B64 (1 # 2))) (3 * e - 1) zY 67108864.
Proof. apply d_cubic'; try apply cd_sub; auto using Hbl, Hcl. Qed.
Lemma coords : Z.abs xa <= 128 /\ Z.abs ya <= 128 /\ Z.abs xb <= 128 /\ Z.abs yb <= 128 /\ Z.abs xc <= 128 /\ Z.abs yc <= 128.
Proof. repeat split; eapply si_bd; eauto. Qed.
Lemma zd_bound : Z.abs zd <= 65536.
Proof.
  pose proof coords. pose proof (box_area 256 (xa + 128) (ya + 128) (xb + 128) (yb + 128) (xc + 128) (yc + 128)) as Q.
  unfold zd. replace ((xb + 128 - (xa + 128)) * (yc + 128 - (ya + 128)) - (yb + 128 - (ya + 128)) * (xc + 128 - (xa + 128)))
    with ((xb - xa) * (yc - ya) - (yb - ya) * (xc - xa)) in Q by ring. change (256 * 256) with 65536 in Q. apply Q; lia.
Qed.
Lemma zL_bound : 0 <= zL <= 131072.
Proof. pose proof (si_bd _ _ _ _ Hbl). unfold zL in *. pose proof (Z.square_nonneg (xb - xa)). pose proof (Z.square_nonneg (yb - ya)). lia. Qed.
Lemma zN_bound : Z.abs zN <= 131072.
Proof.
  assert (G : si (fadd B64 (fmul B64 ex (fsub B64 (vx c) (vx b))) (fmul B64 ey (fsub B64 (vy c) (vy b)))) (2 * e) zN 131072).
  { apply (si_add _ _ _ _ _ 65536 65536); try okx; apply d_mul; apply cd_sub; auto. }
  apply (si_bd _ _ _ _ G).
Qed.

Open Scope R_scope.
(* coordinates of the center relative to a, in half grid units *)
Definition rX : R := IZR zX / IZR zd.
Definition rY : R := IZR zY / IZR zd.
(* four times the squared radius, in grid units *)
Definition rT : R := IZR zL * (IZR zN * IZR zN + IZR zd * IZR zd) / (IZR zd * IZR zd).
Hypothesis Nd : zd <> 0%Z.
Lemma Nd' : IZR zd <> 0. Proof. apply not_0_IZR; auto. Qed.
Lemma rXY : rX * rX + rY * rY = rT.
Proof.
  unfold rX, rY, rT. rewrite <- !mult_IZR, <- plus_IZR, <- mult_IZR, <- zXY, plus_IZR, !mult_IZR. field. apply Nd'.
Qed.
Lemma zL1 : (1 <= zL)%Z.
Proof.
  destruct zL_bound as [P _]. destruct (Z.eq_dec zL 0) as [E|]; [|lia]. exfalso. apply Nd.
  unfold zL in E. pose proof (Z.square_nonneg (xb - xa)). pose proof (Z.square_nonneg (yb - ya)).
  assert (xb - xa = 0)%Z by nia. assert (yb - ya = 0)%Z by nia. unfold zd. rewrite H1, H2. ring.
Qed.
Lemma sq_pos k : k <> 0%Z -> 0 < IZR k * IZR k.
Proof. intros N. apply not_0_IZR in N. pose proof (Rsqr_pos_lt _ N). unfold Rsqr in *. auto. Qed.
Lemma rT1 : 1 <= rT.
Proof.
  unfold rT. pose proof (sq_pos zd Nd) as P. apply (Rmult_le_reg_r (IZR zd * IZR zd)); auto. unfold Rdiv.
  rewrite (Rmult_assoc (_ * _)), Rinv_l, Rmult_1_l, Rmult_1_r by lra.
  pose proof zL1 as L1. apply IZR_le in L1. pose proof (Rle_0_sqr (IZR zN)) as S. unfold Rsqr in S.
  apply Rle_trans with (1 * (IZR zN * IZR zN + IZR zd * IZR zd)); [lra|]. apply Rmult_le_compat_r; lra.
Qed.
Lemma rT_max : rT <= 2251799813685248.
Proof.
  (* zN^2 + zd^2 = |c-a|^2 |c-b|^2 *)
  assert (E : (zN * zN + zd * zd = zC * ((xc - xb) * (xc - xb) + (yc - yb) * (yc - yb)))%Z) by (unfold zN, zd, zC; ring).
  assert (B2 : (0 <= (xc - xb) * (xc - xb) + (yc - yb) * (yc - yb) <= 131072)%Z).
  { assert (G : si (fadd B64 (fmul B64 (fsub B64 (vx c) (vx b)) (fsub B64 (vx c) (vx b))) (fmul B64 (fsub B64 (vy c) (vy b)) (fsub B64 (vy c) (vy b)))) (2 * e)
        ((xc - xb) * (xc - xb) + (yc - yb) * (yc - yb)) 131072) by (apply d_sq2; apply cd_sub; auto).
    pose proof (si_bd _ _ _ _ G). pose proof (Z.square_nonneg (xc - xb)). pose proof (Z.square_nonneg (yc - yb)). lia. }
  assert (B1 : (0 <= zC <= 131072)%Z).
  { pose proof (si_bd _ _ _ _ Hcl). pose proof (Z.square_nonneg (xc - xa)). pose proof (Z.square_nonneg (yc - ya)). unfold zC in *. lia. }
  pose proof zL_bound as B0.
  assert (K : (zL * (zN * zN + zd * zd) <= 2251799813685248)%Z).
  { rewrite E. replace 2251799813685248%Z with (131072 * (131072 * 131072))%Z by reflexivity. apply Z.mul_le_mono_nonneg; try lia.
    apply Z.mul_nonneg_nonneg; lia. apply Z.mul_le_mono_nonneg; lia. }
  assert (D1 : (1 <= zd * zd)%Z) by nia.
  unfold rT. apply IZR_le in K. apply IZR_le in D1. rewrite !mult_IZR, plus_IZR, !mult_IZR in K. rewrite mult_IZR in D1.
  apply (Rmult_le_reg_r (IZR zd * IZR zd)); [lra|]. unfold Rdiv.
  rewrite (Rmult_assoc (_ * _)), Rinv_l, Rmult_1_r by lra.
  apply Rle_trans with (1 := K). apply Rle_trans with (2251799813685248 * 1); [lra|]. apply Rmult_le_compat_l; lra.
Qed.
Lemma rX_max : Rabs rX <= 47453133 /\ Rabs rY <= 47453133.
Proof.
  assert (G : forall x y, x * x + y * y = rT -> Rabs x <= 47453133).
  { intros x y E. pose proof rT_max as M. pose proof (Rle_0_sqr y) as S. unfold Rsqr in S.
    apply Rsqr_incr_0_var; [|lra]. rewrite <- Rsqr_abs. unfold Rsqr. lra. }
  split; [apply (G rX rY), rXY|apply (G rY rX)]. rewrite <- rXY. ring.
Qed.
(* the quotients *)
Lemma quot z : (Z.abs z <= 67108864)%Z -> tame_r (IZR z / IZR zd) /\ fixm 70 (rndX (IZR z / IZR zd)).
Proof.
  intros Hz. assert (F : fixm 70 (rndX (IZR z / IZR zd))).
  { destruct (Z.eq_dec z 0) as [->|N].
    - unfold Rdiv. rewrite Rmult_0_l, rndX_0. apply (fixm_IZR 70 0). lia.
    - apply (fixm_weak (16 + 52)); [lia|]. apply fixm_rnd. apply (div_big z zd 16); auto; [|lia]. pose proof zd_bound. simpl. lia. }
  split; auto. split.
  - destruct (Z.eq_dec z 0) as [->|N]; [left; unfold Rdiv; ring|right].
    apply Rle_trans with (bp (-16)); [apply bpow_le; lia|]. apply (div_big z zd 16); auto; [|lia]. pose proof zd_bound. simpl. lia.
  - apply Rle_trans with (bp 26); [|apply bpow_le; lia]. change (bp 26) with 67108864.
    unfold Rdiv. rewrite Rabs_mult, Rabs_inv, <- !abs_IZR. assert (1 <= IZR (Z.abs zd)) by (apply IZR_le; lia).
    apply IZR_le in Hz. assert (/ IZR (Z.abs zd) <= / 1) by (apply Rinv_le; lra). rewrite Rinv_1 in *.
    assert (0 < / IZR (Z.abs zd)) by (apply Rinv_0_lt_compat; lra). pose proof (Rabs_pos (IZR z)) as A. rewrite <- abs_IZR in A.
    apply Rle_trans with (67108864 * 1); [|lra]. apply Rmult_le_compat; lra.
Qed.
Lemma Hxn : sr xn (e - 1) (rndX rX).
Proof.
  pose proof (si_bd _ _ _ _ HX) as B. destruct (quot zX B) as [T _].
  apply (sr_divE _ _ _ _ (3 * e - 1) (2 * e)); auto; [apply (si_sr _ _ _ _ HX)|apply (si_sr _ _ _ _ Hd)|apply Nd'|lia|okx].
Qed.
Lemma Hyn : sr yn (e - 1) (rndX rY).
Proof.
  pose proof (si_bd _ _ _ _ HY) as B. destruct (quot zY B) as [T _].
  apply (sr_divE _ _ _ _ (3 * e - 1) (2 * e)); auto; [apply (si_sr _ _ _ _ HY)|apply (si_sr _ _ _ _ Hd)|apply Nd'|lia|okx].
Qed.
Lemma fix_rX : fixm 70 (rndX rX). Proof. apply (quot zX (si_bd _ _ _ _ HX)). Qed.
Lemma fix_rY : fixm 70 (rndX rY). Proof. apply (quot zY (si_bd _ _ _ _ HY)). Qed.
Lemma bd_rX : Rabs (rndX rX) <= bp 26.
Proof. apply rndX_bound. change (bp 26) with 67108864. pose proof rX_max. lra. Qed.
Lemma bd_rY : Rabs (rndX rY) <= bp 26.
Proof. apply rndX_bound. change (bp 26) with 67108864. pose proof rX_max. lra. Qed.
Lemma sq_tame t : fixm 70 t -> Rabs t <= bp 30 -> tame_r (t * t) /\ fixm 140 (rndX (t * t)) /\ Rabs (rndX (t * t)) <= bp 60.
Proof.
  intros F B. assert (F2 : fixm 140 (t * t)) by (apply (fixm_mul 70 70); auto).
  assert (B2 : Rabs (t * t) <= bp 60).
  { rewrite Rabs_mult. replace (bp 60) with (bp 30 * bp 30) by (rewrite <- bpow_plus; reflexivity). apply Rmult_le_compat; auto using Rabs_pos. }
  split; [apply (fixm_tame 140 60); auto; lia|]. split; [apply fixm_round; auto|apply rndX_bound; auto].
Qed.
Definition rR : R := rndX (rndX (rndX rX * rndX rX) + rndX (rndX rY * rndX rY)).
Lemma bp26_30 t : Rabs t <= bp 26 -> Rabs t <= bp 30.
Proof. intros H. apply Rle_trans with (1 := H). apply bpow_le. lia. Qed.
Lemma Hr : sr (fadd B64 (fmul B64 xn xn) (fmul B64 yn yn)) (2 * (e - 1)) rR.
Proof.
  destruct (sq_tame _ fix_rX (bp26_30 _ bd_rX)) as (T1 & F1 & B1). destruct (sq_tame _ fix_rY (bp26_30 _ bd_rY)) as (T2 & F2 & B2).
  apply sr_add; [okx| | |].
  - apply (fixm_tame 140 61); try lia; [apply fixm_add; auto|]. apply Rle_trans with (1 := Rabs_triang _ _).
    replace (bp 61) with (2 * bp 60) by (change (bp 61) with (bp (1 + 60)); rewrite bpow_plus; reflexivity). lra.
  - apply (sr_mulE _ _ _ _ (e - 1) (e - 1)); auto; try apply Hxn; okx.
  - apply (sr_mulE _ _ _ _ (e - 1) (e - 1)); auto; try apply Hyn; okx.
Qed.
Lemma rR_near : near 4 rT rR.
Proof. rewrite <- rXY. apply near_norm2. Qed.
Lemma circumradius_sr : sr (circumradius a b c) (2 * (e - 1)) rR.
Proof.
  change (sr (if (feq B64 bl (fofZ B64 0) || feq B64 cl (fofZ B64 0) || feq B64 d (fofZ B64 0) || feq B64 (fadd B64 (fmul B64 xn xn) (fmul B64 yn yn)) (fofZ B64 0))%bool
    then @infinity B64 else fadd B64 (fmul B64 xn xn) (fmul B64 yn yn)) (2 * (e - 1)) rR).
  pose proof rT1 as T1. assert (RP : 0 < rR).
  { pose proof rR_near as [N _]. pose proof u_pos. assert (0 < (1 - u) ^ 4 * rT); [|lra]. apply Rmult_lt_0_compat; [apply pow_lt; lra|lra]. }
  rewrite (sr_eq _ _ _ _ _ (si_sr _ _ _ _ Hbl) (sr_zero _)), (sr_eq _ _ _ _ _ (si_sr _ _ _ _ Hcl) (sr_zero _)),
    (sr_eq _ _ _ _ _ (si_sr _ _ _ _ Hd) (sr_zero _)), (sr_eq _ _ _ _ _ Hr (sr_zero _)).
  pose proof zL1. assert (zC <> 0)%Z.
  { intros E. apply Nd. unfold zC in E. pose proof (Z.square_nonneg (xc - xa)). pose proof (Z.square_nonneg (yc - ya)).
    assert (Q1 : (xc - xa = 0)%Z) by nia. assert (Q2 : (yc - ya = 0)%Z) by nia. unfold zd. rewrite Q1, Q2. ring. }
  destruct (Reqb_spec (IZR zL) 0) as [Q|_]; [apply (eq_IZR _ 0) in Q; lia|].
  destruct (Reqb_spec (IZR zC) 0) as [Q|_]; [apply (eq_IZR _ 0) in Q; lia|].
  destruct (Reqb_spec (IZR zd) 0) as [Q|_]; [apply (eq_IZR _ 0) in Q; lia|].
  destruct (Reqb_spec rR 0) as [Q|_]; [lra|]. apply Hr.
Qed.

(** the center *)
Definition cX : R := rndX (2 * IZR xa + rndX rX).
Definition cY : R := rndX (2 * IZR ya + rndX rY).
Lemma cen k t : (Z.abs k <= 128)%Z -> fixm 70 (rndX t) -> Rabs t <= 47453133 ->
  tame_r (2 * IZR k + rndX t) /\ fixm 70 (rndX (2 * IZR k + rndX t)) /\ Rabs (rndX (2 * IZR k + rndX t) - (2 * IZR k + t)) <= / 10000000.
Proof.
  intros Hk F B. assert (Bk : Rabs (2 * IZR k) <= 256).
  { rewrite Rabs_mult, (Rabs_pos_eq 2), <- abs_IZR by lra. apply IZR_le in Hk. lra. }
  pose proof (rndX_err' t) as E1. pose proof (rndX_err' (2 * IZR k + rndX t)) as E2.
  assert (Bt : Rabs (rndX t) <= 67108864).
  { change 67108864 with (bp 26). apply rndX_bound. change (bp 26) with 67108864. lra. }
  assert (Bs : Rabs (2 * IZR k + rndX t) <= 70000000) by (pose proof (Rabs_triang (2 * IZR k) (rndX t)); lra).
  assert (Fs : fixm 70 (2 * IZR k + rndX t)).
  { apply fixm_add; auto. rewrite <- mult_IZR. apply fixm_IZR. lia. }
  split; [|split].
  - apply (fixm_tame 70 27); auto; try lia. change (bp 27) with 134217728. lra.
  - apply fixm_round; auto.
  - replace (rndX (2 * IZR k + rndX t) - (2 * IZR k + t)) with ((rndX (2 * IZR k + rndX t) - (2 * IZR k + rndX t)) + (rndX t - t)) by ring.
    apply Rle_trans with (1 := Rabs_triang _ _).
    assert (u * Rabs t <= u * 70000000) by (apply Rmult_le_compat_l; pose proof u_pos; lra).
    assert (u * Rabs (2 * IZR k + rndX t) <= u * 70000000) by (apply Rmult_le_compat_l; pose proof u_pos; lra).
    rewrite u_val in *. lra.
Qed.
Lemma cX_facts : tame_r (2 * IZR xa + rndX rX) /\ fixm 70 cX /\ Rabs (cX - (2 * IZR xa + rX)) <= / 10000000.
Proof. apply cen; [apply coords|apply fix_rX|apply rX_max]. Qed.
Lemma cY_facts : tame_r (2 * IZR ya + rndX rY) /\ fixm 70 cY /\ Rabs (cY - (2 * IZR ya + rY)) <= / 10000000.
Proof. apply cen; [apply coords|apply fix_rY|apply rX_max]. Qed.
Lemma circumcenter_sr : sr (vx (circumcenter a b c)) (e - 1) cX /\ sr (vy (circumcenter a b c)) (e - 1) cY /\
  sr (vz (circumcenter a b c)) (e - 1) 0.
Proof.
  split; [|split].
  - change (vx (circumcenter a b c)) with (fadd B64 (vx a) xn). apply sr_add; [okx|apply cX_facts| |apply Hxn]. apply sr_half, (si_sr _ _ _ _ Hxa).
  - change (vy (circumcenter a b c)) with (fadd B64 (vy a) yn). apply sr_add; [okx|apply cY_facts| |apply Hyn]. apply sr_half, (si_sr _ _ _ _ Hya).
  - apply (sr_zero (e - 1)).
Qed.
End Circum.
Lemma circumradius_inf (a b c : vec B64) xa ya xb yb xc yc : cd (vx a) xa -> cd (vy a) ya -> cd (vx b) xb -> cd (vy b) yb -> cd (vx c) xc -> cd (vy c) yc ->
  zd xa ya xb yb xc yc = 0 -> circumradius a b c = @infinity B64.
Proof.
  intros Hxa Hya Hxb Hyb Hxc Hyc E. pose proof (Hd a b c xa ya xb yb xc yc Hxa Hya Hxb Hyb Hxc Hyc) as D. rewrite E in D.
  unfold circumradius. rewrite (sr_eq _ _ _ _ _ (si_sr _ _ _ _ D) (sr_zero _)).
  destruct (Reqb_spec 0 0) as [_|]; [|lra]. rewrite orb_true_r. reflexivity.
Qed.
End Pred.
