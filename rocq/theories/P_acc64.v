(** Forward error bounds in binary64 for polynomials in coordinate differences (C157). *)
From Coq Require Import Reals Lra Lia ZArith Bool.
From Flocq Require Import Core Relative BinarySingleNaN.
From Verif Require Import Base Arith M_r3 M_predicates M_tri2 M_tri3 Spec_r3 Spec_plane Spec_sphere Spec_acc64 XRvec P_r3 P_predicates P_insphere_err P_insphere_b64.
Open Scope R_scope.
Notation u := u53.
Notation g k := ((1 + u53) ^ k).

Lemma u0 : 0 < u. Proof. unfold u53. apply Rinv_0_lt_compat, pow_lt. lra. Qed.
Lemma g1 k : 1 <= g k. Proof. apply pow_R1_Rle. pose proof u0. lra. Qed.
Lemma g_le k l : (k <= l)%nat -> g k <= g l. Proof. intros H. apply Rle_pow; [pose proof u0; lra|exact H]. Qed.

(** [acc x e p k m M]: the float x is a multiple of 2^-m, at most 2^M, and approximates e after k roundings relative to
    p, a bound of the magnitude of e *)
Definition acc (x : b64) (e p : R) (k : nat) (m M : Z) : Prop :=
  rel x (B2R x) m M /\ Rabs (e - B2R x) <= (g k - 1) * p /\ Rabs e <= p.
Lemma acc_p x e p k m M : acc x e p k m M -> 0 <= p. Proof. intros (_ & _ & H). pose proof (Rabs_pos e). lra. Qed.
Lemma acc_f x e p k m M : acc x e p k m M -> Rabs (B2R x) <= g k * p.
Proof. intros (_ & H1 & H2). replace (B2R x) with (e - (e - B2R x)) by ring. eapply Rle_trans; [apply Rabs_triang|]. rewrite Rabs_Ropp. lra. Qed.
Lemma acc_weaken x e p p' k l m M N : (k <= l)%nat -> (M <= N)%Z -> p <= p' -> acc x e p k m M -> acc x e p' l m N.
Proof.
  intros Hk HM Hp Ha. pose proof (acc_p _ _ _ _ _ _ Ha) as P. destruct Ha as (H1 & H2 & H3). split; [apply (rel_weaken _ _ _ M); auto|]. split; [|lra].
  eapply Rle_trans; [exact H2|]. pose proof (g1 k). pose proof (g_le k l Hk). apply Rmult_le_compat; lra.
Qed.
Lemma acc_exact x m M : rel x (B2R x) m M -> acc x (B2R x) (Rabs (B2R x)) 0 m M.
Proof. intros H. split; [exact H|]. split; [|lra]. rewrite Rminus_eq_0, Rabs_R0. simpl. lra. Qed.
Lemma rel_self x r m M : rel x r m M -> rel x (B2R x) m M /\ B2R x = r.
Proof. intros (F & E & G). rewrite E. split; [split; [exact F|split; [exact E|exact G]]|reflexivity]. Qed.

Lemma acc_sub x e p y e' p' k m M : (m <= 1022)%Z -> (M + 1 < 1024)%Z -> acc x e p k m M -> acc y e' p' k m M -> acc (fsub B64 x y) (e - e') (p + p') (S k) m (M + 1).
Proof.
  intros Hm HM Ax Ay. pose proof (acc_f _ _ _ _ _ _ Ax) as Fx. pose proof (acc_f _ _ _ _ _ _ Ay) as Fy. pose proof (acc_p _ _ _ _ _ _ Ax) as Px. pose proof (acc_p _ _ _ _ _ _ Ay) as Py.
  destruct Ax as (Rx & X1 & X2), Ay as (Ry & Y1 & Y2). destruct (rel_self _ _ _ _ (rel_sub _ _ _ _ _ _ Hm HM Rx Ry)) as (Rz & E). split; [exact Rz|]. rewrite E. split.
  - pose proof (rndX_err' (B2R x - B2R y)) as Er. pose proof u0 as U.
    replace (e - e' - rndX (B2R x - B2R y)) with ((e - B2R x) - (e' - B2R y) - (rndX (B2R x - B2R y) - (B2R x - B2R y))) by ring.
    assert (T : Rabs (B2R x - B2R y) <= g k * (p + p')) by (eapply Rle_trans; [apply Rabs_triang|]; rewrite Rabs_Ropp; lra).
    assert (T' : u * Rabs (B2R x - B2R y) <= u * (g k * (p + p'))) by (apply Rmult_le_compat_l; lra).
    eapply Rle_trans; [apply Rabs_triang|]. rewrite Rabs_Ropp. assert (Q : Rabs (e - B2R x - (e' - B2R y)) <= (g k - 1) * p + (g k - 1) * p') by (eapply Rle_trans; [apply Rabs_triang|]; rewrite Rabs_Ropp; lra).
    cbn [pow]. lra.
  - eapply Rle_trans; [apply Rabs_triang|]. rewrite Rabs_Ropp. lra.
Qed.
Lemma acc_neg x e p k m M : acc x e p k m M -> acc (fneg B64 x) (- e) p k m M.
Proof.
  intros (Hx & H1 & H2). destruct (rel_self _ _ _ _ (rel_neg _ _ _ _ Hx)) as (Rz & E). split; [exact Rz|]. rewrite E. split; [|rewrite Rabs_Ropp; exact H2].
  replace (- e - - B2R x) with (- (e - B2R x)) by ring. rewrite Rabs_Ropp. exact H1.
Qed.
Lemma acc_add x e p y e' p' k m M : (m <= 1022)%Z -> (M + 1 < 1024)%Z -> acc x e p k m M -> acc y e' p' k m M -> acc (fadd B64 x y) (e + e') (p + p') (S k) m (M + 1).
Proof.
  intros Hm HM Ax Ay. pose proof (acc_f _ _ _ _ _ _ Ax) as Fx. pose proof (acc_f _ _ _ _ _ _ Ay) as Fy. pose proof (acc_p _ _ _ _ _ _ Ax) as Px. pose proof (acc_p _ _ _ _ _ _ Ay) as Py.
  destruct Ax as (Rx & X1 & X2), Ay as (Ry & Y1 & Y2). destruct (rel_self _ _ _ _ (rel_add _ _ _ _ _ _ Hm HM Rx Ry)) as (Rz & E). split; [exact Rz|]. rewrite E. split.
  - pose proof (rndX_err' (B2R x + B2R y)) as Er. pose proof u0 as U.
    replace (e + e' - rndX (B2R x + B2R y)) with ((e - B2R x) + (e' - B2R y) - (rndX (B2R x + B2R y) - (B2R x + B2R y))) by ring.
    assert (T : Rabs (B2R x + B2R y) <= g k * (p + p')) by (eapply Rle_trans; [apply Rabs_triang|]; lra).
    assert (T' : u * Rabs (B2R x + B2R y) <= u * (g k * (p + p'))) by (apply Rmult_le_compat_l; lra).
    eapply Rle_trans; [apply Rabs_triang|]. rewrite Rabs_Ropp. assert (Q : Rabs (e - B2R x + (e' - B2R y)) <= (g k - 1) * p + (g k - 1) * p') by (eapply Rle_trans; [apply Rabs_triang|]; lra).
    cbn [pow]. lra.
  - eapply Rle_trans; [apply Rabs_triang|]. lra.
Qed.
Lemma acc_mul x e p y e' p' k l m M n N : (m + n <= 1022)%Z -> (M + N < 1024)%Z -> acc x e p k m M -> acc y e' p' l n N -> acc (fmul B64 x y) (e * e') (p * p') (S (k + l)) (m + n) (M + N).
Proof.
  intros Hm HM Ax Ay. pose proof (acc_f _ _ _ _ _ _ Ax) as Fx. pose proof (acc_f _ _ _ _ _ _ Ay) as Fy. pose proof (acc_p _ _ _ _ _ _ Ax) as Px. pose proof (acc_p _ _ _ _ _ _ Ay) as Py.
  destruct Ax as (Rx & X1 & X2), Ay as (Ry & Y1 & Y2). destruct (rel_self _ _ _ _ (rel_mul _ _ _ _ _ _ _ _ Hm HM Rx Ry)) as (Rz & E). split; [exact Rz|]. rewrite E. split.
  - pose proof (rndX_err' (B2R x * B2R y)) as Er. pose proof u0 as U. pose proof (g1 k) as Gk. pose proof (g1 l) as Gl.
    replace (e * e' - rndX (B2R x * B2R y)) with ((e - B2R x) * e' + B2R x * (e' - B2R y) - (rndX (B2R x * B2R y) - B2R x * B2R y)) by ring.
    assert (A1 : Rabs ((e - B2R x) * e') <= (g k - 1) * p * p') by (rewrite Rabs_mult; apply Rmult_le_compat; auto using Rabs_pos).
    assert (A2 : Rabs (B2R x * (e' - B2R y)) <= g k * p * ((g l - 1) * p')) by (rewrite Rabs_mult; apply Rmult_le_compat; auto using Rabs_pos).
    assert (A3 : Rabs (B2R x * B2R y) <= g k * p * (g l * p')) by (rewrite Rabs_mult; apply Rmult_le_compat; auto using Rabs_pos).
    assert (A4 : u * Rabs (B2R x * B2R y) <= u * (g k * p * (g l * p'))) by (apply Rmult_le_compat_l; lra).
    eapply Rle_trans; [apply Rabs_triang|]. rewrite Rabs_Ropp. pose proof (Rabs_triang ((e - B2R x) * e') (B2R x * (e' - B2R y))) as A5.
    replace ((g (S (k + l)) - 1) * (p * p')) with ((g k - 1) * p * p' + g k * p * ((g l - 1) * p') + u * (g k * p * (g l * p'))) by (cbn [pow]; rewrite pow_add; ring). lra.
  - rewrite Rabs_mult. apply Rmult_le_compat; auto using Rabs_pos.
Qed.
(* coordinates *)
Lemma tame_rel x : tame x -> rel x (B2R x) 180 200. Proof. intros (H1 & H2 & H3). split; [exact H1|]. split; [reflexivity|]. split; [exact H2|exact H3]. Qed.
Lemma acc_diff x y : tame x -> tame y -> acc (fsub B64 x y) (B2R x - B2R y) (Rabs (B2R x - B2R y)) 1 180 201.
Proof.
  intros Hx Hy. destruct (rel_self _ _ _ _ (rel_diff _ _ _ _ (tame_rel x Hx) (tame_rel y Hy))) as (Rz & E). split; [exact Rz|]. rewrite E. split; [|lra].
  rewrite Rabs_minus_sym. replace (g 1 - 1) with u by ring. apply rndX_err'.
Qed.
Lemma acc_sq x e p k m M : (m + m <= 1022)%Z -> (M + M < 1024)%Z -> p = Rabs e -> acc x e p k m M -> acc (fmul B64 x x) (e * e) (e * e) (S (k + k)) (m + m) (M + M).
Proof.
  intros Hm HM -> Ax. pose proof (acc_mul _ _ _ _ _ _ _ _ _ _ _ _ Hm HM Ax Ax) as Q. replace (Rabs e * Rabs e) with (e * e) in Q; [exact Q|].
  rewrite <- Rabs_mult. symmetry. apply Rabs_pos_eq. apply Rle_0_sqr.
Qed.

(** ** what the bound says *)
Lemma acc_bound x e p k m M : acc x e p k m M -> is_finite x = true /\ Rabs (B2R x - e) <= gamma k * p.
Proof. intros ((F & _) & H & _). split; [exact F|]. rewrite Rabs_minus_sym. exact H. Qed.
Lemma acc_sign x e p k m M : acc x e p k m M -> gamma k * p < Rabs e -> (0 < B2R x <-> 0 < e) /\ (B2R x < 0 <-> e < 0).
Proof. intros A L. destruct (acc_bound _ _ _ _ _ _ A) as (_ & B). apply Rabs_le_inv in B. unfold Rabs in L. destruct (Rcase_abs e); split; split; lra. Qed.

(** ** the functions *)
Definition tame_xy (v : vec B64) : Prop := tame (vx v) /\ tame (vy v).
Lemma tame_vec_xy v : tame_vec v -> tame_xy v. Proof. intros (A & B & _). split; auto. Qed.

(* the rules in a form that composes as terms *)
Lemma acc_S x e p k m M y e' p' l N : acc x e p k m M -> acc y e' p' l m N -> (m <=? 1022)%Z = true -> (Z.max M N + 1 <? 1024)%Z = true ->
  acc (fsub B64 x y) (e - e') (p + p') (S (Nat.max k l)) m (Z.max M N + 1).
Proof. intros Ax Ay H1 H2. apply Z.leb_le in H1. apply Z.ltb_lt in H2. apply acc_sub; auto; [apply (acc_weaken _ _ p _ k _ _ M)|apply (acc_weaken _ _ p' _ l _ _ N)]; auto; try lia; lra. Qed.
Lemma acc_A x e p k m M y e' p' l N : acc x e p k m M -> acc y e' p' l m N -> (m <=? 1022)%Z = true -> (Z.max M N + 1 <? 1024)%Z = true ->
  acc (fadd B64 x y) (e + e') (p + p') (S (Nat.max k l)) m (Z.max M N + 1).
Proof. intros Ax Ay H1 H2. apply Z.leb_le in H1. apply Z.ltb_lt in H2. apply acc_add; auto; [apply (acc_weaken _ _ p _ k _ _ M)|apply (acc_weaken _ _ p' _ l _ _ N)]; auto; try lia; lra. Qed.
Lemma acc_M x e p k m M y e' p' l n N : acc x e p k m M -> acc y e' p' l n N -> (m + n <=? 1022)%Z = true -> (M + N <? 1024)%Z = true ->
  acc (fmul B64 x y) (e * e') (p * p') (S (k + l)) (m + n) (M + N).
Proof. intros Ax Ay H1 H2. apply Z.leb_le in H1. apply Z.ltb_lt in H2. apply acc_mul; auto. Qed.
Lemma acc_Q x e k m M : acc x e (Rabs e) k m M -> (m + m <=? 1022)%Z = true -> (M + M <? 1024)%Z = true -> acc (fmul B64 x x) (e * e) (e * e) (S (k + k)) (m + m) (M + M).
Proof. intros Ax H1 H2. apply Z.leb_le in H1. apply Z.ltb_lt in H2. apply (acc_sq _ _ (Rabs e)); auto. Qed.
Lemma acc_eq x e p e' p' k l m n M N : acc x e p k m M -> e = e' -> p = p' -> k = l -> m = n -> M = N -> acc x e' p' l n N.
Proof. intros H -> -> -> -> ->. exact H. Qed.
Declare Scope acc_scope.
Delimit Scope acc_scope with acc.
Notation "a - b" := (acc_S _ _ _ _ _ _ _ _ _ _ _ a b eq_refl eq_refl) : acc_scope.
Notation "a + b" := (acc_A _ _ _ _ _ _ _ _ _ _ _ a b eq_refl eq_refl) : acc_scope.
Notation "a * b" := (acc_M _ _ _ _ _ _ _ _ _ _ _ _ a b eq_refl eq_refl) : acc_scope.
Notation "a ^2" := (acc_Q _ _ _ _ _ a eq_refl eq_refl) (at level 30) : acc_scope.
Notation dif H K := (acc_diff _ _ H K).

Lemma area_acc (a b c : vec B64) : tame_xy a -> tame_xy b -> tame_xy c ->
  acc (area a b c) (- ccw (rvec a) (rvec b) (rvec c)) (area_terms (rvec a) (rvec b) (rvec c)) 4 360 403.
Proof.
  intros (Ax & Ay) (Bx & By) (Cx & Cy). unfold area.
  eapply acc_eq; [exact (dif By Ay * dif Cx Bx - dif Bx Ax * dif Cy By)%acc| | |reflexivity..]; unfold ccw, area_terms; cbn [rx ry rvec]; ring.
Qed.
Lemma cross_acc (p a b : vec B64) : tame_xy p -> tame_xy a -> tame_xy b ->
  acc (cross2D p a b) (ccw (rvec p) (rvec a) (rvec b)) (cross_terms (rvec p) (rvec a) (rvec b)) 4 360 403.
Proof.
  intros (Px & Py) (Ax & Ay) (Bx & By). unfold cross2D.
  eapply acc_eq; [exact (dif Ax Px * dif By Py - dif Ay Py * dif Bx Px)%acc| | |reflexivity..]; unfold ccw, cross_terms; cbn [rx ry rvec]; ring.
Qed.
Definition incircle_val {A : Arith} (a b c p : vec A) : A :=
  let sub := fsub A in let mul := fmul A in let add := fadd A in
  let dx := sub (vx a) (vx p) in let dy := sub (vy a) (vy p) in
  let ex := sub (vx b) (vx p) in let ey := sub (vy b) (vy p) in
  let fx := sub (vx c) (vx p) in let fy := sub (vy c) (vy p) in
  let ap := add (mul dx dx) (mul dy dy) in
  let bp := add (mul ex ex) (mul ey ey) in
  let cp := add (mul fx fx) (mul fy fy) in
  add (sub (mul dx (sub (mul ey cp) (mul bp fy))) (mul dy (sub (mul ex cp) (mul bp fx)))) (mul ap (sub (mul ex fy) (mul ey fx))).
Lemma inCircle_val (A : Arith) (a b c p : vec A) : inCircle a b c p = flt A (incircle_val a b c p) (fofZ A 0).
Proof. reflexivity. Qed.
Lemma incircle_acc (a b c p : vec B64) : tame_xy a -> tame_xy b -> tame_xy c -> tame_xy p ->
  acc (incircle_val a b c p) (incircle_det (rvec a) (rvec b) (rvec c) (rvec p)) (incircle_terms (rvec a) (rvec b) (rvec c) (rvec p)) 11 720 808.
Proof.
  intros (Ax & Ay) (Bx & By) (Cx & Cy) (Px & Py). unfold incircle_val. cbv zeta.
  pose proof (dif Ax Px) as dx. pose proof (dif Ay Py) as dy. pose proof (dif Bx Px) as ex. pose proof (dif By Py) as ey. pose proof (dif Cx Px) as fx. pose proof (dif Cy Py) as fy.
  pose proof (dx^2 + dy^2)%acc as ap. pose proof (ex^2 + ey^2)%acc as bp. pose proof (fx^2 + fy^2)%acc as cp.
  eapply acc_eq; [exact (dx * (ey * cp - bp * fy) - dy * (ex * cp - bp * fx) + ap * (ex * fy - ey * fx))%acc| | |reflexivity..];
    unfold incircle_det, incircle_terms, dist2xy; cbn [rx ry rvec]; ring.
Qed.
Lemma orient3d_acc (a b c d : vec B64) : tame_vec a -> tame_vec b -> tame_vec c -> tame_vec d ->
  acc (orient3dfast a b c d) (signed_volume (rvec a) (rvec b) (rvec c) (rvec d))
    (perm3 (rsub (rvec a) (rvec d)) (rsub (rvec b) (rvec d)) (rsub (rvec c) (rvec d))) 8 540 606.
Proof.
  intros (Ax & Ay & Az) (Bx & By & Bz) (Cx & Cy & Cz) (Dx & Dy & Dz). unfold orient3dfast. cbv zeta.
  pose proof (dif Ax Dx) as ax. pose proof (dif Ay Dy) as ay. pose proof (dif Az Dz) as az. pose proof (dif Bx Dx) as bx. pose proof (dif By Dy) as by'. pose proof (dif Bz Dz) as bz.
  pose proof (dif Cx Dx) as cx. pose proof (dif Cy Dy) as cy. pose proof (dif Cz Dz) as cz.
  eapply acc_eq; [exact (ax * (by' * cz - bz * cy) + bx * (cy * az - cz * ay) + cx * (ay * bz - az * by'))%acc| | |reflexivity..];
    unfold signed_volume, rdet3, perm3, rsub; cbn [rx ry rz rvec]; ring.
Qed.
Lemma insphere_acc (a b c d e : vec B64) : tame_vec a -> tame_vec b -> tame_vec c -> tame_vec d -> tame_vec e ->
  acc (InSphereFast a b c d e) (insphere_det (rvec a) (rvec b) (rvec c) (rvec d) (rvec e)) (permanent5 (rvec a) (rvec b) (rvec c) (rvec d) (rvec e)) 16 900 1012.
Proof.
  intros (Ax & Ay & Az) (Bx & By & Bz) (Cx & Cy & Cz) (Dx & Dy & Dz) (Ex & Ey & Ez). unfold InSphereFast. cbv zeta.
  pose proof (dif Ax Ex) as ax. pose proof (dif Ay Ey) as ay. pose proof (dif Az Ez) as az. pose proof (dif Bx Ex) as bx. pose proof (dif By Ey) as by'. pose proof (dif Bz Ez) as bz.
  pose proof (dif Cx Ex) as cx. pose proof (dif Cy Ey) as cy. pose proof (dif Cz Ez) as cz. pose proof (dif Dx Ex) as dx. pose proof (dif Dy Ey) as dy. pose proof (dif Dz Ez) as dz.
  pose proof (ax * by' - bx * ay)%acc as ab. pose proof (bx * cy - cx * by')%acc as bc. pose proof (cx * dy - dx * cy)%acc as cd. pose proof (dx * ay - ax * dy)%acc as da.
  pose proof (ax * cy - cx * ay)%acc as ac. pose proof (bx * dy - dx * by')%acc as bd.
  pose proof (az * bc - bz * ac + cz * ab)%acc as abc. pose proof (bz * cd - cz * bd + dz * bc)%acc as bcd. pose proof (cz * da + dz * ac + az * cd)%acc as cda. pose proof (dz * ab + az * bd + bz * da)%acc as dab.
  pose proof (ax^2 + ay^2 + az^2)%acc as al. pose proof (bx^2 + by'^2 + bz^2)%acc as bl. pose proof (cx^2 + cy^2 + cz^2)%acc as cl. pose proof (dx^2 + dy^2 + dz^2)%acc as dl.
  eapply acc_eq; [exact ((cl * dab - dl * abc) + (al * bcd - bl * cda))%acc| | |reflexivity..];
    unfold insphere_det, permanent5, rdet3, perm3, rdist2, rdot, rsub; cbn [rx ry rz rvec]; ring.
Qed.
Lemma sqdist_acc (a b : vec B64) : tame_vec a -> tame_vec b -> acc (SquaredDistance a b) (rdist2 (rvec a) (rvec b)) (rdist2 (rvec a) (rvec b)) 5 360 404.
Proof.
  intros (Ax & Ay & Az) (Bx & By & Bz). unfold SquaredDistance, Norm2, Dot, Sub. cbn [vx vy vz].
  eapply acc_eq; [exact ((dif Ax Bx)^2 + (dif Ay By)^2 + (dif Az Bz)^2)%acc| | |reflexivity..]; unfold rdist2, rdot, rsub; cbn [rx ry rz rvec]; ring.
Qed.
Lemma get3d_acc (a b c d : vec B64) : tame_vec a -> tame_vec b -> tame_vec c -> tame_vec d ->
  acc (Get3Ddist a b c d) (rdet3 (rsub (rvec b) (rvec a)) (rsub (rvec c) (rvec a)) (rsub (rvec d) (rvec a)))
    (perm3 (rsub (rvec b) (rvec a)) (rsub (rvec c) (rvec a)) (rsub (rvec d) (rvec a))) 8 540 606.
Proof.
  intros (Ax & Ay & Az) (Bx & By & Bz) (Cx & Cy & Cz) (Dx & Dy & Dz). unfold Get3Ddist. cbv zeta.
  pose proof (dif Bx Ax) as bx. pose proof (dif By Ay) as by'. pose proof (dif Bz Az) as bz.
  pose proof (dif Cx Ax) as cx. pose proof (dif Cy Ay) as cy. pose proof (dif Cz Az) as cz.
  pose proof (dif Dx Ax) as dx. pose proof (dif Dy Ay) as dy. pose proof (dif Dz Az) as dz.
  eapply acc_eq; [exact (bz * (cx * dy - cy * dx) + cz * (dx * by' - dy * bx) + dz * (bx * cy - by' * cx))%acc| | |reflexivity..];
    unfold rdet3, perm3, rsub; cbn [rx ry rz rvec]; ring.
Qed.
Lemma acc_tame x : tame x -> acc x (B2R x) (Rabs (B2R x)) 0 180 200. Proof. intros H. apply acc_exact, tame_rel, H. Qed.
Lemma dot_acc (a b : vec B64) : tame_vec a -> tame_vec b ->
  acc (Dot a b) (rdot (rvec a) (rvec b)) (dot_terms (rvec a) (rvec b)) 3 360 402.
Proof.
  intros (Ax & Ay & Az) (Bx & By & Bz). apply acc_tame in Ax, Ay, Az, Bx, By, Bz. unfold Dot.
  eapply acc_eq; [exact (Ax * Bx + Ay * By + Az * Bz)%acc| | |reflexivity..]; unfold rdot, dot_terms; cbn [rx ry rz rvec]; ring.
Qed.
Lemma cross3_acc (a b : vec B64) : tame_vec a -> tame_vec b ->
  acc (vx (Cross a b)) (rx (cross3 (rvec a) (rvec b))) (rx (cross3_terms (rvec a) (rvec b))) 2 360 401 /\
  acc (vy (Cross a b)) (ry (cross3 (rvec a) (rvec b))) (ry (cross3_terms (rvec a) (rvec b))) 2 360 401 /\
  acc (vz (Cross a b)) (rz (cross3 (rvec a) (rvec b))) (rz (cross3_terms (rvec a) (rvec b))) 2 360 401.
Proof.
  intros (Ax & Ay & Az) (Bx & By & Bz). apply acc_tame in Ax, Ay, Az, Bx, By, Bz. unfold Cross. cbn [vx vy vz]. split; [|split].
  all: eapply acc_eq; [first [exact (Ay * Bz - By * Az)%acc | exact (Az * Bx - Bz * Ax)%acc | exact (Ax * By - Bx * Ay)%acc]| | |reflexivity..]; unfold cross3, cross3_terms; cbn [rx ry rz rvec]; ring.
Qed.
Lemma get2d_acc (a b c : vec B64) : tame_vec a -> tame_vec b -> tame_vec c ->
  acc (Get2Ddist a b c) (rnorm2 (cross3 (rsub (rvec b) (rvec a)) (rsub (rvec c) (rvec a))))
    (rnorm2 (cross3_terms (rsub (rvec b) (rvec a)) (rsub (rvec c) (rvec a)))) 11 720 808.
Proof.
  intros (Ax & Ay & Az) (Bx & By & Bz) (Cx & Cy & Cz). unfold Get2Ddist. cbv zeta.
  pose proof (dif Bx Ax) as bx. pose proof (dif By Ay) as by'. pose proof (dif Bz Az) as bz.
  pose proof (dif Cx Ax) as cx. pose proof (dif Cy Ay) as cy. pose proof (dif Cz Az) as cz.
  pose proof (bx * cy - by' * cx)%acc as xy. pose proof (by' * cz - bz * cy)%acc as yz. pose proof (bz * cx - bx * cz)%acc as zx.
  eapply acc_eq; [exact (xy * xy + yz * yz + zx * zx)%acc| | |reflexivity..]; unfold rnorm2, rdot, cross3, cross3_terms, rsub; cbn [rx ry rz rvec]; ring.
Qed.
Lemma gamma_quad k : INR k * u <= 1 -> gamma k <= INR k * u + (INR k * u) * (INR k * u).
Proof.
  unfold gamma. fold u53. pose proof u0 as U. induction k as [|k IH]; intros H; [simpl; lra|]. rewrite S_INR in *. pose proof (pos_INR k) as P.
  assert (H' : INR k * u <= 1) by lra. specialize (IH H'). cbn [pow]. set (x := INR k) in *. set (G := (1 + u53) ^ k) in *.
  assert (B : G <= 1 + x * u + x * u * (x * u)) by lra.
  assert (B' : (1 + u53) * G <= (1 + u53) * (1 + x * u + x * u * (x * u))) by (apply Rmult_le_compat_l; lra).
  assert (B2 : x * u * (x * u) * u <= 1 * (x * u) * u) by (apply Rmult_le_compat_r; [lra|]; apply Rmult_le_compat_r; [apply Rmult_le_pos; lra|lra]).
  assert (B3 : 0 <= u * u) by (apply Rmult_le_pos; lra).
  replace ((x + 1) * u + (x + 1) * u * ((x + 1) * u)) with (x * u + u + x * u * (x * u) + (x * u) * u * 2 + u * u) by ring. 
  replace ((1 + u53) * (1 + x * u + x * u * (x * u))) with (1 + x * u + u + x * u * (x * u) + (x * u) * u + x * u * (x * u) * u) in B' by ring. lra.
Qed.
Lemma gamma_lin k : (Z.of_nat k <= 2 ^ 26)%Z -> gamma k <= (INR k + 1) / 2 ^ 53.
Proof.
  intros H. apply IZR_le in H. rewrite <- INR_IZR_INZ in H. replace (IZR (2 ^ 26)) with (2 ^ 26) in H by (simpl; lra). pose proof u0 as U. pose proof (pos_INR k) as P.
  assert (E : (2 ^ 26) * (2 ^ 26) * u <= 1) by (unfold u53; lra).
  assert (Q : INR k * INR k <= 2 ^ 26 * 2 ^ 26) by (apply Rmult_le_compat; lra).
  assert (Q1 : INR k * INR k * u <= 1) by (eapply Rle_trans; [apply Rmult_le_compat_r; [lra|exact Q]|exact E]).
  assert (Q2 : INR k * u <= 1) by (eapply Rle_trans; [apply Rmult_le_compat_r; [lra|exact H]|]; unfold u53; lra).
  pose proof (gamma_quad k Q2) as G. assert (Q3 : INR k * INR k * u * u <= 1 * u) by (apply Rmult_le_compat_r; lra).
  replace (INR k * u * (INR k * u)) with (INR k * INR k * u * u) in G by ring. unfold Rdiv. fold u53. lra.
Qed.
