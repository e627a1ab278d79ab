(** Plane geometry behind the Delaunay proof: orientation, circles through two points, convex position.
    Orientation is the library's: [ar] is positive for clockwise triangles (y up). *)
From Coq Require Import Reals Lra Lia ZArith List Bool Psatz.
From Verif Require Import Spec_r3 Spec_plane P_tri2.
Import ListNotations.
Open Scope R_scope.

Definition ar (a b c : rv) : R := - ccw a b c.
(* (v - x) . (v - y) *)
Definition dt (v x y : rv) : R := (rx v - rx x) * (rx v - rx y) + (ry v - ry x) * (ry v - ry y).

Ltac geo := unfold ar, dt, incirc, dist2xy, ccw.

Lemma ar_rot a b c : ar b c a = ar a b c. Proof. geo; ring. Qed.
Lemma ar_rot2 a b c : ar c a b = ar a b c. Proof. geo; ring. Qed.
Lemma ar_swap a b c : ar b a c = - ar a b c. Proof. geo; ring. Qed.
Lemma ar_swap23 a b c : ar a c b = - ar a b c. Proof. geo; ring. Qed.
Lemma ar_swap13 a b c : ar c b a = - ar a b c. Proof. geo; ring. Qed.
Lemma ar_aab a b : ar a a b = 0. Proof. geo; ring. Qed.
Lemma ar_aba a b : ar a b a = 0. Proof. geo; ring. Qed.
Lemma ar_baa a b : ar b a a = 0. Proof. geo; ring. Qed.
Lemma ar_split a b c v : ar a b c = ar b c v + ar c a v + ar a b v. Proof. geo; ring. Qed.

(* the in-circle determinant through the pencil of circles on x y *)
Lemma incirc_pencil x y c v : incirc x y c v = ar x y c * dt v x y - ar x y v * dt c x y.
Proof. geo; ring. Qed.
Lemma incirc_rot a b c v : incirc b c a v = incirc a b c v. Proof. geo; ring. Qed.
Lemma incirc_rot2 a b c v : incirc c a b v = incirc a b c v. Proof. geo; ring. Qed.
Lemma incirc_swap2 x y w p : incirc y x p w = incirc x y w p. Proof. geo; ring. Qed.
Lemma incirc_swap34 x y w p : incirc x y p w = - incirc x y w p. Proof. geo; ring. Qed.
Lemma incirc_vertex a b c : incirc a b c a = 0 /\ incirc a b c b = 0 /\ incirc a b c c = 0.
Proof. geo; repeat split; ring. Qed.

Definition noncollinear3 (a b c : rv) : Prop := ar a b c <> 0.
(* barycentric form of the in-circle test *)
Definition sq2 (a b : rv) : R := dist2xy a b.
Lemma sq2_nonneg a b : 0 <= sq2 a b.
Proof.
  unfold sq2, dist2xy. pose proof (Rle_0_sqr (rx a - rx b)); pose proof (Rle_0_sqr (ry a - ry b)).
  unfold Rsqr in *. lra.
Qed.
Lemma sq2_zero a b : sq2 a b = 0 -> samexy a b.
Proof.
  unfold sq2, dist2xy, samexy. intros H.
  pose proof (Rle_0_sqr (rx a - rx b)); pose proof (Rle_0_sqr (ry a - ry b)). unfold Rsqr in *.
  assert (rx a - rx b = 0) by (apply Rsqr_0_uniq; unfold Rsqr; lra).
  assert (ry a - ry b = 0) by (apply Rsqr_0_uniq; unfold Rsqr; lra). lra.
Qed.
Lemma samexy_ar12 a b c : samexy a b -> ar a b c = 0.
Proof. intros [H1 H2]. geo. rewrite H1, H2. ring. Qed.
Lemma ar_pos_sq2 a b c : ar a b c <> 0 -> 0 < sq2 a b /\ 0 < sq2 b c /\ 0 < sq2 c a.
Proof.
  intros H.
  assert (G : forall x y z, ar x y z <> 0 -> 0 < sq2 x y).
  { intros x y z Hx. destruct (sq2_nonneg x y) as [|E]; auto.
    exfalso. apply Hx. apply samexy_ar12. apply sq2_zero; auto. }
  repeat split; [apply (G a b c)|apply (G b c a)|apply (G c a b)]; auto.
  rewrite ar_rot; auto. rewrite ar_rot2; auto.
Qed.
Lemma incirc_bary a b c v :
  ar a b c * incirc a b c v =
  - (ar b c v * ar c a v * sq2 a b + ar c a v * ar a b v * sq2 b c + ar a b v * ar b c v * sq2 c a).
Proof. unfold sq2; geo. ring. Qed.
Lemma sq_cone (s t : R) a b c :
  t * s * sq2 c a <= (s + t) * (s * sq2 a b + t * sq2 b c).
Proof.
  assert (E : (s + t) * (s * sq2 a b + t * sq2 b c) - t * s * sq2 c a =
              Rsqr (s * (rx b - rx a) - t * (rx c - rx b)) + Rsqr (s * (ry b - ry a) - t * (ry c - ry b))).
  { unfold sq2, dist2xy, Rsqr. ring. }
  pose proof (Rle_0_sqr (s * (rx b - rx a) - t * (rx c - rx b))).
  pose proof (Rle_0_sqr (s * (ry b - ry a) - t * (ry c - ry b))). lra.
Qed.
(* a point of the closed disc beyond the edge a b is on the inner side of the other two edges *)
Lemma cone_one a b c v :
  0 < ar a b c -> incirc a b c v <= 0 -> ar a b v < 0 -> 0 < ar b c v.
Proof.
  intros HS HI HG. pose proof (incirc_bary a b c v) as B. pose proof (ar_split a b c v) as SP.
  destruct (Rlt_le_dec 0 (ar b c v)) as [|HA]; auto. exfalso.
  assert (Hne : ar a b c <> 0) by lra.
  destruct (ar_pos_sq2 a b c Hne) as (Pab & Pbc & Pca).
  set (S := ar a b c) in *. set (al := ar b c v) in *. set (be := ar c a v) in *. set (ga := ar a b v) in *.
  pose proof (sq_cone (- al) (- ga) a b c) as C.
  set (ab := sq2 a b) in *. set (bc := sq2 b c) in *. set (ca := sq2 c a) in *.
  assert (Q : al * be * ab + be * ga * bc + ga * al * ca >= 0).
  { assert (S * incirc a b c v <= 0) by nra. lra. }
  replace be with (S - al - ga) in Q by lra.
  assert (E : al * (S - al - ga) * ab + (S - al - ga) * ga * bc + ga * al * ca =
              S * (al * ab) + S * (ga * bc) - ((- al + - ga) * (- al * ab + - ga * bc) - - ga * - al * ca)) by ring.
  assert (al * ab <= 0) by nra. assert (ga * bc < 0) by nra.
  assert (S * (al * ab) <= 0) by nra. assert (S * (ga * bc) < 0) by nra. lra.
Qed.
Lemma cone a b c v :
  0 < ar a b c -> incirc a b c v <= 0 -> ar a b v < 0 -> 0 < ar b c v /\ 0 < ar c a v.
Proof.
  intros HS HI HG. split; [eapply cone_one; eauto|].
  (* mirror image *)
  pose (mir := fun q => RV (- rx q) (ry q) 0).
  assert (M : forall x y z, ar (mir x) (mir y) (mir z) = - ar x y z) by (intros; unfold mir; geo; simpl; ring).
  assert (MI : incirc (mir b) (mir a) (mir c) (mir v) = incirc a b c v) by (unfold mir; geo; simpl; ring).
  pose proof (cone_one (mir b) (mir a) (mir c) (mir v)) as H. rewrite MI, !M in H.
  rewrite (ar_swap a b c), (ar_swap a b v) in H. rewrite (ar_swap c a v) in H.
  assert (0 < - - ar c a v) by (apply H; lra). lra.
Qed.

(* pencil of circles through x and y *)
Lemma pencil_same_side x y c p v :
  0 < ar x y c -> 0 < ar x y p -> incirc x y c p <= 0 ->
  0 <= incirc x y c v -> 0 <= ar x y v -> 0 <= incirc x y p v.
Proof.
  rewrite !incirc_pencil. intros Hc Hp Hcp Hcv Hv.
  set (S := ar x y c) in *. set (P := ar x y p) in *. set (a := ar x y v) in *.
  assert (0 <= S * (P * dt v x y - a * dt p x y)); [|nra].
  assert (E : S * (P * dt v x y - a * dt p x y) =
     P * (S * dt v x y - a * dt c x y) + a * (P * dt c x y - S * dt p x y)) by ring.
  assert (0 <= P * (S * dt v x y - a * dt c x y)) by (apply Rmult_le_pos; lra).
  assert (0 <= a * (P * dt c x y - S * dt p x y)) by (apply Rmult_le_pos; lra). lra.
Qed.
Lemma pencil_other_side x y p w v :
  0 < ar x y p -> 0 < ar y x w -> 0 <= incirc x y p w ->
  0 <= incirc y x w v -> ar x y v <= 0 -> 0 <= incirc x y p v.
Proof.
  rewrite (ar_swap x y w). rewrite (incirc_pencil x y p w), (incirc_pencil y x w v), (incirc_pencil x y p v).
  rewrite (ar_swap x y w), (ar_swap x y v).
  assert (D : forall q, dt q y x = dt q x y) by (intros; geo; ring). rewrite !D.
  intros Hp Hw Hl Hd Hv.
  set (P := ar x y p) in *. set (W := ar x y w) in *. set (a := ar x y v) in *.
  assert (0 <= - W * (P * dt v x y - a * dt p x y)); [|nra].
  assert (E : - W * (P * dt v x y - a * dt p x y) =
     P * (- W * dt v x y - - a * dt w x y) + - a * (P * dt w x y - W * dt p x y)) by ring.
  assert (0 <= P * (- W * dt v x y - - a * dt w x y)) by (apply Rmult_le_pos; lra).
  assert (0 <= - a * (P * dt w x y - W * dt p x y)) by (apply Rmult_le_pos; lra). lra.
Qed.
(* walking towards p from triangle x y w into y x u does not increase the power of p *)
Lemma walk_step x y w u p :
  0 < ar x y w -> 0 < ar y x u -> 0 <= incirc x y w u -> ar x y p < 0 ->
  incirc y x u p * ar x y w <= incirc x y w p * ar y x u /\
  (incirc y x u p * ar x y w = incirc x y w p * ar y x u ->
   forall v, incirc y x u v * ar x y w = incirc x y w v * ar y x u).
Proof.
  assert (D : forall q, dt q y x = dt q x y) by (intros; geo; ring).
  assert (SW : forall q, ar y x q = - ar x y q) by (intros; geo; ring).
  rewrite (incirc_pencil x y w u). rewrite (SW u). intros HW HU HI Hp.
  assert (E : forall v, incirc x y w v * - ar x y u - incirc y x u v * ar x y w =
     - ar x y v * (ar x y w * dt u x y - ar x y u * dt w x y)).
  { intros v. rewrite (incirc_pencil x y w v), (incirc_pencil y x u v), !D, !SW. ring. }
  pose proof (E p) as Ep. split.
  - assert (0 <= - ar x y p * (ar x y w * dt u x y - ar x y u * dt w x y)) by (apply Rmult_le_pos; lra). lra.
  - intros H v.
    assert (Z : ar x y w * dt u x y - ar x y u * dt w x y = 0).
    { rewrite <- H in Ep. assert (Z : - ar x y p * (ar x y w * dt u x y - ar x y u * dt w x y) = 0) by lra.
      apply Rmult_integral in Z. destruct Z; [exfalso; lra|auto]. }
    pose proof (E v) as Ev. rewrite Z in Ev. lra.
Qed.

(* a point of the closed triangle a b c is inside every half-plane that contains a, b and c *)
Lemma tri_halfplane a b c p x y :
  0 < ar a b c -> 0 <= ar a b p -> 0 <= ar b c p -> 0 <= ar c a p ->
  0 <= ar a x y -> 0 <= ar b x y -> 0 <= ar c x y -> 0 <= ar p x y.
Proof.
  intros HS H1 H2 H3 G1 G2 G3.
  assert (E : ar a b c * ar p x y = ar b c p * ar a x y + ar c a p * ar b x y + ar a b p * ar c x y) by (geo; ring).
  assert (0 <= ar a b c * ar p x y).
  { rewrite E. pose proof (Rmult_le_pos _ _ H2 G1). pose proof (Rmult_le_pos _ _ H3 G2).
    pose proof (Rmult_le_pos _ _ H1 G3). lra. }
  nra.
Qed.
Lemma collinear_line a b c m y :
  ~ samexy m y -> ar a m y = 0 -> ar b m y = 0 -> ar c m y = 0 -> ar a b c = 0.
Proof.
  intros Hne Ha Hb Hc.
  assert (E1 : (rx m - rx y) * ar a b c = 0).
  { assert (E : (rx m - rx y) * ar a b c = (rx b - rx c) * ar a m y + (rx c - rx a) * ar b m y + (rx a - rx b) * ar c m y)
      by (geo; ring). rewrite E, Ha, Hb, Hc. ring. }
  assert (E2 : (ry m - ry y) * ar a b c = 0).
  { assert (E : (ry m - ry y) * ar a b c = (ry b - ry c) * ar a m y + (ry c - ry a) * ar b m y + (ry a - ry b) * ar c m y)
      by (geo; ring). rewrite E, Ha, Hb, Hc. ring. }
  destruct (Req_dec (ar a b c) 0) as [|N]; auto. exfalso. apply Hne.
  apply Rmult_integral in E1. apply Rmult_integral in E2. destruct E1, E2; try contradiction.
  split; lra.
Qed.

(** ** Hull edges seen from p *)
(* every point of V is on the inner side of the edge x y *)
Definition inside_edge (V : rv -> Prop) (x y : rv) : Prop := forall v, V v -> 0 <= ar v x y.

(* at the end m of a visible chain the ray p m supports V *)
Lemma tangent_end (V : rv -> Prop) p x m y a b c :
  V a -> V b -> V c -> ar a b c <> 0 -> V y -> ~ samexy m y ->
  inside_edge V x m -> inside_edge V m y -> ar p x m < 0 -> 0 <= ar p m y ->
  forall v, V v -> 0 <= ar p m v.
Proof.
  intros Ha Hb Hc Hne Vy Hmy I1 I2 Hvis Hnv v Hv.
  assert (Id : forall v, ar x m y * ar p m v = ar p m y * ar v x m - ar p x m * ar v m y) by (intros; geo; ring).
  assert (S : 0 <= ar x m y). { specialize (I1 y Vy). rewrite <- ar_rot in I1. exact I1. }
  destruct (Rle_lt_or_eq_dec _ _ S) as [Spos|Szero].
  - specialize (Id v). specialize (I1 v Hv). specialize (I2 v Hv).
    assert (0 <= ar p m y * ar v x m) by (apply Rmult_le_pos; auto).
    assert (0 <= - ar p x m * ar v m y) by (apply Rmult_le_pos; lra).
    assert (0 <= ar x m y * ar p m v) by lra.
    destruct (Rle_lt_dec 0 (ar p m v)); auto. exfalso.
    pose proof (Rmult_lt_compat_l _ _ _ Spos r). rewrite Rmult_0_r in H2. lra.
  - exfalso. apply Hne.
    assert (Z : forall q, V q -> ar q m y = 0).
    { intros q Hq. specialize (Id q). rewrite <- Szero in Id.
      specialize (I1 q Hq). specialize (I2 q Hq).
      assert (0 <= ar p m y * ar q x m) by (apply Rmult_le_pos; auto).
      assert (0 <= - ar p x m * ar q m y) by (apply Rmult_le_pos; lra).
      assert (K : ar p x m * ar q m y = 0) by lra.
      apply Rmult_integral in K. destruct K; [exfalso; lra|auto]. }
    apply (collinear_line a b c m y); auto.
Qed.
Lemma tangent_start (V : rv -> Prop) p x l y a b c :
  V a -> V b -> V c -> ar a b c <> 0 -> V x -> ~ samexy x l ->
  inside_edge V x l -> inside_edge V l y -> 0 <= ar p x l -> ar p l y < 0 ->
  forall v, V v -> 0 <= ar v l p.
Proof.
  intros Ha Hb Hc Hne Vx Hxl I1 I2 Hnv Hvis v Hv.
  assert (Id : forall v, ar x l y * ar v l p = ar p x l * ar v l y - ar p l y * ar v x l) by (intros; geo; ring).
  assert (S : 0 <= ar x l y). { exact (I2 x Vx). }
  destruct (Rle_lt_or_eq_dec _ _ S) as [Spos|Szero].
  - specialize (Id v). specialize (I1 v Hv). specialize (I2 v Hv).
    assert (0 <= ar p x l * ar v l y) by (apply Rmult_le_pos; auto).
    assert (0 <= - ar p l y * ar v x l) by (apply Rmult_le_pos; lra).
    assert (0 <= ar x l y * ar v l p) by lra.
    destruct (Rle_lt_dec 0 (ar v l p)); auto. exfalso.
    pose proof (Rmult_lt_compat_l _ _ _ Spos r). rewrite Rmult_0_r in H2. lra.
  - exfalso. apply Hne.
    assert (Z : forall q, V q -> ar q x l = 0).
    { intros q Hq. specialize (Id q). rewrite <- Szero in Id.
      specialize (I1 q Hq). specialize (I2 q Hq).
      assert (0 <= ar p x l * ar q l y) by (apply Rmult_le_pos; auto).
      assert (0 <= - ar p l y * ar q x l) by (apply Rmult_le_pos; lra).
      assert (K : ar p l y * ar q x l = 0) by lra.
      apply Rmult_integral in K. destruct K; [exfalso; lra|auto]. }
    apply (collinear_line a b c x l); auto.
Qed.

Lemma ar_zero_param p m q : ~ samexy p m -> ar p m q = 0 ->
  exists k, rx q - rx p = k * (rx m - rx p) /\ ry q - ry p = k * (ry m - ry p).
Proof.
  intros Hne H. unfold ar, ccw in H.
  destruct (Req_dec (rx m) (rx p)) as [Ex|Ex].
  - assert (Ey : ry m <> ry p) by (intros E; apply Hne; split; auto).
    exists ((ry q - ry p) / (ry m - ry p)). split; [|field; lra].
    rewrite Ex in *. assert (K : (ry m - ry p) * (rx q - rx p) = 0) by lra.
    apply Rmult_integral in K. destruct K; [lra|]. rewrite H0. field; lra.
  - exists ((rx q - rx p) / (rx m - rx p)). split; [field; lra|].
    apply (Rmult_eq_reg_l (rx m - rx p)); [|lra].
    transitivity ((ry m - ry p) * (rx q - rx p)); [lra|field; lra].
Qed.
(* two ends of visible chains coincide *)
Lemma end_unique (V : rv -> Prop) p x m x' m' :
  V m -> V m' -> inside_edge V x m -> inside_edge V x' m' ->
  ar p x m < 0 -> ar p x' m' < 0 ->
  (forall v, V v -> 0 <= ar p m v) -> (forall v, V v -> 0 <= ar p m' v) -> samexy m m'.
Proof.
  intros Vm Vm' I I' H H' T T'.
  assert (Hpm : ~ samexy p m).
  { intros [E1 E2]. revert H. unfold ar, ccw. rewrite E1, E2. lra. }
  assert (Z : ar p m m' = 0).
  { specialize (T m' Vm'). specialize (T' m Vm). rewrite (ar_swap23 p m m') in T'. lra. }
  destruct (ar_zero_param _ _ _ Hpm Z) as (k & Kx & Ky).
  assert (E1 : ar m' x m = (1 - k) * ar p x m).
  { unfold ar, ccw. replace (rx m') with (rx p + k * (rx m - rx p)) by lra.
    replace (ry m') with (ry p + k * (ry m - ry p)) by lra. ring. }
  assert (E2 : k * ar m x' m' = (k - 1) * ar p x' m').
  { unfold ar, ccw. replace (rx m') with (rx p + k * (rx m - rx p)) by lra.
    replace (ry m') with (ry p + k * (ry m - ry p)) by lra. ring. }
  pose proof (I m' Vm') as G1. pose proof (I' m Vm) as G2.
  assert (k1 : 1 <= k).
  { destruct (Rle_lt_dec 1 k); auto. exfalso. rewrite E1 in G1.
    assert (0 < (1 - k) * - ar p x m) by (apply Rmult_lt_0_compat; lra). lra. }
  assert (k2 : k <= 1).
  { destruct (Rle_lt_dec k 1); auto. exfalso.
    assert (0 <= k * ar m x' m') by (apply Rmult_le_pos; lra).
    assert (0 < (k - 1) * - ar p x' m') by (apply Rmult_lt_0_compat; lra). lra. }
  assert (k = 1) by lra. subst k. split; lra.
Qed.

(** ** The seed triangle *)
Lemma far_dt a b v : dist2xy a b <= dist2xy a v -> 0 <= dt v a b.
Proof.
  intros H. pose proof (sq2_nonneg v b).
  assert (2 * dt v a b = dist2xy a v - dist2xy a b + sq2 v b) by (unfold sq2, dist2xy, dt; ring). lra.
Qed.
(* circumradius^2 on the pencil through a b *)
Lemma circumradius_pencil a b c : ar a b c <> 0 ->
  4 * (ar a b c * ar a b c) * dist2xy a (rcircumcenter a b c) =
  dist2xy a b * (ar a b c * ar a b c + dt c a b * dt c a b).
Proof.
  intros H. unfold ar in *. assert (ccw a b c <> 0) by lra.
  unfold dist2xy, rcircumcenter, dt; cbn [rx ry]. unfold ccw in *. field. auto.
Qed.
Lemma seed_empty a b c v :
  ar a b c <> 0 -> (~ samexy a b) ->
  0 <= dt c a b -> 0 <= dt v a b ->
  (ar a b v <> 0 -> dist2xy a (rcircumcenter a b c) <= dist2xy a (rcircumcenter a b v)) ->
  0 <= ar a b c * incirc a b c v.
Proof.
  intros Hc Hab Dc Dv Hr. rewrite incirc_pencil.
  assert (C2 : 0 < ar a b c * ar a b c) by (pose proof (Rsqr_pos_lt _ Hc); unfold Rsqr in *; auto).
  destruct (Req_dec (ar a b v) 0) as [E|E].
  - rewrite E. assert (K : 0 <= (ar a b c * ar a b c) * dt v a b) by (apply Rmult_le_pos; lra). lra.
  - assert (V2 : 0 < ar a b v * ar a b v) by (pose proof (Rsqr_pos_lt _ E); unfold Rsqr in *; auto).
    specialize (Hr E).
    pose proof (circumradius_pencil a b c Hc) as Pc. pose proof (circumradius_pencil a b v E) as Pv.
    assert (AB : 0 < dist2xy a b).
    { destruct (sq2_nonneg a b) as [|Z]; auto. exfalso. apply Hab. apply sq2_zero. auto. }
    set (S := ar a b c) in *. set (T := ar a b v) in *. set (x := dt c a b) in *. set (y := dt v a b) in *.
    set (rc := dist2xy a (rcircumcenter a b c)) in *. set (rv := dist2xy a (rcircumcenter a b v)) in *.
    (* (T x)^2 <= (S y)^2 *)
    assert (K : (T * T) * (x * x) <= (S * S) * (y * y)).
    { assert (K : 4 * (S * S) * (T * T) * rc <= 4 * (S * S) * (T * T) * rv).
      { apply Rmult_le_compat_l; [|auto]. apply Rlt_le.
        apply Rmult_lt_0_compat; [apply Rmult_lt_0_compat; lra|lra]. }
      replace (4 * (S * S) * (T * T) * rc) with ((T * T) * (4 * (S * S) * rc)) in K by ring.
      replace (4 * (S * S) * (T * T) * rv) with ((S * S) * (4 * (T * T) * rv)) in K by ring.
      rewrite Pc, Pv in K.
      apply (Rmult_le_reg_l (dist2xy a b)); [auto|]. lra. }
    assert (L : Rabs (T * x) <= Rabs (S * y)).
    { apply Rsqr_le_abs_0. unfold Rsqr. lra. }
    (* S (S y - T x) >= 0 *)
    rewrite !Rabs_mult in L. rewrite (Rabs_pos_eq x Dc), (Rabs_pos_eq y Dv) in L.
    assert (0 <= Rabs S * (Rabs S * y - Rabs T * x)) by (apply Rmult_le_pos; [apply Rabs_pos|lra]).
    assert (E1 : Rabs S * Rabs S = S * S) by (rewrite <- Rabs_mult; apply Rabs_pos_eq; lra).
    assert (E2 : S * T <= Rabs S * Rabs T) by (rewrite <- Rabs_mult; apply Rle_abs).
    assert (E3 : S * T * x <= Rabs S * Rabs T * x) by (apply Rmult_le_compat_r; auto).
    replace (Rabs S * (Rabs S * y - Rabs T * x)) with ((Rabs S * Rabs S) * y - Rabs S * Rabs T * x) in H by ring.
    rewrite E1 in H. lra.
Qed.
