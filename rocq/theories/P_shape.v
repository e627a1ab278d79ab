(** Proofs about package shape. *)
From Coq Require Import Reals Lra Lia ZArith List Bool.
From Verif Require Import Base Arith M_r3 Spec_r3 XRvec GoLoop M_shape Spec_shape P_nurbs.
Import ListNotations.

(** * Appending loops *)
Fixpoint zseq (lo : Z) (n : nat) : list Z := match n with O => [] | S k => lo :: zseq (lo + 1) k end.
Lemma zseq_length lo n : length (zseq lo n) = n.
Proof. revert lo; induction n; intros; simpl; auto. Qed.
Lemma zseq_nth : forall n lo k, (k < n)%nat -> nth_error (zseq lo n) k = Some (lo + Z.of_nat k)%Z.
Proof.
  induction n as [|n IH]; intros lo [|k] H; try lia; simpl.
  - f_equal. lia.
  - rewrite IH by lia. f_equal. lia.
Qed.
Lemma zseq_in n lo x : In x (zseq lo n) <-> (lo <= x < lo + Z.of_nat n)%Z.
Proof.
  revert lo; induction n as [|n IH]; intros lo; simpl; [lia|]. rewrite IH. lia.
Qed.
Lemma for_append {T} (f : Z -> list T) body : (forall i V, body i V = Ok (V ++ f i)) ->
  forall n lo V, for_ n lo V body = Ok (V ++ flat_map f (zseq lo n)).
Proof.
  intros H. induction n as [|n IH]; intros lo V; simpl.
  - now rewrite app_nil_r.
  - rewrite H. cbn [rbind]. rewrite IH, app_assoc. reflexivity.
Qed.
Lemma for_ext {S} (f g : Z -> S -> res S) : (forall i s, f i s = g i s) -> forall n lo s, for_ n lo s f = for_ n lo s g.
Proof.
  intros H. induction n as [|n IH]; intros lo s; simpl; [reflexivity|]. rewrite H. destruct (g lo s); simpl; auto.
Qed.
Lemma flat_map_block_length {T} (f : Z -> list T) m : forall n lo, (forall i, length (f i) = m) ->
  length (flat_map f (zseq lo n)) = (n * m)%nat.
Proof. induction n as [|n IH]; intros lo H; simpl; [reflexivity|]. rewrite app_length, H, IH; auto. Qed.
Lemma flat_map_block_nth {T} (f : Z -> list T) m : (forall i, length (f i) = m) -> forall n lo i j, (i < n)%nat -> (j < m)%nat ->
  nth_error (flat_map f (zseq lo n)) (i * m + j) = nth_error (f (lo + Z.of_nat i)%Z) j.
Proof.
  intros H. induction n as [|n IH]; intros lo i j Hi Hj; [lia|]. simpl. destruct i as [|i].
  - simpl. rewrite nth_error_app1 by (rewrite H; lia). do 2 f_equal. lia.
  - rewrite nth_error_app2 by (rewrite H; simpl; lia). rewrite H. replace (S i * m + j - m)%nat with (i * m + j)%nat by (simpl; lia).
    rewrite IH by lia. do 2 f_equal. lia.
Qed.
Lemma flat_map_single {T} (f : Z -> T) l : flat_map (fun i => [f i]) l = map f l.
Proof. induction l; simpl; congruence. Qed.

Section Gen.
Context {A : Arith} (G : Trig A).
(** * Circle, ellipse *)
Lemma circleVertices_value center radius sc : circleVertices G center radius sc =
  Ok (center :: map (circleVertex G center radius (fdiv A (tPi2 G) (fofZ A sc))) (zseq 0 (Z.to_nat sc))).
Proof.
  unfold circleVertices, forTo.
  rewrite (for_append (fun i => [circleVertex G center radius (fdiv A (tPi2 G) (fofZ A sc)) i])) by reflexivity.
  rewrite flat_map_single. replace (sc - 1 - 0 + 1)%Z with sc by lia. reflexivity.
Qed.
Lemma ellipseVertices_value center a b sc : ellipseVertices G center a b sc =
  Ok (center :: map (ellipseVertex G center a b (fdiv A (tPi2 G) (fofZ A sc))) (zseq 0 (Z.to_nat sc))).
Proof.
  unfold ellipseVertices, forTo.
  rewrite (for_append (fun i => [ellipseVertex G center a b (fdiv A (tPi2 G) (fofZ A sc)) i])) by reflexivity.
  rewrite flat_map_single. replace (sc - 1 - 0 + 1)%Z with sc by lia. reflexivity.
Qed.
Definition fan (i : Z) : list Z := ([0; i; i + 1; i + 1; i; 0])%Z.
Lemma fanIndices_value len : (1 <= len < 2 ^ 32)%Z -> fanIndices len =
  Ok (flat_map fan (zseq 1 (Z.to_nat (len - 1))) ++ [0; len - 1; 1; 1; len - 1; 0]%Z).
Proof.
  intros H. unfold fanIndices, forTo.
  rewrite (for_append (fun i => [0%Z; wrap32 i; wrap32 (i + 1); wrap32 (i + 1); wrap32 i; 0%Z])) by reflexivity.
  cbn [rbind app]. replace (len - 1 - 1 + 1)%Z with (len - 1)%Z by lia. f_equal. f_equal.
  - assert (G' : forall l, (forall i, In i l -> (0 <= i < 2 ^ 32 - 1)%Z) ->
      flat_map (fun i => [0%Z; wrap32 i; wrap32 (i + 1); wrap32 (i + 1); wrap32 i; 0%Z]) l = flat_map fan l).
    { induction l as [|i l IH]; intros Hl; simpl; [reflexivity|]. rewrite IH by (intros; apply Hl; now right).
      specialize (Hl i (or_introl eq_refl)). unfold wrap32. rewrite !Z.mod_small by lia. reflexivity. }
    apply G'. intros i Hi. apply zseq_in in Hi. lia.
  - unfold wrap32. rewrite Z.mod_small by lia. reflexivity.
Qed.

(** * Sphere, torus: vertices *)
Lemma for_append3 {T1 T2 T3} (f : Z -> list T1) (g : Z -> list T2) (h : Z -> list T3)
  (body : Z -> list T1 * list T2 * list T3 -> res (list T1 * list T2 * list T3)) :
  forall n lo V N T, (forall i V N T, (lo <= i < lo + Z.of_nat n)%Z -> body i (V, N, T) = Ok (V ++ f i, N ++ g i, T ++ h i)) ->
  for_ n lo (V, N, T) body = Ok (V ++ flat_map f (zseq lo n), N ++ flat_map g (zseq lo n), T ++ flat_map h (zseq lo n)).
Proof.
  induction n as [|n IH]; intros lo V N T H; simpl.
  - now rewrite !app_nil_r.
  - rewrite H by lia. cbn [rbind]. rewrite IH by (intros; apply H; lia). rewrite !app_assoc. reflexivity.
Qed.
Definition gv (xyOf zOf : A -> A) (stackStep sectorStep : A) (i j : Z) : vec A :=
  let a := fsub A (tPiH G) (fmul A (fofZ A i) stackStep) in gridVertex G (xyOf a) (zOf a) sectorStep j.
Definition gn (xyOf zOf : A -> A) (stackStep sectorStep linv : A) (i j : Z) : A * A * A :=
  let v := gv xyOf zOf stackStep sectorStep i j in (fmul A (vx v) linv, fmul A (vy v) linv, fmul A (vz v) linv).
Definition gt (sc st i j : Z) : A * A := (fofZ A (Z.quot j sc), fofZ A (Z.quot i st)).
Definition grow {T} (sc : Z) (f : Z -> Z -> T) (i : Z) : list T := map (f i) (zseq 0 (Z.to_nat (sc + 1))).
Lemma gridVertices_value xyOf zOf radius stackStep sc st : (1 <= sc)%Z ->
  let ss := fdiv A (tPi2 G) (fofZ A sc) in
  let rows := zseq 0 (Z.to_nat st) in
  gridVertices G xyOf zOf radius stackStep sc st =
  Ok (flat_map (grow sc (gv xyOf zOf stackStep ss)) rows,
      flat_map (grow sc (gn xyOf zOf stackStep ss (fdiv A (fofZ A 1) radius))) rows,
      flat_map (grow sc (gt sc st)) rows).
Proof.
  intros Hsc ss rows. unfold gridVertices, forTo.
  replace (Z.to_nat (st - 1 - 0 + 1)) with (Z.to_nat st) by lia.
  refine (for_append3 (grow sc (gv xyOf zOf stackStep ss))
     (grow sc (gn xyOf zOf stackStep ss (fdiv A (fofZ A 1) radius))) (grow sc (gt sc st)) _ _ _ [] [] [] _).
  intros i V N T Hi. replace (Z.to_nat (sc - 0 + 1)) with (Z.to_nat (sc + 1)) by lia.
  rewrite (for_append3 (fun j => [gv xyOf zOf stackStep ss i j])
     (fun j => [gn xyOf zOf stackStep ss (fdiv A (fofZ A 1) radius) i j]) (fun j => [gt sc st i j])).
  - rewrite !flat_map_single. reflexivity.
  - intros j V' N' T' Hj. unfold gridStep, godiv.
    destruct (Z.eqb_spec sc 0); [lia|]. destruct (Z.eqb_spec st 0); [lia|]. reflexivity.
Qed.
Lemma gridVertices_zero xyOf zOf radius stackStep st : (1 <= st)%Z ->
  gridVertices G xyOf zOf radius stackStep 0 st = Panic.
Proof.
  intros H. unfold gridVertices, forTo. replace (Z.to_nat (st - 1 - 0 + 1)) with (S (Z.to_nat (st - 1))) by lia.
  reflexivity.
Qed.
Lemma grid_nth {T} (f : Z -> Z -> T) sc st i j : (0 <= sc)%Z -> (0 <= i < st)%Z -> (0 <= j <= sc)%Z ->
  zget (flat_map (grow sc f) (zseq 0 (Z.to_nat st))) (i * (sc + 1) + j)%Z = Ok (f i j).
Proof.
  intros Hsc Hi Hj. apply zget_ok. split; [nia|].
  replace (Z.to_nat (i * (sc + 1) + j)) with (Z.to_nat i * Z.to_nat (sc + 1) + Z.to_nat j)%nat
    by (apply Nat2Z.inj; rewrite Nat2Z.inj_add, Nat2Z.inj_mul, !Z2Nat.id by nia; reflexivity).
  rewrite flat_map_block_nth by (intros; unfold grow; rewrite ?map_length, ?zseq_length; lia). unfold grow.
  rewrite Z.add_0_l. rewrite Z2Nat.id by lia.
  rewrite (map_nth_error _ _ _ (zseq_nth (Z.to_nat (sc + 1)) 0 (Z.to_nat j) ltac:(lia))).
  do 2 f_equal. lia.
Qed.
Lemma grid_length {T} (f : Z -> Z -> T) sc st : (0 <= sc)%Z -> (0 <= st)%Z ->
  Z.of_nat (length (flat_map (grow sc f) (zseq 0 (Z.to_nat st)))) = (st * (sc + 1))%Z.
Proof.
  intros. rewrite (flat_map_block_length _ (Z.to_nat (sc + 1))) by (intros; unfold grow; now rewrite map_length, zseq_length). lia.
Qed.
End Gen.

(** * Sphere, torus: indices *)
Definition flat3 (l : list (Z * Z * Z)) : list Z := flat_map (fun '(a, b, c) => [a; b; c]) l.
Lemma triangles_flat3 l : triangles_of (flat3 l) = l.
Proof. induction l as [|[[a b] c] l IH]; simpl; congruence. Qed.
Lemma flat3_app a b : flat3 (a ++ b) = flat3 a ++ flat3 b.
Proof. apply flat_map_app. Qed.
Definition top_tris (sc : Z) : list (Z * Z * Z) :=
  map (fun j => (j + 1, (sc + 1) + j, (sc + 1) + j + 1)%Z) (zseq 0 (Z.to_nat sc)).
Definition mid_tris (sc i : Z) : list (Z * Z * Z) :=
  flat_map (fun j => [(i * (sc + 1) + j, (i + 1) * (sc + 1) + j, i * (sc + 1) + j + 1);
                      (i * (sc + 1) + j + 1, (i + 1) * (sc + 1) + j, (i + 1) * (sc + 1) + j + 1)]%Z) (zseq 0 (Z.to_nat sc)).
Definition grid_tris (sc st : Z) : list (Z * Z * Z) :=
  top_tris sc ++ flat_map (mid_tris sc) (zseq 1 (Z.to_nat (st - 2))).

Ltac eqz := repeat match goal with |- @eq Z _ _ => lia | |- ?a = ?a => reflexivity | |- _ => progress f_equal end.
Lemma wrap32_small z : (0 <= z < 2 ^ 32)%Z -> wrap32 z = z.
Proof. apply Z.mod_small. Qed.
Lemma wrap32_add a b : wrap32 (wrap32 a + b) = wrap32 (a + b).
Proof. unfold wrap32. now rewrite Zplus_mod_idemp_l. Qed.
Lemma index_loop (body : Z -> list Z * Z * Z -> res (list Z * Z * Z)) (f : Z -> list (Z * Z * Z)) a b : forall n lo Ix,
  (forall j Ix, (lo <= j < lo + Z.of_nat n)%Z -> body j (Ix, wrap32 (a + j), wrap32 (b + j)) =
     Ok (Ix ++ flat3 (f j), wrap32 (a + (j + 1)), wrap32 (b + (j + 1)))) ->
  for_ n lo (Ix, wrap32 (a + lo), wrap32 (b + lo)) body =
    Ok (Ix ++ flat3 (flat_map f (zseq lo n)), wrap32 (a + (lo + Z.of_nat n)), wrap32 (b + (lo + Z.of_nat n))).
Proof.
  induction n as [|n IH]; intros lo Ix H.
  - cbn [for_ zseq flat_map flat3]. unfold flat3; simpl. rewrite app_nil_r, Z.add_0_r. reflexivity.
  - cbn [for_]. rewrite H by lia. cbn [rbind]. rewrite IH by (intros; apply H; lia).
    replace (lo + Z.of_nat (S n))%Z with (lo + 1 + Z.of_nat n)%Z by lia.
    cbn [zseq flat_map]. rewrite flat3_app, app_assoc. reflexivity.
Qed.
Lemma gridIndices_value sc st : (0 <= sc)%Z -> (2 <= st)%Z -> (st * (sc + 1) <= 2 ^ 32)%Z ->
  gridIndices sc st = Ok (flat3 (grid_tris sc st)).
Proof.
  intros Hsc Hst Hmax. unfold gridIndices.
  assert (M : (2 * (sc + 1) <= 2 ^ 32)%Z) by nia.
  pose proof (index_loop (fun _ s => let '(Ix, k1, k2) := s in
    Ok (Ix ++ [wrap32 (k1 + 1); k2; wrap32 (k2 + 1)], wrap32 (k1 + 1), wrap32 (k2 + 1)))
    (fun j => [(j + 1, (sc + 1) + j, (sc + 1) + j + 1)%Z]) 0 (sc + 1) (Z.to_nat sc) 0 []) as L.
  rewrite flat_map_single in L. fold (top_tris sc) in L. rewrite !Z.add_0_r in L.
  change (wrap32 0) with 0%Z in L. unfold forTo at 1. replace (sc - 1 - 0 + 1)%Z with sc by lia.
  rewrite L; clear L.
  2:{ intros j Ix Hj. rewrite !wrap32_add. unfold flat3. simpl flat_map.
      rewrite !wrap32_small by lia. eqz. }
  cbn [rbind app]. unfold forTo at 1. replace (st - 2 - 1 + 1)%Z with (st - 2)%Z by lia.
  match goal with |- for_ _ _ _ ?b = _ =>
    assert (B : forall n lo Ix, (1 <= lo)%Z -> (lo + Z.of_nat n <= st - 1)%Z ->
      for_ n lo Ix b = Ok (Ix ++ flat3 (flat_map (mid_tris sc) (zseq lo n)))) end.
  { induction n as [|n IH]; intros lo Ix H1 H2.
    - cbn. now rewrite app_nil_r.
    - cbn [for_]. 
      pose proof (index_loop (fun _ s => let '(Ix, k1, k2) := s in
        Ok (Ix ++ [k1; k2; wrap32 (k1 + 1); wrap32 (k1 + 1); k2; wrap32 (k2 + 1)],
          wrap32 (k1 + 1), wrap32 (k2 + 1)))
        (fun j => [(lo * (sc + 1) + j, (lo + 1) * (sc + 1) + j, lo * (sc + 1) + j + 1);
                   (lo * (sc + 1) + j + 1, (lo + 1) * (sc + 1) + j, (lo + 1) * (sc + 1) + j + 1)]%Z)
        (lo * (sc + 1)) ((lo + 1) * (sc + 1)) (Z.to_nat sc) 0 Ix) as L.
      fold (mid_tris sc lo) in L. rewrite !Z.add_0_r in L. unfold forTo at 1.
      replace (sc - 1 - 0 + 1)%Z with sc by lia.
      replace (wrap32 (wrap32 (lo * (sc + 1)) + wrap32 (sc + 1)))%Z with (wrap32 ((lo + 1) * (sc + 1))).
      2:{ rewrite wrap32_add, (Z.add_comm (lo * (sc + 1))), wrap32_add. f_equal. ring. }
      rewrite L; clear L.
      2:{ intros j Ix' Hj. assert (B1 : ((lo + 1) * (sc + 1) + j + 1 < 2 ^ 32)%Z) by nia.
          assert (B0 : (0 <= lo * (sc + 1))%Z) by nia.
          assert (B2 : ((lo + 1) * (sc + 1) = lo * (sc + 1) + (sc + 1))%Z) by ring.
          rewrite !wrap32_add. unfold flat3. simpl flat_map. rewrite !wrap32_small by lia.
          eqz. }
      cbn [rbind]. rewrite IH by lia. cbn [zseq flat_map]. rewrite flat3_app, app_assoc. reflexivity. }
  rewrite B by lia. unfold grid_tris. rewrite flat3_app. reflexivity.
Qed.
Lemma grid_tris_in sc st a b c : In (a, b, c) (grid_tris sc st) <->
  exists j, (0 <= j < sc)%Z /\
   ((a, b, c) = (j + 1, (sc + 1) + j, (sc + 1) + j + 1)%Z \/
    exists i, (1 <= i < st - 1)%Z /\
      ((a, b, c) = (i * (sc + 1) + j, (i + 1) * (sc + 1) + j, i * (sc + 1) + j + 1)%Z \/
       (a, b, c) = (i * (sc + 1) + j + 1, (i + 1) * (sc + 1) + j, (i + 1) * (sc + 1) + j + 1)%Z)).
Proof.
  unfold grid_tris. rewrite in_app_iff. unfold top_tris. rewrite in_map_iff, in_flat_map. split.
  - intros [(j & E & Hj)|(i & Hi & H)].
    + apply zseq_in in Hj. exists j. split; [lia|]. left. congruence.
    + apply zseq_in in Hi. unfold mid_tris in H. apply in_flat_map in H. destruct H as (j & Hj & H).
      apply zseq_in in Hj. exists j. split; [lia|]. right. exists i. split; [lia|].
      destruct H as [H|[H|[]]]; [left|right]; congruence.
  - intros (j & Hj & [E|(i & Hi & E)]).
    + left. exists j. split; [congruence|]. apply zseq_in. lia.
    + right. exists i. split; [apply zseq_in; lia|]. unfold mid_tris. apply in_flat_map. exists j.
      split; [apply zseq_in; lia|]. destruct E as [E|E]; [left|right; left]; congruence.
Qed.
Lemma flat3_in x l : In x (flat3 l) <-> exists a b c, In (a, b, c) l /\ (x = a \/ x = b \/ x = c).
Proof.
  unfold flat3. rewrite in_flat_map. split.
  - intros ([[a b] c] & H & [E|[E|[E|[]]]]); exists a, b, c; auto.
  - intros (a & b & c & H & E). exists (a, b, c). split; [exact H|]. simpl. intuition.
Qed.
Lemma flat3_length l : length (flat3 l) = (3 * length l)%nat.
Proof. induction l as [|[[a b] c] l IH]; [reflexivity|]. simpl in *. rewrite IH. lia. Qed.
Lemma grid_tris_length sc st : (0 <= sc)%Z -> (2 <= st)%Z ->
  Z.of_nat (length (grid_tris sc st)) = (sc + 2 * sc * (st - 2))%Z.
Proof.
  intros H1 H2. unfold grid_tris. rewrite app_length. unfold top_tris. rewrite map_length, zseq_length.
  rewrite (flat_map_block_length _ (Z.to_nat sc * 2)).
  - nia.
  - intros i. unfold mid_tris. apply flat_map_block_length. reflexivity.
Qed.
Lemma grid_index_range sc st x : (0 <= sc)%Z -> (2 <= st)%Z -> In x (flat3 (grid_tris sc st)) -> (0 <= x < st * (sc + 1))%Z.
Proof.
  intros H1 H2. rewrite flat3_in. intros (a & b & c & H & E). apply grid_tris_in in H.
  destruct H as (j & Hj & [H|(i & Hi & [H|H])]); injection H as -> -> ->.
  - assert (0 <= (st - 2) * (sc + 1))%Z by nia. assert ((st - 2) * (sc + 1) = st * (sc + 1) - 2 * (sc + 1))%Z by ring. lia.
  - assert (0 <= i * (sc + 1))%Z by nia. assert (0 <= (st - 1 - i - 1) * (sc + 1))%Z by nia.
    assert ((st - 1 - i - 1) * (sc + 1) = st * (sc + 1) - i * (sc + 1) - 2 * (sc + 1))%Z by ring.
    assert ((i + 1) * (sc + 1) = i * (sc + 1) + (sc + 1))%Z by ring. lia.
  - assert (0 <= i * (sc + 1))%Z by nia. assert (0 <= (st - 1 - i - 1) * (sc + 1))%Z by nia.
    assert ((st - 1 - i - 1) * (sc + 1) = st * (sc + 1) - i * (sc + 1) - 2 * (sc + 1))%Z by ring.
    assert ((i + 1) * (sc + 1) = i * (sc + 1) + (sc + 1))%Z by ring. lia.
Qed.

Open Scope R_scope.
(** * Exact arithmetic *)
Definition xcos (x : XR) : XR := match x with Fin r => Fin (cos r) | _ => NaN end.
Definition xsin (x : XR) : XR := match x with Fin r => Fin (sin r) | _ => NaN end.
Definition XT : Trig XR := mkTrig XR (Fin PI) (Fin (2 * PI)) (Fin (PI / 2)) xcos xsin.
Lemma xdiv_fin a b : b <> 0 -> xdiv (Fin a) (Fin b) = Fin (a / b).
Proof. intros H. cbn. destruct (Reqb_spec b 0); [contradiction|reflexivity]. Qed.

Definition fan_angle (sc i : Z) : R := PI / 2 - IZR i * (2 * PI / IZR sc).
Lemma circleVertex_fv c r sc i : (1 <= sc)%Z ->
  circleVertex XT (fv c) (Fin r) (fdiv XR (tPi2 XT) (fofZ XR sc)) i =
  fv (RV (r * cos (fan_angle sc i) + rx c) (r * sin (fan_angle sc i) + ry c) (rz c)).
Proof.
  intros H. unfold circleVertex. cbn [fdiv XR tPi2 XT fofZ]. rewrite xdiv_fin by (apply not_0_IZR; lia).
  unfold fan_angle, Add_method, fv. cbn [vx vy vz tPiH XT tcos tsin xcos xsin fadd fsub fmul XR fofZ xmul xsub xadd xneg rx ry rz].
  unfold Rminus. f_equal; f_equal. ring.
Qed.
Lemma ellipseVertex_fv c a b sc i : (1 <= sc)%Z ->
  ellipseVertex XT (fv c) (Fin a) (Fin b) (fdiv XR (tPi2 XT) (fofZ XR sc)) i =
  fv (RV (a * cos (fan_angle sc i) + rx c) (b * sin (fan_angle sc i) + ry c) (rz c)).
Proof.
  intros H. unfold ellipseVertex. cbn [fdiv XR tPi2 XT fofZ]. rewrite xdiv_fin by (apply not_0_IZR; lia).
  unfold fan_angle, Add_method, fv. cbn [vx vy vz tPiH XT tcos tsin xcos xsin fadd fsub fmul XR fofZ xmul xsub xadd xneg rx ry rz].
  unfold Rminus. f_equal; f_equal. ring.
Qed.

(** grid position *)
Definition gpos (xy z : Z -> R) (sc i j : Z) : rv :=
  RV (xy i * cos (IZR j * (2 * PI / IZR sc))) (xy i * sin (IZR j * (2 * PI / IZR sc))) (z i).
Definition sph_angle (st i : Z) : R := PI / 2 - IZR i * (PI / IZR st).
Definition tor_angle (st i : Z) : R := PI / 2 - IZR i * (2 * PI / IZR st).
Definition sph_pos (r : R) (sc st : Z) := gpos (fun i => r * cos (sph_angle st i)) (fun i => r * sin (sph_angle st i)) sc.
Definition tor_pos (R0 r : R) (sc st : Z) :=
  gpos (fun i => R0 + r * cos (tor_angle st i)) (fun i => r * sin (tor_angle st i)) sc.

Lemma sphere_gv r sc st i j : (1 <= sc)%Z -> (1 <= st)%Z ->
  gv XT (fun a => fmul XR (Fin r) (tcos XT a)) (fun a => fmul XR (Fin r) (tsin XT a)) (fdiv XR (tPi XT) (fofZ XR st))
    (fdiv XR (tPi2 XT) (fofZ XR sc)) i j = fv (sph_pos r sc st i j).
Proof.
  intros H1 H2. unfold gv. cbn [fdiv XR tPi tPi2 XT fofZ]. rewrite !xdiv_fin by (apply not_0_IZR; lia).
  reflexivity.
Qed.
Lemma torus_gv R0 r sc st i j : (1 <= sc)%Z -> (1 <= st)%Z ->
  gv XT (fun a => fadd XR (Fin R0) (fmul XR (Fin r) (tcos XT a))) (fun a => fmul XR (Fin r) (tsin XT a))
    (fdiv XR (tPi2 XT) (fofZ XR st)) (fdiv XR (tPi2 XT) (fofZ XR sc)) i j = fv (tor_pos R0 r sc st i j).
Proof.
  intros H1 H2. unfold gv. cbn [fdiv XR tPi tPi2 XT fofZ]. rewrite !xdiv_fin by (apply not_0_IZR; lia).
  reflexivity.
Qed.

Lemma cs1 x : cos x * cos x + sin x * sin x = 1.
Proof. pose proof (sin2_cos2 x). unfold Rsqr in H. lra. Qed.
Lemma gpos_xy2 xy z sc i j : rx (gpos xy z sc i j) * rx (gpos xy z sc i j) + ry (gpos xy z sc i j) * ry (gpos xy z sc i j)
  = xy i * xy i.
Proof. unfold gpos; cbn [rx ry]. set (t := IZR j * _). pose proof (cs1 t).
  replace (xy i * cos t * (xy i * cos t) + xy i * sin t * (xy i * sin t)) with (xy i * xy i * (cos t * cos t + sin t * sin t)) by ring.
  rewrite H. ring. Qed.
Lemma sph_norm r sc st i j : rdot (sph_pos r sc st i j) (sph_pos r sc st i j) = r * r.
Proof.
  unfold rdot, sph_pos. rewrite gpos_xy2. cbn [rz gpos]. pose proof (cs1 (sph_angle st i)).
  set (t := sph_angle st i) in *. replace (r * cos t * (r * cos t) + r * sin t * (r * sin t)) with (r * r * (cos t * cos t + sin t * sin t)) by ring.
  rewrite H. ring.
Qed.

(** ** injectivity *)
Lemma cos_one d : 0 <= d <= 2 * PI -> cos d = 1 -> d = 0 \/ d = 2 * PI.
Proof.
  intros Hd H. assert (E : sin (d / 2) = 0).
  { assert (C : cos (2 * (d / 2)) = 1) by (replace (2 * (d / 2)) with d by field; exact H).
    rewrite cos_2a_sin in C. assert (sin (d / 2) * sin (d / 2) = 0) by lra. now apply Rsqr_0_uniq. }
  destruct (Rle_lt_or_eq_dec 0 d (proj1 Hd)) as [L|L]; [|auto].
  destruct (Rle_lt_or_eq_dec d (2 * PI) (proj2 Hd)) as [M|M]; [|auto].
  pose proof (sin_gt_0 (d / 2) ltac:(lra) ltac:(lra)). lra.
Qed.
Lemma angle_eq (k k' n : Z) : (1 <= n)%Z -> (Z.abs (k - k') <= n)%Z ->
  cos (IZR k * (2 * PI / IZR n)) = cos (IZR k' * (2 * PI / IZR n)) ->
  sin (IZR k * (2 * PI / IZR n)) = sin (IZR k' * (2 * PI / IZR n)) -> k = k' \/ Z.abs (k - k') = n.
Proof.
  intros Hn Hk Hc Hs.
  assert (W : forall a b, (0 <= a - b <= n)%Z -> cos (IZR a * (2 * PI / IZR n)) = cos (IZR b * (2 * PI / IZR n)) ->
     sin (IZR a * (2 * PI / IZR n)) = sin (IZR b * (2 * PI / IZR n)) -> (a = b \/ a - b = n)%Z).
  { clear. intros a b Hab Hc Hs.
    assert (C : cos (IZR (a - b) * (2 * PI / IZR n)) = 1).
    { rewrite minus_IZR, Rmult_minus_distr_r, cos_minus, Hc, Hs. apply cs1. }
    destruct (Z.eq_dec n 0) as [->|Nn]; [lia|]. assert (Pn : 0 < IZR n) by (apply IZR_lt; lia).
    pose proof PI_RGT_0 as HP. 
    assert (B : IZR (a - b) * (2 * PI / IZR n) = (IZR (a - b) / IZR n) * (2 * PI)) by (field; lra).
    assert (Q : 0 <= IZR (a - b) / IZR n <= 1).
    { split; [apply Rmult_le_pos; [apply IZR_le; lia|left; now apply Rinv_0_lt_compat]|].
      apply Rmult_le_reg_r with (IZR n); [exact Pn|]. unfold Rdiv. rewrite Rmult_assoc, Rinv_l, Rmult_1_r, Rmult_1_l by lra.
      apply IZR_le. lia. }
    rewrite B in C.
    assert (Rg : 0 <= IZR (a - b) / IZR n * (2 * PI) <= 2 * PI).
    { split; [apply Rmult_le_pos; lra|]. rewrite <- (Rmult_1_l (2 * PI)) at 2. apply Rmult_le_compat_r; lra. }
    destruct (cos_one _ Rg C) as [E|E].
    - left. apply Rmult_integral in E. destruct E as [E|E]; [|lra]. apply Rmult_integral in E.
      destruct E as [E|E]; [|pose proof (Rinv_0_lt_compat _ Pn); lra]. apply eq_IZR in E. lia.
    - right. assert (E' : IZR (a - b) / IZR n = 1) by (apply Rmult_eq_reg_r with (2 * PI); lra).
      apply eq_IZR. apply Rmult_eq_reg_r with (/ IZR n); [|apply Rinv_neq_0_compat; lra].
      rewrite Rinv_r by lra. exact E'. }
  destruct (Z_le_gt_dec k' k).
  - destruct (W k k' ltac:(lia) Hc Hs); lia.
  - destruct (W k' k ltac:(lia) (eq_sym Hc) (eq_sym Hs)); lia.
Qed.
Lemma gpos_row_inj xy z sc i j j' : (1 <= sc)%Z -> xy i <> 0 -> (0 <= j <= sc)%Z -> (0 <= j' <= sc)%Z ->
  gpos xy z sc i j = gpos xy z sc i j' -> j = j' \/ Z.abs (j - j') = sc.
Proof.
  intros Hs Hxy Hj Hj' E. unfold gpos in E.
  assert (E1 := f_equal rx E). assert (E2 := f_equal ry E). cbn [rx ry] in E1, E2.
  apply Rmult_eq_reg_l in E1, E2; try assumption. apply angle_eq; lia || assumption.
Qed.

(** ** open meshes *)
Lemma NoDup_flat_map {X Y} (f : X -> list Y) l : NoDup l -> (forall x, In x l -> NoDup (f x)) ->
  (forall x x' y, In x l -> In x' l -> In y (f x) -> In y (f x') -> x = x') -> NoDup (flat_map f l).
Proof.
  induction 1 as [|a l Ha Hl IH]; intros Hf Hd; simpl; [constructor|].
  assert (NA : NoDup (f a)) by (apply Hf; now left).
  assert (NB : NoDup (flat_map f l)) by (apply IH; [intros; apply Hf; now right|intros x x' y; intros; apply (Hd x x' y); auto; now right]).
  assert (ND : forall y, In y (f a) -> ~ In y (flat_map f l)).
  { intros y Hy Hy'. apply in_flat_map in Hy'. destruct Hy' as (x & Hx & Hy'). apply Ha.
    rewrite (Hd a x y); auto; [now left|now right]. }
  clear - NA NB ND. induction (f a) as [|y ys IH]; simpl; [exact NB|]. inversion NA; subst. constructor.
  - rewrite in_app_iff. intros [H|H]; [contradiction|]. apply (ND y); [now left|exact H].
  - apply IH; [assumption|]. intros z Hz. apply ND. now right.
Qed.
Lemma zseq_NoDup n lo : NoDup (zseq lo n).
Proof. revert lo; induction n as [|n IH]; intros lo; simpl; constructor; auto. rewrite zseq_in. lia. Qed.
Lemma grid_tris_NoDup sc st : (0 <= sc)%Z -> NoDup (grid_tris sc st).
Proof.
  intros Hsc. unfold grid_tris. 
  assert (E : top_tris sc = flat_map (fun j => [(j + 1, (sc + 1) + j, (sc + 1) + j + 1)%Z]) (zseq 0 (Z.to_nat sc)))
    by (rewrite flat_map_single; reflexivity).
  assert (NT : NoDup (top_tris sc)).
  { rewrite E. apply NoDup_flat_map; [apply zseq_NoDup|intros; repeat constructor; simpl; tauto|].
    intros x x' y _ _ [<-|[]] [H|[]]. injection H. lia. }
  assert (NM : NoDup (flat_map (mid_tris sc) (zseq 1 (Z.to_nat (st - 2))))).
  { apply NoDup_flat_map; [apply zseq_NoDup| |].
    - intros i _. unfold mid_tris. apply NoDup_flat_map; [apply zseq_NoDup| |].
      + intros j _. constructor; [|constructor; [simpl; tauto|constructor]]. intros [H|[]]. injection H. lia.
      + intros j j' y _ _ [<-|[<-|[]]] [H|[H|[]]]; injection H; lia.
    - intros i i' y Hi Hi' Hy Hy'. unfold mid_tris in Hy, Hy'. apply in_flat_map in Hy, Hy'.
      destruct Hy as (j & Hj & Hy), Hy' as (j' & Hj' & Hy'). apply zseq_in in Hj, Hj'.
      assert (Q : (i * (sc + 1) + j = i' * (sc + 1) + j')%Z).
      { destruct Hy as [<-|[<-|[]]], Hy' as [H|[H|[]]]; injection H; lia. }
      nia. }
  assert (ND : forall y, In y (top_tris sc) -> ~ In y (flat_map (mid_tris sc) (zseq 1 (Z.to_nat (st - 2))))).
  { intros y Hy Hy'. rewrite E in Hy. apply in_flat_map in Hy. destruct Hy as (j & Hj & [<-|[]]).
    apply in_flat_map in Hy'. destruct Hy' as (i & Hi & Hy'). unfold mid_tris in Hy'. apply in_flat_map in Hy'.
    destruct Hy' as (j' & Hj' & Hy'). apply zseq_in in Hj, Hj', Hi. destruct Hy' as [H|[H|[]]]; injection H; nia. }
  clear E. induction (top_tris sc) as [|y ys IH]; simpl; [exact NM|]. inversion NT; subst. constructor.
  - rewrite in_app_iff. intros [H|H]; [contradiction|]. apply (ND y); [now left|exact H].
  - apply IH; [assumption|]. intros z Hz. apply ND. now right.
Qed.

Section Open.
Variable sc st : Z.
Hypothesis Hsc : (3 <= sc)%Z.
Hypothesis Hst : (2 <= st)%Z.
Variable P : Z -> Z -> rv.
Variable pos : Z -> rv.
Hypothesis Hpos : forall i j, (0 <= i < st)%Z -> (0 <= j <= sc)%Z -> pos (i * (sc + 1) + j)%Z = P i j.
Hypothesis Hrow : forall i j j', (0 <= i < st)%Z -> (0 <= j <= sc)%Z -> (0 <= j' <= sc)%Z ->
  P i j = P (st - 1)%Z j' -> i = (st - 1)%Z.
Hypothesis Hcol : forall j j', (0 <= j <= sc)%Z -> (0 <= j' <= sc)%Z ->
  P (st - 1)%Z j = P (st - 1)%Z j' -> j = j' \/ Z.abs (j - j') = sc.
Lemma row_match (i j j' : Z) : (0 <= i < st)%Z -> (0 <= j <= sc)%Z -> (0 <= j' <= sc)%Z ->
  pos (i * (sc + 1) + j)%Z = P (st - 1)%Z j' -> i = (st - 1)%Z /\ (j = j' \/ Z.abs (j - j') = sc).
Proof.
  intros Hi Hj Hj' E. rewrite Hpos in E by assumption. pose proof (Hrow i j j' Hi Hj Hj' E) as ->.
  split; [reflexivity|]. apply Hcol; assumption.
Qed.
Definition witness : Z * Z * Z := (((st - 2) * (sc + 1) + 1), ((st - 1) * (sc + 1)), ((st - 1) * (sc + 1) + 1))%Z.
Lemma witness_in : In witness (grid_tris sc st).
Proof.
  apply grid_tris_in. exists 0%Z. split; [lia|]. destruct (Z.eq_dec st 2) as [E|N].
  - left. rewrite E. eqz.
  - right. exists (st - 2)%Z. split; [lia|]. right. unfold witness. eqz.
Qed.
Lemma witness_edge : has_edge pos witness (P (st - 1)%Z 0%Z) (P (st - 1)%Z 1%Z).
Proof.
  split; [|split].
  - intros E. apply Hcol in E; lia.
  - exists ((st - 1) * (sc + 1))%Z. split; [right; left; reflexivity|].
    rewrite <- (Hpos (st - 1) 0) by lia. f_equal. ring.
  - exists ((st - 1) * (sc + 1) + 1)%Z. split; [right; right; reflexivity|]. apply Hpos; lia.
Qed.
(** corners of a grid triangle as (row, column) *)
Lemma witness_only t : In t (grid_tris sc st) -> has_edge pos t (P (st - 1)%Z 0%Z) (P (st - 1)%Z 1%Z) -> t = witness.
Proof.
  destruct t as [[a b] c]. intros H (_ & (k & Ck & Ek) & (k' & Ck' & Ek')). apply grid_tris_in in H.
  destruct H as (j & Hj & H).
  (* all three shapes: every corner is i * (sc+1) + j *)
  assert (R : forall i j, (0 <= i < st)%Z -> (0 <= j <= sc)%Z -> pos (i * (sc + 1) + j)%Z = P (st - 1)%Z 0%Z ->
     i = (st - 1)%Z /\ (j = 0 \/ j = sc)%Z).
  { intros i0 j0 A B C. destruct (row_match i0 j0 0 A B ltac:(lia) C). lia. }
  assert (R' : forall i j, (0 <= i < st)%Z -> (0 <= j <= sc)%Z -> pos (i * (sc + 1) + j)%Z = P (st - 1)%Z 1%Z ->
     i = (st - 1)%Z /\ (j = 1)%Z).
  { intros i0 j0 A B C. destruct (row_match i0 j0 1 A B ltac:(lia) C). lia. }
  destruct H as [H|(i & Hi & [H|H])]; injection H as -> -> ->.
  - assert (X : (k = 0 * (sc + 1) + (j + 1) \/ k = 1 * (sc + 1) + j \/ k = 1 * (sc + 1) + (j + 1))%Z) by (simpl in Ck; lia).
    assert (X' : (k' = 0 * (sc + 1) + (j + 1) \/ k' = 1 * (sc + 1) + j \/ k' = 1 * (sc + 1) + (j + 1))%Z) by (simpl in Ck'; lia).
    assert (Y : (st = 2 /\ j = 0)%Z).
    { destruct X as [->|[->| ->]]; apply R in Ek; try lia;
      destruct X' as [->|[->| ->]]; apply R' in Ek'; lia. }
    destruct Y as [-> ->]. unfold witness. eqz.
  - exfalso.
    assert (X : (k = i * (sc + 1) + j \/ k = (i + 1) * (sc + 1) + j \/ k = i * (sc + 1) + (j + 1))%Z) by (simpl in Ck; lia).
    assert (X' : (k' = i * (sc + 1) + j \/ k' = (i + 1) * (sc + 1) + j \/ k' = i * (sc + 1) + (j + 1))%Z) by (simpl in Ck'; lia).
    destruct X as [->|[->| ->]]; apply R in Ek; try lia;
      destruct X' as [->|[->| ->]]; apply R' in Ek'; lia.
  - assert (X : (k = i * (sc + 1) + (j + 1) \/ k = (i + 1) * (sc + 1) + j \/ k = (i + 1) * (sc + 1) + (j + 1))%Z) by (simpl in Ck; lia).
    assert (X' : (k' = i * (sc + 1) + (j + 1) \/ k' = (i + 1) * (sc + 1) + j \/ k' = (i + 1) * (sc + 1) + (j + 1))%Z) by (simpl in Ck'; lia).
    assert (Y : (i = st - 2 /\ j = 0)%Z).
    { destruct X as [->|[->| ->]]; apply R in Ek; try lia;
      destruct X' as [->|[->| ->]]; apply R' in Ek'; lia. }
    destruct Y as [-> ->]. unfold witness. eqz.
Qed.
Lemma grid_open : ~ closed_mesh pos (grid_tris sc st).
Proof.
  intros C. destruct (In_nth_error _ _ witness_in) as (a & Ea).
  destruct (C a witness _ _ Ea witness_edge) as (b & t & Nab & Eb & He).
  pose proof (witness_only t (nth_error_In _ _ Eb) He) as ->.
  apply Nab. pose proof (grid_tris_NoDup sc st ltac:(lia)) as ND. rewrite NoDup_nth_error in ND.
  symmetry. apply ND; [apply nth_error_Some; congruence|congruence].
Qed.
End Open.

Lemma cos_inj_0_PI x y : 0 <= x <= PI -> 0 <= y <= PI -> cos x = cos y -> x = y.
Proof.
  intros Hx Hy E. destruct (Rtotal_order x y) as [L|[L|L]]; [|exact L|].
  - pose proof (cos_decreasing_1 x y ltac:(lra) ltac:(lra) ltac:(lra) ltac:(lra) L). lra.
  - pose proof (cos_decreasing_1 y x ltac:(lra) ltac:(lra) ltac:(lra) ltac:(lra) L). lra.
Qed.
Lemma frac_range (i n : Z) : (0 <= i < n)%Z -> 0 <= IZR i * (PI / IZR n) < PI.
Proof.
  intros H. pose proof PI_RGT_0. assert (P : 0 < IZR n) by (apply IZR_lt; lia).
  assert (0 <= IZR i) by (apply IZR_le; lia). assert (IZR i < IZR n) by (apply IZR_lt; lia).
  split.
  - apply Rmult_le_pos; [lra|]. apply Rmult_le_pos; [lra|left; now apply Rinv_0_lt_compat].
  - apply Rmult_lt_reg_r with (IZR n); [exact P|]. replace (IZR i * (PI / IZR n) * IZR n) with (IZR i * PI) by (field; lra).
    rewrite (Rmult_comm PI). apply Rmult_lt_compat_r; lra.
Qed.
Lemma sph_row r sc st i i' j j' : r <> 0 -> (0 <= i < st)%Z -> (0 <= i' < st)%Z ->
  sph_pos r sc st i j = sph_pos r sc st i' j' -> i = i'.
Proof.
  intros Hr Hi Hi' E. assert (Ez := f_equal rz E). unfold sph_pos, gpos in Ez. cbn [rz] in Ez.
  apply Rmult_eq_reg_l in Ez; [|exact Hr]. unfold sph_angle in Ez. rewrite !sin_shift in Ez.
  pose proof (frac_range i st Hi). pose proof (frac_range i' st Hi').
  apply cos_inj_0_PI in Ez; try lra. pose proof PI_RGT_0. assert (0 < IZR st) by (apply IZR_lt; lia).
  apply Rmult_eq_reg_r in Ez; [now apply eq_IZR|].
  assert (0 < PI / IZR st); [|lra]. apply Rmult_lt_0_compat; [lra|now apply Rinv_0_lt_compat].
Qed.
Lemma sph_xy r st : r <> 0 -> (2 <= st)%Z -> r * cos (sph_angle st (st - 1)) <> 0.
Proof.
  intros Hr Hst. unfold sph_angle. rewrite cos_shift.
  pose proof (frac_range (st - 1) st ltac:(lia)) as F.
  assert (0 < IZR (st - 1) * (PI / IZR st)).
  { pose proof PI_RGT_0. assert (0 < IZR st) by (apply IZR_lt; lia). assert (0 < IZR (st - 1)) by (apply IZR_lt; lia).
    apply Rmult_lt_0_compat; [lra|]. apply Rmult_lt_0_compat; [lra|now apply Rinv_0_lt_compat]. }
  pose proof (sin_gt_0 _ H (proj2 F)). apply Rmult_integral_contrapositive_currified; lra.
Qed.
Lemma tor_row R0 r sc st i i' j j' : 0 < r < R0 -> (1 <= st)%Z -> (0 <= i < st)%Z -> (0 <= i' < st)%Z ->
  tor_pos R0 r sc st i j = tor_pos R0 r sc st i' j' -> i = i'.
Proof.
  intros Hr Hst Hi Hi' E. unfold tor_pos in E. assert (Ez := f_equal rz E).
  assert (Exy := f_equal (fun v => rx v * rx v + ry v * ry v) E). cbv beta in Exy. rewrite !gpos_xy2 in Exy.
  unfold gpos in Ez. cbn [rz] in Ez. apply Rmult_eq_reg_l in Ez; [|lra].
  assert (Pos : forall k, 0 < R0 + r * cos (tor_angle st k)).
  { intros k. pose proof (COS_bound (tor_angle st k)) as [B _].
    pose proof (Rmult_le_compat_l r _ _ ltac:(lra) B). lra. }
  assert (Ec : cos (tor_angle st i) = cos (tor_angle st i')).
  { apply Rmult_eq_reg_l with r; [|lra]. pose proof (Pos i) as P1. pose proof (Pos i') as P2.
    set (u := R0 + r * cos (tor_angle st i)) in *. set (v := R0 + r * cos (tor_angle st i')) in *.
    assert (u = v). { assert (D : (u - v) * (u + v) = 0) by (ring_simplify; lra).
      apply Rmult_integral in D. lra. }
    unfold u, v in *. lra. }
  unfold tor_angle in Ec, Ez. rewrite !cos_shift in Ec. rewrite !sin_shift in Ez.
  destruct (angle_eq i i' st ltac:(lia) ltac:(lia) Ez Ec); lia.
Qed.
Lemma tor_xy R0 r st i : 0 < r < R0 -> R0 + r * cos (tor_angle st i) <> 0.
Proof.
  intros Hr. pose proof (COS_bound (tor_angle st i)) as [B _].
  pose proof (Rmult_le_compat_l r _ _ ltac:(lra) B). lra.
Qed.

(** * The meshes *)
Lemma sphere_value (c : vec XR) r sc st : (1 <= sc)%Z -> (2 <= st)%Z -> (st * (sc + 1) <= 2 ^ 32)%Z ->
  exists m, sphereConstruct XT c (Fin r) sc st = Ok m /\
    Z.of_nat (length (mVertices m)) = (st * (sc + 1))%Z /\
    mIndices m = flat3 (grid_tris sc st) /\
    (forall i j, (0 <= i < st)%Z -> (0 <= j <= sc)%Z -> zget (mVertices m) (i * (sc + 1) + j)%Z = Ok (fv (sph_pos r sc st i j))) /\
    (r <> 0 -> forall i j, (0 <= i < st)%Z -> (0 <= j <= sc)%Z ->
       let p := rscale (/ r) (sph_pos r sc st i j) in
       zget (mNormals m) (i * (sc + 1) + j)%Z = Ok (Fin (rx p), Fin (ry p), Fin (rz p))).
Proof.
  intros Hsc Hst Hmax. unfold sphereConstruct. rewrite gridVertices_value by lia. cbn [rbind].
  rewrite gridIndices_value by lia. cbn [rbind]. eexists. split; [reflexivity|]. cbn [mVertices mNormals mIndices].
  split; [apply grid_length; lia|]. split; [reflexivity|]. split.
  - intros i j Hi Hj. rewrite grid_nth by lia. rewrite sphere_gv by lia. reflexivity.
  - intros Hr i j Hi Hj. rewrite grid_nth by lia. unfold gn. rewrite sphere_gv by lia.
    cbn [fdiv XR fofZ]. rewrite xdiv_fin by exact Hr.
    unfold fv, rscale. cbn [vx vy vz fmul XR xmul rx ry rz]. unfold Rdiv. rewrite Rmult_1_l.
    rewrite !(Rmult_comm (/ r)). reflexivity.
Qed.
Lemma torus_value (c : vec XR) R0 r sc st : (1 <= sc)%Z -> (2 <= st)%Z -> (st * (sc + 1) <= 2 ^ 32)%Z ->
  exists m, torusConstruct XT c (Fin R0) (Fin r) sc st = Ok m /\
    Z.of_nat (length (mVertices m)) = (st * (sc + 1))%Z /\
    mIndices m = flat3 (grid_tris sc st) /\
    (forall i j, (0 <= i < st)%Z -> (0 <= j <= sc)%Z -> zget (mVertices m) (i * (sc + 1) + j)%Z = Ok (fv (tor_pos R0 r sc st i j))) /\
    (R0 <> 0 -> forall i j, (0 <= i < st)%Z -> (0 <= j <= sc)%Z ->
       let p := rscale (/ R0) (tor_pos R0 r sc st i j) in
       zget (mNormals m) (i * (sc + 1) + j)%Z = Ok (Fin (rx p), Fin (ry p), Fin (rz p))).
Proof.
  intros Hsc Hst Hmax. unfold torusConstruct. rewrite gridVertices_value by lia. cbn [rbind].
  rewrite gridIndices_value by lia. cbn [rbind]. eexists. split; [reflexivity|]. cbn [mVertices mNormals mIndices].
  split; [apply grid_length; lia|]. split; [reflexivity|]. split.
  - intros i j Hi Hj. rewrite grid_nth by lia. rewrite torus_gv by lia. reflexivity.
  - intros Hr i j Hi Hj. rewrite grid_nth by lia. unfold gn. rewrite torus_gv by lia.
    cbn [fdiv XR fofZ]. rewrite xdiv_fin by exact Hr.
    unfold fv, rscale. cbn [vx vy vz fmul XR xmul rx ry rz]. unfold Rdiv. rewrite Rmult_1_l.
    rewrite !(Rmult_comm (/ R0)). reflexivity.
Qed.
(** every position in the vertex list is (row, column) *)
Lemma grid_index sc st k : (0 <= sc)%Z -> (0 <= k < st * (sc + 1))%Z ->
  exists i j, (0 <= i < st)%Z /\ (0 <= j <= sc)%Z /\ k = (i * (sc + 1) + j)%Z.
Proof.
  intros Hsc Hk. exists (k / (sc + 1))%Z, (k mod (sc + 1))%Z.
  pose proof (Z.mod_pos_bound k (sc + 1) ltac:(lia)). pose proof (Z.div_mod k (sc + 1) ltac:(lia)).
  split; [split; [apply Z.div_pos; lia|apply Z.div_lt_upper_bound; lia]|]. split; [lia|]. lia.
Qed.
Lemma grid_in {T} (l : list T) sc st (f : Z -> Z -> T) x : (0 <= sc)%Z -> Z.of_nat (length l) = (st * (sc + 1))%Z ->
  (forall i j, (0 <= i < st)%Z -> (0 <= j <= sc)%Z -> zget l (i * (sc + 1) + j)%Z = Ok (f i j)) ->
  In x l -> exists i j, (0 <= i < st)%Z /\ (0 <= j <= sc)%Z /\ x = f i j.
Proof.
  intros Hsc L G H. destruct (In_nth_error _ _ H) as (n & E).
  assert (n < length l)%nat by (apply nth_error_Some; congruence).
  destruct (grid_index sc st (Z.of_nat n) Hsc ltac:(lia)) as (i & j & Hi & Hj & K). exists i, j.
  split; [exact Hi|]. split; [exact Hj|]. specialize (G i j Hi Hj). rewrite <- K in G.
  rewrite zget_nat, E in G. congruence.
Qed.
Lemma XR_fv_inj a b : Ok (fv a) = Ok (fv b) -> a = b.
Proof. intros H. apply fv_inj. congruence. Qed.
(** real positions read off a vertex list *)
Definition posn (V : list (vec XR)) (k : Z) : rv :=
  match zget V k with
  | Ok v => match vx v, vy v, vz v with Fin a, Fin b, Fin c => RV a b c | _, _, _ => rzero end
  | _ => rzero end.
Lemma posn_fv V k p : zget V k = Ok (fv p) -> posn V k = p.
Proof. intros H. unfold posn. rewrite H. cbn. destruct p; reflexivity. Qed.
