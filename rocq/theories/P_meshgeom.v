(** Geometry of package mesh: tetrahedron test, bounding box, initial tetrahedron (C36-C41). *)
From Coq Require Import Reals Lra Lia ZArith QArith Qreals Bool List Permutation.
From Flocq Require Import Core BinarySingleNaN.
From Verif Require Import Base Arith M_r3 M_predicates GoMap M_meshing Spec_r3 Spec_sphere Spec_mesh XRvec P_r3 P_predicates.
Import ListNotations.
Open Scope R_scope.

(** ** the tetrahedron test *)
Definition triple (a b c d : rv) : R := rdet3 (rsub b a) (rsub c a) (rsub d a).
Lemma sameSide_fv v1 v2 v3 v4 p :
  sameSide (fv v1) (fv v2) (fv v3) (fv v4) (fv p) = true <-> 0 <= triple v1 v2 v3 v4 * triple v1 v2 v3 p.
Proof.
  unfold sameSide. set (D := triple v1 v2 v3 v4). set (P := triple v1 v2 v3 p).
  assert (E1 : Dot (Cross (Sub (fv v2) (fv v1)) (Sub (fv v3) (fv v1))) (Sub (fv v4) (fv v1)) = Fin D).
  { unfold D, triple, rdet3, rsub, Dot, Cross, Sub; simpl. f_equal. ring. }
  assert (E2 : Dot (Cross (Sub (fv v2) (fv v1)) (Sub (fv v3) (fv v1))) (Sub (fv p) (fv v1)) = Fin P).
  { unfold P, triple, rdet3, rsub, Dot, Cross, Sub; simpl. f_equal. ring. }
  rewrite E1, E2. xr_cbn. clearbody D P.
  destruct (Rleb_spec D 0); destruct (Rleb_spec P 0); destruct (Rleb_spec 0 D); destruct (Rleb_spec 0 P); simpl;
  split; intros; try reflexivity; try discriminate; try lra;
  try (assert (D = 0) by lra; subst D; nra); try nra.
Qed.

Lemma combine_triple v1 v2 v3 v4 l1 l2 l3 l4 : l1 + l2 + l3 + l4 = 1 ->
  let p := combine4 l1 l2 l3 l4 v1 v2 v3 v4 in
  triple v1 v2 v3 p = l4 * triple v1 v2 v3 v4 /\ triple v2 v3 v4 p = l1 * triple v2 v3 v4 v1 /\
  triple v3 v4 v1 p = l2 * triple v3 v4 v1 v2 /\ triple v4 v1 v2 p = l3 * triple v4 v1 v2 v3.
Proof.
  intros H p. subst p. assert (l1 = 1 - l2 - l3 - l4) as -> by lra.
  unfold triple, combine4, rdet3, rsub, radd, rscale. simpl. repeat split; ring.
Qed.
Lemma triple_rot a b c d : triple b c d a = - triple a b c d.
Proof. unfold triple, rdet3, rsub; simpl; ring. Qed.

Lemma in_tetra_test v1 v2 v3 v4 p : in_tetra v1 v2 v3 v4 p ->
  vectorInTetrahedron (fv v1) (fv v2) (fv v3) (fv v4) (fv p) = true.
Proof.
  intros (l1 & l2 & l3 & l4 & H1 & H2 & H3 & H4 & Hs & ->).
  destruct (combine_triple v1 v2 v3 v4 l1 l2 l3 l4 Hs) as (E1 & E2 & E3 & E4).
  unfold vectorInTetrahedron. rewrite !andb_true_iff, !sameSide_fv.
  rewrite E1, E2, E3, E4.
  assert (G : forall x l, 0 <= l -> 0 <= x * (l * x)).
  { intros x l Hl. replace (x * (l * x)) with (l * (x * x)) by ring.
    apply Rmult_le_pos; [exact Hl|]. apply Rle_0_sqr. }
  auto.
Qed.
Lemma test_in_tetra v1 v2 v3 v4 p : signed_volume v1 v2 v3 v4 <> 0 ->
  vectorInTetrahedron (fv v1) (fv v2) (fv v3) (fv v4) (fv p) = true -> in_tetra v1 v2 v3 v4 p.
Proof.
  intros HV. assert (HD : triple v1 v2 v3 v4 <> 0).
  { replace (triple v1 v2 v3 v4) with (- signed_volume v1 v2 v3 v4); [lra|].
    unfold triple, signed_volume, rdet3, rsub; simpl; ring. }
  unfold vectorInTetrahedron. rewrite !andb_true_iff, !sameSide_fv.
  intros (((H4 & H1) & H2) & H3).
  set (D := triple v1 v2 v3 v4) in *.
  assert (R1 : triple v2 v3 v4 v1 = - D) by apply triple_rot.
  assert (R2 : triple v3 v4 v1 v2 = D) by (rewrite triple_rot, R1; ring).
  assert (R3 : triple v4 v1 v2 v3 = - D) by (rewrite triple_rot, R2; ring).
  rewrite R1 in H1. rewrite R2 in H2. rewrite R3 in H3.
  exists (triple v2 v3 v4 p / - D), (triple v3 v4 v1 p / D), (triple v4 v1 v2 p / - D), (triple v1 v2 v3 p / D).
  assert (Q : forall x y, y <> 0 -> 0 <= y * x -> 0 <= x / y).
  { intros x y Hy Hxy. replace (x / y) with (y * x * / (y * y)) by (field; auto).
    apply Rmult_le_pos; [exact Hxy|]. left. apply Rinv_0_lt_compat.
    destruct (Rlt_or_le 0 y); [apply Rmult_lt_0_compat; auto|]. 
    replace (y * y) with (- y * - y) by ring. apply Rmult_lt_0_compat; lra. }
  assert (HD' : - D <> 0) by lra.
  split; [apply Q; auto|]. split; [apply Q; auto|]. split; [apply Q; auto|]. split; [apply Q; auto|].
  unfold D in *. clear D Q H1 H2 H3 H4 R1 R2 R3.
  revert HD HD'. unfold triple, combine4, rdet3, rsub, radd, rscale. simpl.
  intros HD HD'. split; [field; auto|]. apply rv_ext; simpl; field; auto.
Qed.
Lemma tetra_test_iff v1 v2 v3 v4 p : signed_volume v1 v2 v3 v4 <> 0 ->
  (vectorInTetrahedron (fv v1) (fv v2) (fv v3) (fv v4) (fv p) = true <-> in_tetra v1 v2 v3 v4 p).
Proof. intros H. split; [apply test_in_tetra; auto|apply in_tetra_test]. Qed.
(** a flat tetrahedron with pairwise distinct vertices accepts a point outside its hull *)
Lemma tetra_test_flat :
  let v1 := RV 0 0 0 in let v2 := RV 1 0 0 in let v3 := RV 0 1 0 in let v4 := RV 1 1 0 in let p := RV 5 7 0 in
  vectorInTetrahedron (fv v1) (fv v2) (fv v3) (fv v4) (fv p) = true /\ ~ in_tetra v1 v2 v3 v4 p.
Proof.
  intros v1 v2 v3 v4 p. split.
  - unfold vectorInTetrahedron. rewrite !andb_true_iff, !sameSide_fv.
    unfold triple, rdet3, rsub; simpl. repeat split; lra.
  - intros (l1 & l2 & l3 & l4 & H1 & H2 & H3 & H4 & Hs & E).
    apply (f_equal rx) in E. unfold combine4, radd, rscale in E; simpl in E. lra.
Qed.
(** every flat tetrahedron accepts all points of its plane *)
Lemma tetra_test_flat_all v1 v2 v3 v4 p : signed_volume v1 v2 v3 v4 = 0 ->
  vectorInTetrahedron (fv v1) (fv v2) (fv v3) (fv v4) (fv p) = true.
Proof.
  intros HV.
  assert (HD : triple v1 v2 v3 v4 = 0).
  { replace (triple v1 v2 v3 v4) with (- signed_volume v1 v2 v3 v4); [lra|].
    unfold triple, signed_volume, rdet3, rsub; simpl; ring. }
  assert (R1 : triple v2 v3 v4 v1 = 0) by (rewrite triple_rot, HD; ring).
  assert (R2 : triple v3 v4 v1 v2 = 0) by (rewrite triple_rot, R1; ring).
  assert (R3 : triple v4 v1 v2 v3 = 0) by (rewrite triple_rot, R2; ring).
  unfold vectorInTetrahedron. rewrite !andb_true_iff, !sameSide_fv, HD, R1, R2, R3.
  repeat split; lra.
Qed.
Lemma centroid_fv v1 v2 v3 v4 :
  findCentroid (fv v1) (fv v2) (fv v3) (fv v4) = fv (combine4 (1/4) (1/4) (1/4) (1/4) v1 v2 v3 v4).
Proof.
  unfold findCentroid, combine4, fv, radd, rscale; simpl.
  destruct (Reqb_spec 4 0); [lra|]. f_equal; f_equal; field.
Qed.
Lemma centroid_inside v1 v2 v3 v4 :
  findCentroid (fv v1) (fv v2) (fv v3) (fv v4) = fv (combine4 (1/4) (1/4) (1/4) (1/4) v1 v2 v3 v4) /\
  vectorInTetrahedron (fv v1) (fv v2) (fv v3) (fv v4) (findCentroid (fv v1) (fv v2) (fv v3) (fv v4)) = true.
Proof.
  split; [apply centroid_fv|]. rewrite centroid_fv. apply in_tetra_test.
  exists (1/4), (1/4), (1/4), (1/4). repeat split; lra.
Qed.

(** ** C36: orientation after connect *)
Definition oriented (points : list rv) (t : tetra) : Prop :=
  exists a b c d, nth_error points (Z.to_nat (ia t)) = Some a /\ nth_error points (Z.to_nat (ib t)) = Some b /\
    nth_error points (Z.to_nat (ic t)) = Some c /\ nth_error points (Z.to_nat (id t)) = Some d /\
    signed_volume a b c d < 0.
Lemma sv_triple a b c d : signed_volume a b c d = - triple a b c d.
Proof. unfold signed_volume, triple, rdet3, rsub; simpl; ring. Qed.
(* the four tetrahedra that replace (a,b,c,d) when p is inserted inside it *)
Lemma connect_orientation a b c d p :
  signed_volume a b c d < 0 -> strictly_in_tetra a b c d p ->
  signed_volume a b c p < 0 /\ signed_volume b c d p > 0 /\
  signed_volume c d a p < 0 /\ signed_volume d a b p > 0.
Proof.
  intros HV (l1 & l2 & l3 & l4 & H1 & H2 & H3 & H4 & Hs & ->).
  destruct (combine_triple a b c d l1 l2 l3 l4 Hs) as (E1 & E2 & E3 & E4).
  rewrite !sv_triple in *. rewrite E1, E2, E3, E4.
  set (D := triple a b c d) in *.
  assert (R1 : triple b c d a = - D) by apply triple_rot.
  assert (R2 : triple c d a b = D) by (rewrite triple_rot, R1; ring).
  assert (R3 : triple d a b c = - D) by (rewrite triple_rot, R2; ring).
  rewrite R1, R2, R3. clearbody D.
  assert (0 < D) by lra.
  assert (0 < l1 * D) by (apply Rmult_lt_0_compat; lra).
  assert (0 < l2 * D) by (apply Rmult_lt_0_compat; lra).
  assert (0 < l3 * D) by (apply Rmult_lt_0_compat; lra).
  assert (0 < l4 * D) by (apply Rmult_lt_0_compat; lra).
  repeat split; lra.
Qed.

(** ** C37: bounding box *)
Section Extrema.
Context {A : Arith}.
Variable val : A -> R.
Variable fin : A -> Prop.
Hypothesis flt_val : forall a b, fin a -> fin b -> flt A a b = Rltb (val a) (val b).
Hypothesis fin_max : fin MaxFloat64.
Hypothesis fin_min : fin negMaxFloat64.
Hypothesis val_max : val MaxFloat64 = maxfloat.
Hypothesis val_min : val negMaxFloat64 = - maxfloat.

Lemma fold_min (l : list A) m : (forall x, In x l -> fin x) -> fin m ->
  let r := fold_left updMin l m in
  fin r /\ (val r = val m \/ exists x, In x l /\ val r = val x) /\
  val r <= val m /\ forall x, In x l -> val r <= val x.
Proof.
  revert m. induction l as [|x l IH]; intros m Hl Hm; simpl.
  - repeat split; auto; try lra. intros ? [].
  - assert (Hx : fin x) by (apply Hl; left; auto).
    assert (Hu : fin (updMin m x)) by (unfold updMin; destruct (flt A x m); auto).
    destruct (IH (updMin m x)) as (H1 & H2 & H3 & H4); [intros; apply Hl; right; auto|auto|].
    assert (E : val (updMin m x) <= val m /\ val (updMin m x) <= val x /\
                (val (updMin m x) = val m \/ val (updMin m x) = val x)).
    { unfold updMin. rewrite flt_val by auto. destruct (Rltb_spec (val x) (val m)); lra. }
    destruct E as (E1 & E2 & E3). split; [auto|]. split.
    + destruct H2 as [->|(y & Hy & ->)]; [destruct E3 as [->| ->]; [auto|right; exists x; auto]|].
      right. exists y. auto.
    + split; [lra|]. intros y [<-|Hy]; [lra|auto].
Qed.
Lemma fold_max (l : list A) m : (forall x, In x l -> fin x) -> fin m ->
  let r := fold_left updMax l m in
  fin r /\ (val r = val m \/ exists x, In x l /\ val r = val x) /\
  val m <= val r /\ forall x, In x l -> val x <= val r.
Proof.
  revert m. induction l as [|x l IH]; intros m Hl Hm; simpl.
  - repeat split; auto; try lra. intros ? [].
  - assert (Hx : fin x) by (apply Hl; left; auto).
    assert (Hu : fin (updMax m x)) by (unfold updMax; destruct (flt A m x); auto).
    destruct (IH (updMax m x)) as (H1 & H2 & H3 & H4); [intros; apply Hl; right; auto|auto|].
    assert (E : val m <= val (updMax m x) /\ val x <= val (updMax m x) /\
                (val (updMax m x) = val m \/ val (updMax m x) = val x)).
    { unfold updMax. rewrite flt_val by auto. destruct (Rltb_spec (val m) (val x)); lra. }
    destruct E as (E1 & E2 & E3). split; [auto|]. split.
    + destruct H2 as [->|(y & Hy & ->)]; [destruct E3 as [->| ->]; [auto|right; exists x; auto]|].
      right. exists y. auto.
    + split; [lra|]. intros y [<-|Hy]; [lra|auto].
Qed.
Lemma findExtremas_folds (points : list (vec A)) h :
  let r := fold_left extremaStep points h in
  r = mkhelper (mkvec (fold_left updMin (map vx points) (vx (hmin h)))
                      (fold_left updMin (map vy points) (vy (hmin h)))
                      (fold_left updMin (map vz points) (vz (hmin h))))
               (mkvec (fold_left updMax (map vx points) (vx (hmax h)))
                      (fold_left updMax (map vy points) (vy (hmax h)))
                      (fold_left updMax (map vz points) (vz (hmax h)))).
Proof.
  revert h. induction points as [|p l IH]; intros h; simpl.
  - destruct h as [[? ? ?] [? ? ?]]. reflexivity.
  - rewrite IH. reflexivity.
Qed.
Lemma least_of (c : vec A -> A) (points : list (vec A)) : points <> [] ->
  (forall p, In p points -> fin (c p) /\ Rabs (val (c p)) <= maxfloat) ->
  is_least (fun p => val (c p)) points (val (fold_left updMin (map c points) MaxFloat64)) /\
  is_greatest (fun p => val (c p)) points (val (fold_left updMax (map c points) negMaxFloat64)).
Proof.
  intros Hne H.
  assert (Hf : forall x, In x (map c points) -> fin x).
  { intros x Hx. apply in_map_iff in Hx. destruct Hx as (p & <- & Hp). apply H; auto. }
  destruct points as [|p0 points']; [congruence|]. set (l := p0 :: points') in *.
  destruct (H p0 (or_introl eq_refl)) as [_ Hb0].
  assert (Hin0 : In (c p0) (map c l)) by (apply in_map; left; auto).
  destruct (fold_min (map c l) MaxFloat64 Hf fin_max) as (_ & H2 & H3 & H4).
  destruct (fold_max (map c l) negMaxFloat64 Hf fin_min) as (_ & G2 & G3 & G4).
  cbv zeta in *. apply Rabs_le_inv in Hb0.
  split; split.
  - destruct H2 as [E|(x & Hx & E)].
    + exists p0. split; [left; auto|]. specialize (H4 _ Hin0). rewrite E, val_max in *. lra.
    + apply in_map_iff in Hx. destruct Hx as (p & <- & Hp). exists p. auto.
  - intros p Hp. apply H4. apply in_map; auto.
  - destruct G2 as [E|(x & Hx & E)].
    + exists p0. split; [left; auto|]. specialize (G4 _ Hin0). rewrite E, val_min in *. lra.
    + apply in_map_iff in Hx. destruct Hx as (p & <- & Hp). exists p. auto.
  - intros p Hp. apply G4. apply in_map; auto.
Qed.
Lemma extremas_spec (points : list (vec A)) : points <> [] ->
  (forall p, In p points -> (fin (vx p) /\ Rabs (val (vx p)) <= maxfloat) /\
     (fin (vy p) /\ Rabs (val (vy p)) <= maxfloat) /\ (fin (vz p) /\ Rabs (val (vz p)) <= maxfloat)) ->
  let h := findExtremas points in
  (is_least (fun p => val (vx p)) points (val (vx (hmin h))) /\
   is_greatest (fun p => val (vx p)) points (val (vx (hmax h)))) /\
  (is_least (fun p => val (vy p)) points (val (vy (hmin h))) /\
   is_greatest (fun p => val (vy p)) points (val (vy (hmax h)))) /\
  (is_least (fun p => val (vz p)) points (val (vz (hmin h))) /\
   is_greatest (fun p => val (vz p)) points (val (vz (hmax h)))).
Proof.
  intros Hne H. unfold findExtremas. cbv zeta. rewrite findExtremas_folds. cbn [hmin hmax vx vy vz].
  split; [|split]; apply least_of; auto; intros p Hp; apply (H p Hp).
Qed.
End Extrema.

Lemma Q2R_maxfloat : Q2R MaxFloat64Q = maxfloat.
Proof.
  unfold MaxFloat64Q, maxfloat, Q2R, inject_Z. cbn [Qnum Qden].
  rewrite Rinv_1, Rmult_1_r, minus_IZR.
  rewrite <- !(fun n => pow_IZR 2 n) || idtac.
  rewrite (pow_IZR 2 1024), (pow_IZR 2 971). reflexivity.
Qed.
Lemma Q2R_negmaxfloat : Q2R (- MaxFloat64Q) = - maxfloat.
Proof. rewrite Q2R_opp, Q2R_maxfloat. reflexivity. Qed.
Definition xval (x : xr) : R := match x with Fin r => r | _ => 0 end.
Definition xfin (x : xr) : Prop := exists r, x = Fin r.
Definition in_range (p : rv) : Prop :=
  Rabs (rx p) <= maxfloat /\ Rabs (ry p) <= maxfloat /\ Rabs (rz p) <= maxfloat.
Lemma is_least_map (f : rv -> R) (g : vec XR -> R) l m : (forall p, g (fv p) = f p) ->
  is_least g (map fv l) m -> is_least f l m.
Proof.
  intros E [(p & Hp & Ep) H]. apply in_map_iff in Hp. destruct Hp as (q & <- & Hq).
  split; [exists q; rewrite <- E; auto|]. intros p Hp. rewrite <- E. apply H. apply in_map; auto.
Qed.
Lemma is_greatest_map (f : rv -> R) (g : vec XR -> R) l m : (forall p, g (fv p) = f p) ->
  is_greatest g (map fv l) m -> is_greatest f l m.
Proof.
  intros E [(p & Hp & Ep) H]. apply in_map_iff in Hp. destruct Hp as (q & <- & Hq).
  split; [exists q; rewrite <- E; auto|]. intros p Hp. rewrite <- E. apply H. apply in_map; auto.
Qed.
Lemma flt_xval (a b : XR) : xfin a -> xfin b -> flt XR a b = Rltb (xval a) (xval b).
Proof. intros (x & ->) (y & ->). reflexivity. Qed.
Lemma fold_upd_fin (l : list XR) (m : XR) : Forall xfin l -> xfin m ->
  xfin (fold_left updMin l m) /\ xfin (fold_left updMax l m).
Proof.
  revert m. assert (G : forall m x, xfin m -> xfin x -> xfin (updMin (A:=XR) m x) /\ xfin (updMax (A:=XR) m x)).
  { intros m x Hm Hx. unfold updMin, updMax. destruct (flt XR x m); destruct (flt XR m x); auto. }
  assert (G1 : forall l m, Forall xfin l -> xfin m -> xfin (fold_left (updMin (A:=XR)) l m)).
  { induction l0; intros m Hl Hm; simpl; auto. inversion Hl; subst. apply IHl0; auto. apply G; auto. }
  assert (G2 : forall l m, Forall xfin l -> xfin m -> xfin (fold_left (updMax (A:=XR)) l m)).
  { induction l0; intros m Hl Hm; simpl; auto. inversion Hl; subst. apply IHl0; auto. apply G; auto. }
  auto.
Qed.
Lemma extremas_XR (points : list rv) : points <> [] -> (forall p, In p points -> in_range p) ->
  exists lo hi, findExtremas (map fv points) = mkhelper (fv lo) (fv hi) /\
    is_least rx points (rx lo) /\ is_greatest rx points (rx hi) /\
    is_least ry points (ry lo) /\ is_greatest ry points (ry hi) /\
    is_least rz points (rz lo) /\ is_greatest rz points (rz hi).
Proof.
  intros Hne Hr.
  assert (E : exists lo hi, findExtremas (map fv points) = mkhelper (fv lo) (fv hi)).
  { unfold findExtremas. rewrite findExtremas_folds. cbn [hmin hmax vx vy vz].
    assert (G : forall c : vec XR -> XR, (forall p, xfin (c (fv p))) -> Forall xfin (map c (map fv points))).
    { intros c Hc. rewrite Forall_forall. intros x Hx. apply in_map_iff in Hx. destruct Hx as (v & <- & Hv).
      apply in_map_iff in Hv. destruct Hv as (p & <- & _). apply Hc. }
    assert (M : xfin (@MaxFloat64 XR)) by (eexists; reflexivity).
    assert (N : xfin (@negMaxFloat64 XR)) by (eexists; reflexivity).
    destruct (fold_upd_fin (map vx (map fv points)) _ (G vx ltac:(intros; eexists; reflexivity)) M) as [(a1 & ->) _].
    destruct (fold_upd_fin (map vy (map fv points)) _ (G vy ltac:(intros; eexists; reflexivity)) M) as [(a2 & ->) _].
    destruct (fold_upd_fin (map vz (map fv points)) _ (G vz ltac:(intros; eexists; reflexivity)) M) as [(a3 & ->) _].
    destruct (fold_upd_fin (map vx (map fv points)) _ (G vx ltac:(intros; eexists; reflexivity)) N) as [_ (b1 & ->)].
    destruct (fold_upd_fin (map vy (map fv points)) _ (G vy ltac:(intros; eexists; reflexivity)) N) as [_ (b2 & ->)].
    destruct (fold_upd_fin (map vz (map fv points)) _ (G vz ltac:(intros; eexists; reflexivity)) N) as [_ (b3 & ->)].
    exists (RV a1 a2 a3), (RV b1 b2 b3). reflexivity. }
  destruct E as (lo & hi & E). exists lo, hi. split; [exact E|].
  pose proof (extremas_spec (A:=XR) xval xfin flt_xval (ex_intro _ _ eq_refl) (ex_intro _ _ eq_refl)
    Q2R_maxfloat Q2R_negmaxfloat (map fv points)) as S.
  cbv zeta in S. rewrite E in S. cbn [hmin hmax vx vy vz fv xval] in S.
  destruct S as ((S1 & S2) & (S3 & S4) & (S5 & S6)).
  { destruct points; [congruence|discriminate]. }
  { intros v Hv. apply in_map_iff in Hv. destruct Hv as (p & <- & Hp).
    destruct (Hr p Hp) as (B1 & B2 & B3). simpl.
    repeat split; try (eexists; reflexivity); assumption. }
  split; [eapply is_least_map; [|exact S1]; reflexivity|].
  split; [eapply is_greatest_map; [|exact S2]; reflexivity|].
  split; [eapply is_least_map; [|exact S3]; reflexivity|].
  split; [eapply is_greatest_map; [|exact S4]; reflexivity|].
  split; [eapply is_least_map; [|exact S5]; reflexivity|eapply is_greatest_map; [|exact S6]; reflexivity].
Qed.

(** binary64 *)
Lemma B2R_maxfloat : @B2R 53 1024 (@MaxFloat64 B64) = maxfloat.
Proof.
  transitivity (SF2R radix2 (B2SF (@MaxFloat64 B64 : b64))); [symmetry; apply SF2R_B2SF|].
  replace (B2SF (@MaxFloat64 B64 : b64)) with (SpecFloat.S754_finite false (2 ^ 53 - 1) 971)
    by (vm_compute; reflexivity).
  unfold maxfloat. cbn -[pow bpow IZR Pos.pow Pos.sub].
  unfold F2R. cbn [Fnum Fexp].
  replace (bpow radix2 971) with (2 ^ 971) by (rewrite bpow_powerRZ; reflexivity).
  replace (IZR _) with (2 ^ 53 - 1).
  - change 1024%nat with (53 + 971)%nat. rewrite pow_add. generalize (2 ^ 53) (2 ^ 971). intros; ring.
  - rewrite (pow_IZR 2 53), <- minus_IZR. f_equal.
Qed.
Lemma B2R_negmaxfloat : @B2R 53 1024 (@negMaxFloat64 B64) = - maxfloat.
Proof.
  rewrite <- B2R_maxfloat. rewrite <- B2R_Bopp. f_equal.
Qed.
Definition bR (x : B64) : R := @B2R 53 1024 x.
Definition bfin (x : B64) : Prop := @is_finite 53 1024 x = true.
Lemma bR_ofZ n : (Z.abs n < 2 ^ 53)%Z -> bR (b64_of_Z n : B64) = IZR n.
Proof.
  intros Hn. unfold bR, b64_of_Z.
  pose proof (binary_normalize_correct 53 1024 b64_prec b64_pe mode_NE n 0 false) as C. cbv zeta in C.
  assert (E : F2R (Float radix2 n 0) = IZR n) by (unfold F2R; simpl; ring).
  match type of C with context [round ?a ?b ?c ?d] => assert (R : round a b c d = IZR n) end.
  { rewrite E. apply round_generic; [apply valid_rnd_round_mode|].
    apply generic_format_FLT. apply (FLT_spec _ _ _ _ (Float radix2 n 0)); simpl;
      [symmetry; exact E|exact Hn|vm_compute; discriminate]. }
  rewrite R in C. rewrite Rlt_bool_true in C; [apply C|].
  rewrite <- abs_IZR. apply Rlt_le_trans with (IZR (2 ^ 53)); [apply IZR_lt; exact Hn|].
  rewrite <- (IZR_Zpower radix2 1024) by lia. apply IZR_le. vm_compute. discriminate.
Qed.
Lemma extremas_B64 (points : list (vec B64)) : points <> [] ->
  (forall p, In p points -> bfin (vx p) /\ bfin (vy p) /\ bfin (vz p)) ->
  let h := findExtremas points in
  (is_least (fun p => bR (vx p)) points (bR (vx (hmin h))) /\
   is_greatest (fun p => bR (vx p)) points (bR (vx (hmax h)))) /\
  (is_least (fun p => bR (vy p)) points (bR (vy (hmin h))) /\
   is_greatest (fun p => bR (vy p)) points (bR (vy (hmax h)))) /\
  (is_least (fun p => bR (vz p)) points (bR (vz (hmin h))) /\
   is_greatest (fun p => bR (vz p)) points (bR (vz (hmax h)))).
Proof.
  intros Hne H.
  assert (Bd : forall x : b64, Rabs (B2R x) <= maxfloat).
  { intros x. eapply Rle_trans; [apply (abs_B2R_le_emax_minus_prec 53 1024); reflexivity|].
    unfold maxfloat. replace (1024 - 53)%Z with 971%Z by reflexivity.
    rewrite !bpow_powerRZ. change (IZR radix2) with 2. cbn [powerRZ].
    change (Pos.to_nat 1024) with 1024%nat. change (Pos.to_nat 971) with 971%nat. lra. }
  apply (extremas_spec (A:=B64) bR bfin); auto.
  - intros a b Ha Hb. unfold bR. cbn [flt B64]. rewrite Bltb_correct by auto.
    destruct (Rlt_bool_spec (B2R a) (B2R b)); symmetry; [apply Rltb_true|apply Rltb_false]; auto.
  - vm_compute. reflexivity.
  - vm_compute. reflexivity.
  - apply B2R_maxfloat.
  - apply B2R_negmaxfloat.
  - intros p Hp. destruct (H p Hp) as (H1 & H2 & H3). auto.
Qed.

(** ** C38: the initial tetrahedron *)
Lemma fv_map_app a l : map fv (a ++ l) = map fv a ++ map fv l.
Proof. apply map_app. Qed.
Lemma englobe_spec (points : list rv) : points <> [] -> (forall p, In p points -> in_range p) ->
  exists t p1 p2 p3 p4, englobe (map fv points) = (t, map fv (p1 :: p2 :: p3 :: p4 :: points)) /\
    (ia t, ib t, ic t, id t) = (0, 1, 2, 3)%Z /\
    forall p, In p points -> in_tetra p1 p2 p3 p4 p.
Proof.
  intros Hne Hr. destruct (extremas_XR points Hne Hr) as (lo & hi & E & Lx & Gx & Ly & Gy & Lz & Gz).
  set (w := rsub hi lo).
  exists (mktetra 0 1 2 3 [mkface 0 1 2; mkface 1 2 3; mkface 2 3 0; mkface 3 0 1]),
    lo, (RV (rx lo + 3 * rx w) (ry lo) (rz lo)), (RV (rx lo) (ry lo + 3 * ry w) (rz lo)),
    (RV (rx lo) (ry lo) (rz lo + 3 * rz w)).
  split; [|split; [reflexivity|]].
  - unfold englobe. rewrite E. reflexivity.
  - intros p Hp. destruct Lx as [_ Lx], Gx as [_ Gx], Ly as [_ Ly], Gy as [_ Gy], Lz as [_ Lz], Gz as [_ Gz].
    specialize (Lx p Hp). specialize (Gx p Hp). specialize (Ly p Hp). specialize (Gy p Hp). specialize (Lz p Hp). specialize (Gz p Hp).
    assert (G : forall l x h, l <= x -> x <= h -> exists k, 0 <= k <= 1/3 /\ x = l + k * (3 * (h - l))).
    { intros l x h H1 H2. destruct (Req_dec l h) as [->|Hn].
      - exists 0. split; [lra|]. assert (x = h) by lra. subst. ring.
      - exists ((x - l) / (3 * (h - l))). assert (0 < h - l) by lra. split.
        + split.
          * apply Rmult_le_pos; [lra|]. left. apply Rinv_0_lt_compat. lra.
          * apply Rmult_le_reg_r with (3 * (h - l)); [lra|]. field_simplify; lra.
        + field. lra. }
    destruct (G _ _ _ Lx Gx) as (k1 & K1 & E1). destruct (G _ _ _ Ly Gy) as (k2 & K2 & E2).
    destruct (G _ _ _ Lz Gz) as (k3 & K3 & E3).
    exists (1 - k1 - k2 - k3), k1, k2, k3. repeat split; try lra.
    apply rv_ext; unfold combine4, radd, rscale, w, rsub; cbn [rx ry rz]; [rewrite E1|rewrite E2|rewrite E3]; ring.
Qed.

(** ** C39: nearest point *)
Lemma nearest_loop (q : rv) (l : list rv) : forall m best,
  exists r, getNearestPoint_loop (fv q) (Fin m) best (map fv l) = r /\
   ((r = best /\ forall v, In v l -> m < rdist v q) \/
    (exists l1 v l2, l = l1 ++ v :: l2 /\ r = fv v /\ rdist v q <= m /\
       (forall u, In u l1 -> rdist v q <= rdist u q) /\ (forall u, In u l2 -> rdist v q < rdist u q))).
Proof.
  induction l as [|v l IH]; intros m best; simpl map; cbn [getNearestPoint_loop].
  - eexists. split; [reflexivity|]. left. split; [reflexivity|]. intros ? [].
  - rewrite Distance_fv. xr_cbn. destruct (Rleb_spec (rdist v q) m) as [H|H].
    + destruct (IH (rdist v q) (fv v)) as (r & E & Hr). exists r. split; [exact E|]. right.
      destruct Hr as [(-> & Hl)|(l1 & w & l2 & -> & -> & Hw & H1 & H2)].
      * exists [], v, l. repeat split; auto. intros ? [].
      * exists (v :: l1), w, l2. repeat split; auto; [lra|]. intros u [<-|Hu]; auto.
    + destruct (IH m best) as (r & E & Hr). exists r. split; [exact E|].
      destruct Hr as [(-> & Hl)|(l1 & w & l2 & -> & -> & Hw & H1 & H2)].
      * left. split; [reflexivity|]. intros u [<-|Hu]; auto.
      * right. exists (v :: l1), w, l2. repeat split; auto. intros u [<-|Hu]; [lra|auto].
Qed.
Lemma nearest_spec (q : rv) (l : list rv) : l <> [] -> (forall v, In v l -> rdist v q <= maxfloat) ->
  exists l1 v l2, l = l1 ++ v :: l2 /\ getNearestPoint (map fv l) (fv q) = fv v /\
    (forall u, In u l1 -> rdist v q <= rdist u q) /\ (forall u, In u l2 -> rdist v q < rdist u q).
Proof.
  intros Hne Hb. unfold getNearestPoint, MaxFloat64. cbn [fofQ XR]. rewrite Q2R_maxfloat.
  destruct (nearest_loop q l maxfloat Zero) as (r & E & Hr). 
  destruct Hr as [(-> & Hl)|(l1 & w & l2 & -> & -> & Hw & H1 & H2)].
  - destruct l as [|v l]; [congruence|]. specialize (Hl v (or_introl eq_refl)). specialize (Hb v (or_introl eq_refl)). lra.
  - exists l1, w, l2. auto.
Qed.
Lemma nearest_far (q : rv) (l : list rv) : (forall v, In v l -> maxfloat < rdist v q) ->
  getNearestPoint (map fv l) (fv q) = Zero.
Proof.
  intros Hb. unfold getNearestPoint, MaxFloat64. cbn [fofQ XR]. rewrite Q2R_maxfloat.
  destruct (nearest_loop q l maxfloat Zero) as (r & E & Hr). 
  destruct Hr as [(-> & Hl)|(l1 & w & l2 & -> & -> & Hw & H1 & H2)]; [exact E|].
  specialize (Hb w). rewrite in_app_iff in Hb. specialize (Hb (or_intror (or_introl eq_refl))). lra.
Qed.
