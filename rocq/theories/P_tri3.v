(** Proofs about package triangulate3 (C44-C47). *)
From Coq Require Import Reals Lra Lia ZArith QArith Qreals Bool List Permutation.
From Flocq Require Import Core BinarySingleNaN.
From Verif Require Import Base Arith M_r3 M_meshing M_tri3 Spec_r3 Spec_sphere Spec_mesh XRvec P_r3 P_predicates P_meshgeom Spec_tri3.
Import ListNotations.
Open Scope R_scope.

(** the functions copied from package mesh *)
Lemma SameSide_copy {A : Arith} : @SameSide A = @sameSide A.
Proof. reflexivity. Qed.
Lemma VectorInTetrahedron_copy {A : Arith} : @VectorInTetrahedron A = @vectorInTetrahedron A.
Proof. reflexivity. Qed.
Lemma findCentroid_copy {A : Arith} : @M_tri3.findCentroid A = @M_meshing.findCentroid A.
Proof. reflexivity. Qed.

(** ** C47 *)
Lemma Get2Ddist_fv a b c : Get2Ddist (fv a) (fv b) (fv c) =
  Fin (rdot (rcross (rsub b a) (rsub c a)) (rcross (rsub b a) (rsub c a))).
Proof. unfold Get2Ddist, rdot, rcross, rsub; simpl. f_equal. ring. Qed.
Lemma Get3Ddist_fv a b c d : Get3Ddist (fv a) (fv b) (fv c) (fv d) =
  Fin (rdet3 (rsub b a) (rsub c a) (rsub d a)).
Proof. unfold Get3Ddist, rdet3, rsub; simpl. f_equal. ring. Qed.
Definition area2 (a b c : rv) : R := rdot (rcross (rsub b a) (rsub c a)) (rcross (rsub b a) (rsub c a)).
Definition vol (a b c d : rv) : R := rdet3 (rsub b a) (rsub c a) (rsub d a).

Lemma rdot_scale2 k n : rdot (rscale k n) (rscale k n) = k * k * rdot n n.
Proof. unfold rdot, rscale; simpl; ring. Qed.
Lemma lagrange u v : rdot (rcross u v) (rcross u v) = rdot u u * rdot v v - rdot u v * rdot u v.
Proof. unfold rdot, rcross; simpl; ring. Qed.
Lemma area2_line a b p : a <> b -> exists d2, line_dist2 a b p d2 /\ area2 a b p = d2 * rdist2 b a.
Proof.
  intros Hab. set (u := rsub b a). set (v := rsub p a).
  assert (Hu : 0 < rdot u u).
  { apply rdot_pos. intros E. apply Hab. unfold u, rsub, rzero in E. injection E as E1 E2 E3. apply rv_ext; lra. }
  exists (area2 a b p / rdot u u). split.
  - assert (K : forall t, rdist2 p (radd a (rscale t u)) = rdot v v - 2 * t * rdot u v + t * t * rdot u u).
    { intros t. unfold rdist2, v, rdot, rsub, radd, rscale; simpl. ring. }
    assert (Ar : area2 a b p = rdot u u * rdot v v - rdot u v * rdot u v) by apply lagrange.
    split.
    + exists (radd a (rscale (rdot u v / rdot u u) u)). split; [eexists; reflexivity|].
      rewrite K, Ar. field. lra.
    + intros x (t & ->). fold u. rewrite K, Ar.
      apply Rmult_le_reg_r with (rdot u u); [exact Hu|].
      replace ((rdot u u * rdot v v - rdot u v * rdot u v) / rdot u u * rdot u u)
        with (rdot u u * rdot v v - rdot u v * rdot u v) by (field; lra).
      set (x := rdot u u) in *. set (y := rdot u v). set (z := rdot v v).
      replace ((z - 2 * t * y + t * t * x) * x) with (x * z - y * y + (t * x - y) * (t * x - y)) by ring.
      pose proof (Rle_0_sqr (t * x - y)) as S. unfold Rsqr in S. lra.
  - unfold rdist2. fold u. field. lra.
Qed.
Lemma set_dist2_unique S p d d' : set_dist2 S p d -> set_dist2 S p d' -> d = d'.
Proof.
  intros [(x & Hx & Ex) H1] [(y & Hy & Ey) H2].
  specialize (H1 y Hy). specialize (H2 x Hx). lra.
Qed.
Lemma vol_plane a b c p : 0 < area2 a b c ->
  exists d2, plane_dist2 a b c p d2 /\ vol a b c p * vol a b c p = d2 * area2 a b c.
Proof.
  intros Ha. set (u := rsub b a). set (w := rsub c a). set (v := rsub p a).
  set (n := rcross u w).
  assert (An : area2 a b c = rdot n n) by reflexivity.
  assert (Vn : vol a b c p = rdot n v).
  { unfold vol. fold u w v. unfold n, rdet3, rdot, rcross; simpl. ring. }
  exists (vol a b c p * vol a b c p / area2 a b c). split; [|field; lra].
  split.
  - (* foot of the perpendicular: p - (n.v/n.n) n, expressed in u, w *)
    set (s := (rdot v u * rdot w w - rdot v w * rdot u w) / rdot n n).
    set (t := (rdot v w * rdot u u - rdot v u * rdot u w) / rdot n n).
    exists (radd a (radd (rscale s u) (rscale t w))). split; [exists s, t; reflexivity|].
    rewrite Vn, An. rewrite An in Ha.
    assert (Hn : rdot n n <> 0) by lra.
    assert (Foot : rscale (rdot n n) v = radd (radd (rscale (rdot v u * rdot w w - rdot v w * rdot u w) u)
                     (rscale (rdot v w * rdot u u - rdot v u * rdot u w) w)) (rscale (rdot n v) n)).
    { unfold n. apply rv_ext; unfold radd, rscale, rdot, rcross; simpl; ring. }
    assert (Ev : v = radd (radd (rscale s u) (rscale t w)) (rscale (rdot n v / rdot n n) n)).
    { unfold s, t. set (N := rdot n n) in *. set (M := rdot n v) in *.
      set (S := rdot v u * rdot w w - rdot v w * rdot u w) in *. set (T := rdot v w * rdot u u - rdot v u * rdot u w) in *.
      assert (Fx := f_equal rx Foot). assert (Fy := f_equal ry Foot). assert (Fz := f_equal rz Foot).
      unfold radd, rscale in Fx, Fy, Fz. cbn [rx ry rz] in Fx, Fy, Fz.
      apply rv_ext; unfold radd, rscale; cbn [rx ry rz];
        (apply Rmult_eq_reg_l with N; [|exact Hn]); [rewrite Fx|rewrite Fy|rewrite Fz]; field; exact Hn. }
    transitivity (rdot (rscale (rdot n v / rdot n n) n) (rscale (rdot n v / rdot n n) n)).
    + unfold rdist2. assert (E : rsub p (radd a (radd (rscale s u) (rscale t w))) = rscale (rdot n v / rdot n n) n).
      { assert (Gx := f_equal rx Ev). assert (Gy := f_equal ry Ev). assert (Gz := f_equal rz Ev).
        revert Gx Gy Gz. generalize (rscale (rdot n v / rdot n n) n). intros m. unfold v, rsub, radd, rscale; simpl.
        intros. apply rv_ext; simpl; lra. }
      rewrite E. reflexivity.
    + transitivity ((rdot n v / rdot n n) * (rdot n v / rdot n n) * rdot n n);
        [apply rdot_scale2|]. field. exact Hn.
  - intros x (s & t & ->). fold u w.
    set (x := radd a (radd (rscale s u) (rscale t w))).
    assert (Nx : rdot n (rsub p x) = rdot n v).
    { unfold x, n, v, rdot, rcross, rsub, radd, rscale; simpl. ring. }
    unfold rdist2. rewrite Vn, <- Nx. rewrite An in *.
    apply Rmult_le_reg_r with (rdot n n); [exact Ha|].
    replace (rdot n (rsub p x) * rdot n (rsub p x) / rdot n n * rdot n n)
      with (rdot n (rsub p x) * rdot n (rsub p x)) by (field; lra).
    pose proof (lagrange n (rsub p x)). pose proof (rdot_nonneg (rcross n (rsub p x))). lra.
Qed.
Lemma area2_zero a b c : area2 a b c = 0 <-> collinear3 a b c.
Proof.
  unfold area2. split.
  - intros H. apply rdot_zero in H. unfold collinear3. set (u := rsub b a) in *. set (v := rsub c a) in *.
    assert (H1 := f_equal rx H). assert (H2 := f_equal ry H). assert (H3 := f_equal rz H).
    unfold rcross, rzero in H1, H2, H3. cbn [rx ry rz] in H1, H2, H3.
    destruct (rv_dec u) as [E|E].
    + destruct (rv_dec v) as [F|F].
      * exists (RV 1 0 0). split; [intros K; injection K; lra|]. rewrite E, F.
        split; exists 0; unfold rscale, rzero; simpl; apply rv_ext; simpl; ring.
      * exists v. split; [exact F|]. split; [exists 0; rewrite E|exists 1]; apply rv_ext; unfold rscale, rzero; simpl; ring.
    + exists u. split; [exact E|]. split; [exists 1; apply rv_ext; unfold rscale; simpl; ring|].
      pose proof (rdot_pos u E) as P. exists (rdot u v / rdot u u).
      assert (L : rdot u u <> 0) by lra.
      assert (K : forall k x, x = 0 -> k * x = 0) by (intros k x ->; ring).
      assert (Cx : rdot u u * rx v = rdot u v * rx u)
        by (pose proof (K (rz u) _ H2); pose proof (K (ry u) _ H3); unfold rdot; lra).
      assert (Cy : rdot u u * ry v = rdot u v * ry u)
        by (pose proof (K (rz u) _ H1); pose proof (K (rx u) _ H3); unfold rdot; lra).
      assert (Cz : rdot u u * rz v = rdot u v * rz u)
        by (pose proof (K (ry u) _ H1); pose proof (K (rx u) _ H2); unfold rdot; lra).
      set (N := rdot u u) in *. set (M := rdot u v) in *.
      apply rv_ext; unfold rscale; cbn [rx ry rz]; (apply Rmult_eq_reg_l with N; [|exact L]);
        [rewrite Cx|rewrite Cy|rewrite Cz]; field; exact L.
  - intros (d & Hd & (s & Es) & (t & Et)). rewrite Es, Et.
    unfold rdot, rcross, rscale; simpl. ring.
Qed.
Lemma vol_zero a b c d : vol a b c d = 0 <-> coplanar a b c d.
Proof.
  destruct (orient3d_laws a b c d rzero) as (o & Eo & Ed & Hz & _).
  assert (E : vol a b c d = - o) by (rewrite Ed; unfold vol, rdet3, rsub; simpl; ring).
  rewrite <- Hz, E. split; lra.
Qed.

(** ** C44 *)
Section Box.
Context {A : Arith}.
Lemma box_folds (points : list (vec A)) h :
  fold_left boxStep points h =
  (mkvec (fold_left M_tri3.updMin (map vx points) (vx (fst h)))
         (fold_left M_tri3.updMin (map vy points) (vy (fst h)))
         (fold_left M_tri3.updMin (map vz points) (vz (fst h))),
   mkvec (fold_left M_tri3.updMax (map vx points) (vx (snd h)))
         (fold_left M_tri3.updMax (map vy points) (vy (snd h)))
         (fold_left M_tri3.updMax (map vz points) (vz (snd h)))).
Proof.
  revert h. induction points as [|p l IH]; intros [[? ? ?] [? ? ?]]; simpl; [reflexivity|].
  rewrite IH. reflexivity.
Qed.
Variable val : A -> R.
Variable fin : A -> Prop.
Hypothesis flt_val : forall a b, fin a -> fin b -> flt A a b = Rltb (val a) (val b).
Hypothesis fin_max : fin MaxFloat32.
Hypothesis fin_min : fin negMaxFloat32.
Hypothesis val_max : val MaxFloat32 = maxfloat32.
Hypothesis val_min : val negMaxFloat32 = - maxfloat32.
Lemma bounds_of (c : vec A -> A) (points : list (vec A)) :
  (forall p, In p points -> fin (c p)) ->
  let lo := fold_left M_tri3.updMin (map c points) MaxFloat32 in
  let hi := fold_left M_tri3.updMax (map c points) negMaxFloat32 in
  (forall p, In p points -> val lo <= val (c p) <= val hi) /\
  (points <> [] -> (forall p, In p points -> Rabs (val (c p)) <= maxfloat32) ->
    is_least (fun p => val (c p)) points (val lo) /\ is_greatest (fun p => val (c p)) points (val hi)).
Proof.
  intros Hf'.
  assert (Hf : forall x, In x (map c points) -> fin x).
  { intros x Hx. apply in_map_iff in Hx. destruct Hx as (p & <- & Hp). auto. }
  destruct (fold_min (A:=A) val fin flt_val (map c points) MaxFloat32 Hf fin_max) as (_ & H2 & H3 & H4).
  destruct (fold_max (A:=A) val fin flt_val (map c points) negMaxFloat32 Hf fin_min) as (_ & G2 & G3 & G4).
  cbv zeta in *.
  change (@M_meshing.updMin A) with (@M_tri3.updMin A) in *. change (@M_meshing.updMax A) with (@M_tri3.updMax A) in *.
  assert (B : forall p, In p points -> val (fold_left M_tri3.updMin (map c points) MaxFloat32) <= val (c p) <=
      val (fold_left M_tri3.updMax (map c points) negMaxFloat32)).
  { intros p Hp. split; [apply H4|apply G4]; apply in_map; auto. }
  split; [exact B|]. intros Hne Hb.
  destruct points as [|p0 points']; [congruence|]. set (l := p0 :: points') in *.
  pose proof (Hb p0 (or_introl eq_refl)) as Hb0. apply Rabs_le_inv in Hb0.
  pose proof (B p0 (or_introl eq_refl)) as B0.
  split; (split; [|intros p Hp; apply B; auto]).
  - destruct H2 as [E|(x & Hx & E)].
    + exists p0. split; [left; auto|]. rewrite E, val_max in *. lra.
    + apply in_map_iff in Hx. destruct Hx as (p & <- & Hp). exists p. auto.
  - destruct G2 as [E|(x & Hx & E)].
    + exists p0. split; [left; auto|]. rewrite E, val_min in *. lra.
    + apply in_map_iff in Hx. destruct Hx as (p & <- & Hp). exists p. auto.
Qed.
End Box.
Lemma Q2R_maxfloat32 : Q2R MaxFloat32Q = maxfloat32.
Proof.
  unfold MaxFloat32Q, maxfloat32, Q2R, inject_Z. cbn [Qnum Qden].
  rewrite Rinv_1, Rmult_1_r, minus_IZR.
  rewrite (pow_IZR 2 128), (pow_IZR 2 104). reflexivity.
Qed.
Lemma Q2R_negmaxfloat32 : Q2R (- MaxFloat32Q) = - maxfloat32.
Proof. rewrite Q2R_opp, Q2R_maxfloat32. reflexivity. Qed.

Definition in_range32 (p : rv) : Prop :=
  Rabs (rx p) <= maxfloat32 /\ Rabs (ry p) <= maxfloat32 /\ Rabs (rz p) <= maxfloat32.
Lemma box_XR (points : list rv) :
  exists lo hi, computeBoundingBoxForVectors (map fv points) = (fv lo, fv hi) /\
    (forall p, In p points -> rx lo <= rx p <= rx hi /\ ry lo <= ry p <= ry hi /\ rz lo <= rz p <= rz hi) /\
    (points <> [] -> (forall p, In p points -> in_range32 p) ->
      is_least rx points (rx lo) /\ is_greatest rx points (rx hi) /\
      is_least ry points (ry lo) /\ is_greatest ry points (ry hi) /\
      is_least rz points (rz lo) /\ is_greatest rz points (rz hi)).
Proof.
  assert (E : exists lo hi, computeBoundingBoxForVectors (map fv points) = (fv lo, fv hi)).
  { unfold computeBoundingBoxForVectors. rewrite box_folds. cbn [fst snd vx vy vz minStart maxStart].
    assert (G : forall c : vec XR -> XR, (forall p, xfin (c (fv p))) -> Forall xfin (map c (map fv points))).
    { intros c Hc. rewrite Forall_forall. intros x Hx. apply in_map_iff in Hx. destruct Hx as (v & <- & Hv).
      apply in_map_iff in Hv. destruct Hv as (p & <- & _). apply Hc. }
    assert (M : xfin (@MaxFloat32 XR)) by (eexists; reflexivity).
    assert (N : xfin (@negMaxFloat32 XR)) by (eexists; reflexivity).
    change (@M_tri3.updMin XR) with (@M_meshing.updMin XR). change (@M_tri3.updMax XR) with (@M_meshing.updMax XR).
    destruct (fold_upd_fin (map vx (map fv points)) _ (G vx ltac:(intros; eexists; reflexivity)) M) as [(a1 & ->) _].
    destruct (fold_upd_fin (map vy (map fv points)) _ (G vy ltac:(intros; eexists; reflexivity)) M) as [(a2 & ->) _].
    destruct (fold_upd_fin (map vz (map fv points)) _ (G vz ltac:(intros; eexists; reflexivity)) M) as [(a3 & ->) _].
    destruct (fold_upd_fin (map vx (map fv points)) _ (G vx ltac:(intros; eexists; reflexivity)) N) as [_ (b1 & ->)].
    destruct (fold_upd_fin (map vy (map fv points)) _ (G vy ltac:(intros; eexists; reflexivity)) N) as [_ (b2 & ->)].
    destruct (fold_upd_fin (map vz (map fv points)) _ (G vz ltac:(intros; eexists; reflexivity)) N) as [_ (b3 & ->)].
    exists (RV a1 a2 a3), (RV b1 b2 b3). reflexivity. }
  destruct E as (lo & hi & E). exists lo, hi. split; [exact E|].
  unfold computeBoundingBoxForVectors in E. rewrite box_folds in E. cbn [fst snd vx vy vz minStart maxStart] in E.
  assert (Elx := f_equal (fun s => vx (fst s)) E). assert (Ehx := f_equal (fun s => vx (snd s)) E).
  assert (Ely := f_equal (fun s => vy (fst s)) E). assert (Ehy := f_equal (fun s => vy (snd s)) E).
  assert (Elz := f_equal (fun s => vz (fst s)) E). assert (Ehz := f_equal (fun s => vz (snd s)) E).
  clear E. cbn [fst snd vx vy vz fv] in Elx, Ely, Elz, Ehx, Ehy, Ehz.
  assert (HB : forall c : vec XR -> XR, (forall p, xfin (c (fv p))) -> forall p, In p (map fv points) -> xfin (c p)).
  { intros c Hc p Hp. apply in_map_iff in Hp. destruct Hp as (q & <- & _). auto. }
  pose proof (fun c H => bounds_of (A:=XR) xval xfin flt_xval (ex_intro _ _ eq_refl) (ex_intro _ _ eq_refl)
    Q2R_maxfloat32 Q2R_negmaxfloat32 c (map fv points) H) as S. cbv zeta in S.
  destruct (S vx (HB vx ltac:(intros; eexists; reflexivity))) as [Sx1 Sx2]. rewrite Elx, Ehx in Sx1, Sx2.
  destruct (S vy (HB vy ltac:(intros; eexists; reflexivity))) as [Sy1 Sy2]. rewrite Ely, Ehy in Sy1, Sy2.
  destruct (S vz (HB vz ltac:(intros; eexists; reflexivity))) as [Sz1 Sz2]. rewrite Elz, Ehz in Sz1, Sz2.
  cbn [xval] in *. split.
  - intros p Hp. specialize (Sx1 (fv p) (in_map fv _ _ Hp)). specialize (Sy1 (fv p) (in_map fv _ _ Hp)).
    specialize (Sz1 (fv p) (in_map fv _ _ Hp)). simpl in *. auto.
  - intros Hne Hr. assert (Hne' : map fv points <> []) by (destruct points; [congruence|discriminate]).
    destruct Sx2 as [X1 X2]; [exact Hne'|intros v Hv; apply in_map_iff in Hv; destruct Hv as (p & <- & Hp); apply (Hr p Hp)|].
    destruct Sy2 as [Y1 Y2]; [exact Hne'|intros v Hv; apply in_map_iff in Hv; destruct Hv as (p & <- & Hp); apply (Hr p Hp)|].
    destruct Sz2 as [Z1 Z2]; [exact Hne'|intros v Hv; apply in_map_iff in Hv; destruct Hv as (p & <- & Hp); apply (Hr p Hp)|].
    split; [eapply is_least_map; [|exact X1]; reflexivity|].
    split; [eapply is_greatest_map; [|exact X2]; reflexivity|].
    split; [eapply is_least_map; [|exact Y1]; reflexivity|].
    split; [eapply is_greatest_map; [|exact Y2]; reflexivity|].
    split; [eapply is_least_map; [|exact Z1]; reflexivity|eapply is_greatest_map; [|exact Z2]; reflexivity].
Qed.
(* binary64 *)
Lemma bR_max32 : bR (@MaxFloat32 B64) = maxfloat32.
Proof.
  unfold bR. transitivity (SF2R radix2 (B2SF (@MaxFloat32 B64 : b64))); [symmetry; apply SF2R_B2SF|].
  replace (B2SF (@MaxFloat32 B64 : b64)) with (SpecFloat.S754_finite false (2 ^ 53 - 2 ^ 29) 75)
    by (vm_compute; reflexivity).
  unfold maxfloat32. cbn -[pow bpow IZR Pos.pow Pos.sub].
  unfold F2R. cbn [Fnum Fexp].
  replace (bpow radix2 75) with (2 ^ 75) by (rewrite bpow_powerRZ; reflexivity).
  replace (IZR _) with (2 ^ 53 - 2 ^ 29).
  - change 128%nat with (53 + 75)%nat. change 104%nat with (29 + 75)%nat. rewrite !pow_add.
    generalize (2 ^ 53) (2 ^ 75) (2 ^ 29). intros; ring.
  - rewrite (pow_IZR 2 53), (pow_IZR 2 29), <- minus_IZR. f_equal.
Qed.
Lemma bR_negmax32 : bR (@negMaxFloat32 B64) = - maxfloat32.
Proof.
  rewrite <- bR_max32. unfold bR. rewrite <- B2R_Bopp. f_equal.
Qed.
Lemma flt_bR (a b : B64) : bfin a -> bfin b -> flt B64 a b = Rltb (bR a) (bR b).
Proof.
  intros Ha Hb. unfold bR. cbn [flt B64]. rewrite Bltb_correct by auto.
  destruct (Rlt_bool_spec (B2R a) (B2R b)); symmetry; [apply Rltb_true|apply Rltb_false]; auto.
Qed.
Lemma box_B64 (c : vec B64 -> B64) (points : list (vec B64)) :
  (c = vx \/ c = vy \/ c = vz) ->
  (forall p, In p points -> bfin (c p)) ->
  let '(lo, hi) := computeBoundingBoxForVectors points in
  (forall p, In p points -> bR (c lo) <= bR (c p) <= bR (c hi)) /\
  (points <> [] -> (forall p, In p points -> Rabs (bR (c p)) <= maxfloat32) ->
    is_least (fun p => bR (c p)) points (bR (c lo)) /\ is_greatest (fun p => bR (c p)) points (bR (c hi))).
Proof.
  intros Hc Hf. unfold computeBoundingBoxForVectors. rewrite box_folds. cbn [fst snd vx vy vz minStart maxStart].
  pose proof (bounds_of (A:=B64) bR bfin flt_bR eq_refl eq_refl bR_max32 bR_negmax32 c points Hf) as S.
  cbv zeta in S. destruct Hc as [-> |[-> | ->]]; exact S.
Qed.

(** ** C45 *)
Lemma intersect_at (p d n q y : rv) : rdot n d <> 0 -> on_line p d y -> on_plane n q y ->
  IntersectPlane (mkLine (A:=XR) (fv p) (fv d)) (mkPlane3D (A:=XR) (fv n) (fv q)) = Ok (fv y).
Proof.
  intros H H1 H2. destruct (intersect_correct p d n q) as [_ (x & E & _ & _ & U)]; [exact H|].
  rewrite E. rewrite (U y H1 H2). reflexivity.
Qed.
Lemma intersect_panic (p d n q : rv) : rdot n d = 0 ->
  IntersectPlane (mkLine (A:=XR) (fv p) (fv d)) (mkPlane3D (A:=XR) (fv n) (fv q)) = Panic.
Proof. intros H. destruct (intersect_correct p d n q) as [I _]. apply I; auto. Qed.

Definition engl (lo hi : rv) : list rv :=
  (* lo, hi: the box enlarged by one; k: scale of the base *)
  let k := (2 * ry hi - ry lo) / ry hi in
  [RV (rx lo) (2 * ry hi) (rz lo);
   RV (rx lo) (ry lo) (rz lo + k * (rz hi - rz lo));
   RV (rx lo + k * (rx hi - rx lo)) (ry lo) (rz lo + k * (rz hi - rz lo));
   RV (rx lo + k * (rx hi - rx lo)) (ry lo) (rz lo)].
Lemma englobing_value (points : list rv) lo hi :
  computeBoundingBoxForVectors (map fv points) = (fv lo, fv hi) ->
  let lo' := RV (rx lo + -1) (ry lo + -1) (rz lo + -1) in
  let hi' := RV (rx hi + 1) (ry hi + 1) (rz hi + 1) in
  constructEnglobingTetra (map fv points) =
    if Req_EM_T (ry hi') 0 then Panic
    else Ok (map fv (engl lo' hi'), [0; 1; 2; 0; 2; 3; 0; 3; 1; 1; 2; 3]%Z).
Proof.
  intros E lo' hi'. unfold constructEnglobingTetra. rewrite E.
  replace (Add_method (fv lo) _) with (fv lo') by reflexivity.
  replace (Add_method (fv hi) _) with (fv hi') by reflexivity.
  clearbody lo' hi'. clear E lo hi.
  unfold getTopVectorOfTetrahedron.
  replace (mkvec (vx (fv lo')) _ (vz (fv lo'))) with (fv (RV (rx lo') (2 * ry hi') (rz lo'))) by reflexivity.
  set (top := RV (rx lo') (2 * ry hi') (rz lo')).
  replace (mkvec (vx (fv lo')) (vy (fv hi')) (vz (fv hi'))) with (fv (RV (rx lo') (ry hi') (rz hi'))) by reflexivity.
  replace (mkvec (vx (fv hi')) (vy (fv hi')) (vz (fv hi'))) with (fv (RV (rx hi') (ry hi') (rz hi'))) by reflexivity.
  replace (mkvec (vx (fv hi')) (vy (fv hi')) (vz (fv lo'))) with (fv (RV (rx hi') (ry hi') (rz lo'))) by reflexivity.
  replace (mkvec (A:=XR) (fofZ XR 0) (fofZ XR 1) (fofZ XR 0)) with (fv (RV 0 1 0)) by reflexivity.
  rewrite !Sub_fv.
  destruct (Req_EM_T (ry hi') 0) as [Z|NZ].
  - rewrite intersect_panic; [reflexivity|]. unfold rdot, rsub, top; simpl. rewrite Z. ring.
  - set (t := (ry lo' - ry hi') / ry hi').
    rewrite (intersect_at _ _ _ _ (RV (rx lo') (ry lo') (rz lo' + (2 * ry hi' - ry lo') / ry hi' * (rz hi' - rz lo')))).
    2: { unfold rdot, rsub, top; simpl. lra. }
    2: { exists t. unfold t, radd, rscale, rsub, top; simpl. apply rv_ext; simpl; field; auto. }
    2: { unfold on_plane, rdot, rsub; simpl. ring. }
    cbn [rbind].
    rewrite (intersect_at _ _ _ _ (RV (rx lo' + (2 * ry hi' - ry lo') / ry hi' * (rx hi' - rx lo')) (ry lo') (rz lo' + (2 * ry hi' - ry lo') / ry hi' * (rz hi' - rz lo')))).
    2: { unfold rdot, rsub, top; simpl. lra. }
    2: { exists t. unfold t, radd, rscale, rsub, top; simpl. apply rv_ext; simpl; field; auto. }
    2: { unfold on_plane, rdot, rsub; simpl. ring. }
    cbn [rbind].
    rewrite (intersect_at _ _ _ _ (RV (rx lo' + (2 * ry hi' - ry lo') / ry hi' * (rx hi' - rx lo')) (ry lo') (rz lo'))).
    2: { unfold rdot, rsub, top; simpl. lra. }
    2: { exists t. unfold t, radd, rscale, rsub, top; simpl. apply rv_ext; simpl; field; auto. }
    2: { unfold on_plane, rdot, rsub; simpl. ring. }
    cbn [rbind]. reflexivity.
Qed.
Lemma engl_outside lo hi (points : list rv) : points <> [] -> ry hi <> 0 ->
  (forall p, In p points -> rx lo + 1 <= rx p <= rx hi - 1 /\ ry lo + 1 <= ry p <= ry hi - 1 /\
     rz lo + 1 <= rz p <= rz hi - 1) ->
  (exists p, In p points /\ rx p = rx lo + 1) -> (exists p, In p points /\ rz p = rz lo + 1) ->
  forall t p1 p2 p3, engl lo hi = [t; p1; p2; p3] ->
  (ry hi > 0 -> signed_volume t p1 p2 p3 <> 0) /\
  exists p, In p points /\ ~ in_tetra t p1 p2 p3 p.
Proof.
  intros Hne HM Hb (px & Hpx & Ex) (pz & Hpz & Ez) t p1 p2 p3 E.
  unfold engl in E. set (k := (2 * ry hi - ry lo) / ry hi) in *. injection E as <- <- <- <-.
  set (dx := rx hi - rx lo) in *. set (dz := rz hi - rz lo) in *.
  assert (Ek : k * ry hi = 2 * ry hi - ry lo) by (unfold k; field; auto).
  pose proof (Hb px Hpx) as (Bx1 & Bx2 & Bx3). pose proof (Hb pz Hpz) as (Bz1 & Bz2 & Bz3).
  assert (Hdx : 2 <= dx) by (unfold dx; lra). assert (Hdz : 2 <= dz) by (unfold dz; lra).
  clearbody k.
  assert (Mem : forall p, in_tetra (RV (rx lo) (2 * ry hi) (rz lo)) (RV (rx lo) (ry lo) (rz lo + k * dz))
      (RV (rx lo + k * dx) (ry lo) (rz lo + k * dz)) (RV (rx lo + k * dx) (ry lo) (rz lo)) p ->
      exists l1 l2 l3 l4, 0 <= l1 /\ 0 <= l2 /\ 0 <= l3 /\ 0 <= l4 /\ l1 + l2 + l3 + l4 = 1 /\
        rx p - rx lo = k * dx * (l3 + l4) /\ ry p = 2 * ry hi * l1 + ry lo * (1 - l1) /\
        rz p - rz lo = k * dz * (l2 + l3)).
  { intros p (l1 & l2 & l3 & l4 & H1 & H2 & H3 & H4 & Hs & Ep). exists l1, l2, l3, l4.
    repeat (split; [assumption|]).
    assert (Px := f_equal rx Ep). assert (Py := f_equal ry Ep). assert (Pz := f_equal rz Ep).
    unfold combine4, radd, rscale in Px, Py, Pz. cbn [rx ry rz] in Px, Py, Pz.
    assert (l1 = 1 - l2 - l3 - l4) as -> by lra. rewrite Px, Py, Pz. repeat split; ring. }
  split.
  { intros Hpos. assert (0 < k).
    { apply Rmult_lt_reg_r with (ry hi); [lra|]. rewrite Ek. lra. }
    unfold signed_volume, rdet3, rsub; cbn [rx ry rz].
    replace (_ + _) with ((k * dx) * (k * dz) * (2 * ry hi - ry lo)) by ring.
    assert (0 < k * dx) by (apply Rmult_lt_0_compat; lra). assert (0 < k * dz) by (apply Rmult_lt_0_compat; lra).
    assert (0 < (k * dx) * (k * dz) * (2 * ry hi - ry lo)); [|lra].
    apply Rmult_lt_0_compat; [apply Rmult_lt_0_compat; auto|lra]. }
  destruct (Rlt_or_le (ry hi) 0) as [Hneg|Hpos].
  - exists px. split; [exact Hpx|]. intros Hin. destruct (Mem px Hin) as (l1 & l2 & l3 & l4 & H1 & H2 & H3 & H4 & Hs & X & Y & Z).
    assert (Kpos : 0 < k).
    { destruct (Rlt_or_le 0 k) as [|Hk]; [assumption|]. exfalso.
      assert (0 <= - k * dx * (l3 + l4)) by (apply Rmult_le_pos; [apply Rmult_le_pos|]; lra). lra. }
    assert (2 * ry hi - ry lo < 0).
    { rewrite <- Ek. assert (0 < k * - ry hi) by (apply Rmult_lt_0_compat; lra). lra. }
    assert (0 <= (ry lo - 2 * ry hi) * l1) by (apply Rmult_le_pos; lra). lra.
  - assert (Hp : 0 < ry hi) by lra.
    assert (Kpos : 0 < k).
    { apply Rmult_lt_reg_r with (ry hi); [lra|]. rewrite Ek. lra. }
    (* any enclosed point is beyond the diagonal of the box *)
    assert (Key : forall p, in_tetra (RV (rx lo) (2 * ry hi) (rz lo)) (RV (rx lo) (ry lo) (rz lo + k * dz))
      (RV (rx lo + k * dx) (ry lo) (rz lo + k * dz)) (RV (rx lo + k * dx) (ry lo) (rz lo)) p -> ry p <= ry hi - 1 ->
      dx * dz < (rx p - rx lo) * dz + (rz p - rz lo) * dx).
    { intros p Hin Hy. destruct (Mem p Hin) as (l1 & l2 & l3 & l4 & H1 & H2 & H3 & H4 & Hs & X & Y & Z).
      rewrite X, Z.
      replace (k * dx * (l3 + l4) * dz + k * dz * (l2 + l3) * dx) with (k * (l2 + l3 + l3 + l4) * (dx * dz)) by ring.
      assert (Hf : 1 < k * (1 - l1)).
      { apply Rmult_lt_reg_r with (ry hi); [lra|].
        replace (k * (1 - l1) * ry hi) with ((k * ry hi) * (1 - l1)) by ring. rewrite Ek. lra. }
      assert (Hg : 0 <= k * l3) by (apply Rmult_le_pos; lra).
      assert (Hh : 1 < k * (l2 + l3 + l3 + l4)).
      { replace (k * (l2 + l3 + l3 + l4)) with (k * (1 - l1) + k * l3); [lra|]. replace (1 - l1) with (l2 + l3 + l4) by lra. ring. }
      assert (0 < dx * dz) by (apply Rmult_lt_0_compat; lra).
      assert (0 < (k * (l2 + l3 + l3 + l4) - 1) * (dx * dz)) by (apply Rmult_lt_0_compat; lra). lra. }
    destruct (Rle_or_lt dx dz) as [Hd|Hd].
    + exists pz. split; [exact Hpz|]. intros Hin. specialize (Key pz Hin ltac:(lra)).
      assert (rx pz - rx lo <= dx - 1) by (unfold dx; lra).
      assert (0 <= (dx - 1 - (rx pz - rx lo)) * dz) by (apply Rmult_le_pos; lra).
      rewrite Ez in Key. lra.
    + exists px. split; [exact Hpx|]. intros Hin. specialize (Key px Hin ltac:(lra)).
      assert (rz px - rz lo <= dz - 1) by (unfold dz; lra).
      assert (0 <= (dz - 1 - (rz px - rz lo)) * dx) by (apply Rmult_le_pos; lra).
      rewrite Ex in Key. lra.
Qed.
Lemma englobing_never (points : list rv) : points <> [] -> (forall p, In p points -> in_range32 p) ->
  constructEnglobingTetra (map fv points) = Panic \/
  exists t p1 p2 p3 ix p, constructEnglobingTetra (map fv points) = Ok (map fv [t; p1; p2; p3], ix) /\
    In p points /\ ~ in_tetra t p1 p2 p3 p.
Proof.
  intros Hne Hr. destruct (box_XR points) as (lo & hi & E & Hb & Hat).
  destruct (Hat Hne Hr) as (Lx & Gx & Ly & Gy & Lz & Gz).
  rewrite (englobing_value points lo hi E). cbv zeta. cbn [ry].
  destruct (Req_EM_T (ry hi + 1) 0) as [Z|NZ]; [left; reflexivity|right].
  destruct (engl (RV (rx lo + -1) (ry lo + -1) (rz lo + -1)) (RV (rx hi + 1) (ry hi + 1) (rz hi + 1)))
    as [|t [|p1 [|p2 [|p3 [|? ?]]]]] eqn:En; try discriminate.
  destruct (engl_outside (RV (rx lo + -1) (ry lo + -1) (rz lo + -1)) (RV (rx hi + 1) (ry hi + 1) (rz hi + 1)) points) with (6 := En)
    as (_ & p & Hp & Hout); auto.
  - intros p Hp. specialize (Hb p Hp). cbn [rx ry rz]. lra.
  - destruct Lx as [(p & Hp & Ep) _]. exists p. split; [exact Hp|]. cbn [rx]. lra.
  - destruct Lz as [(p & Hp & Ep) _]. exists p. split; [exact Hp|]. cbn [rz]. lra.
  - exists t, p1, p2, p3, [0; 1; 2; 0; 2; 3; 0; 3; 1; 1; 2; 3]%Z, p. auto.
Qed.
Lemma englobing_rejects (points : list rv) : points <> [] -> (forall p, In p points -> in_range32 p) ->
  (forall p, In p points -> 0 <= ry p) ->
  exists t p1 p2 p3 ix p, constructEnglobingTetra (map fv points) = Ok (map fv [t; p1; p2; p3], ix) /\
    In p points /\ VectorInTetrahedron (fv t) (fv p1) (fv p2) (fv p3) (fv p) = false.
Proof.
  intros Hne Hr Hpos. destruct (box_XR points) as (lo & hi & E & Hb & Hat).
  destruct (Hat Hne Hr) as (Lx & Gx & Ly & Gy & Lz & Gz).
  rewrite (englobing_value points lo hi E). cbv zeta. cbn [ry].
  assert (0 <= ry hi). { destruct Gy as [(p & Hp & Ep) _]. rewrite <- Ep. auto. }
  destruct (Req_EM_T (ry hi + 1) 0) as [Z|NZ]; [lra|].
  destruct (engl (RV (rx lo + -1) (ry lo + -1) (rz lo + -1)) (RV (rx hi + 1) (ry hi + 1) (rz hi + 1)))
    as [|t [|p1 [|p2 [|p3 [|? ?]]]]] eqn:En; try discriminate.
  destruct (engl_outside (RV (rx lo + -1) (ry lo + -1) (rz lo + -1)) (RV (rx hi + 1) (ry hi + 1) (rz hi + 1)) points) with (6 := En)
    as (Hv & p & Hp & Hout); auto.
  - intros p Hp. specialize (Hb p Hp). cbn [rx ry rz]. lra.
  - destruct Lx as [(p & Hp & Ep) _]. exists p. split; [exact Hp|]. cbn [rx]. lra.
  - destruct Lz as [(p & Hp & Ep) _]. exists p. split; [exact Hp|]. cbn [rz]. lra.
  - exists t, p1, p2, p3, [0; 1; 2; 0; 2; 3; 0; 3; 1; 1; 2; 3]%Z, p. split; [reflexivity|]. split; [exact Hp|].
    cbn [ry] in Hv. specialize (Hv ltac:(lra)).
    destruct (VectorInTetrahedron (fv t) (fv p1) (fv p2) (fv p3) (fv p)) eqn:T; [|reflexivity].
    exfalso. apply Hout. apply test_in_tetra; auto.
Qed.

(** ** C46 *)
Lemma extremities_spec (l : list rv) : forall a b, exists v0 v1,
  fold_left extremitiesStep (map fv l) (fv a, fv b) = (fv v0, fv v1) /\
  (v0 = a \/ In v0 l) /\ rx v0 <= rx a /\ (forall p, In p l -> rx v0 <= rx p) /\
  (v1 = b \/ In v1 l) /\ rx b <= rx v1 /\ (forall p, In p l -> rx p <= rx v1).
Proof.
  induction l as [|p l IH]; intros a b; simpl map; cbn [fold_left].
  - exists a, b. repeat split; auto; try lra; intros ? [].
  - unfold extremitiesStep at 2. cbn [vx fv]. xr_cbn.
    destruct (IH (if Rltb (rx p) (rx a) then p else a) (if Rltb (rx b) (rx p) then p else b))
      as (v0 & v1 & E & H1 & H2 & H3 & H4 & H5 & H6).
    exists v0, v1.
    split; [destruct (Rltb (rx p) (rx a)); destruct (Rltb (rx b) (rx p)); exact E|]. clear E IH.
    destruct (Rltb_spec (rx p) (rx a)); destruct (Rltb_spec (rx b) (rx p));
      (split; [destruct H1; subst; simpl; auto|]); (split; [lra|]); (split; [intros q [<-|Hq]; [lra|auto]|]);
      (split; [destruct H4; subst; simpl; auto|]); (split; [lra|]); (intros q [<-|Hq]; [lra|auto]).
Qed.
Lemma furthest2_spec (a b : rv) (l : list rv) : forall m v, m = area2 a b v \/ v = rzero /\ m = 0 ->
  exists m' v', fold_left (furthest2Step (fv a) (fv b)) (map fv l) (Fin m, fv v) = (Fin m', fv v') /\
    m <= m' /\ (forall p, In p l -> area2 a b p <= m') /\
    ((v' = v /\ m' = m) \/ (In v' l /\ m' = area2 a b v' /\ m < m')).
Proof.
  induction l as [|p l IH]; intros m v Hm; simpl map; cbn [fold_left].
  - exists m, v. repeat split; auto; try lra. intros ? [].
  - unfold furthest2Step at 2. rewrite Get2Ddist_fv. fold (area2 a b p). cbn [fst]. xr_cbn.
    destruct (Rltb_spec m (area2 a b p)) as [H|H].
    + destruct (IH (area2 a b p) p (or_introl eq_refl)) as (m' & v' & E & H1 & H2 & H3).
      exists m', v'. split; [exact E|]. split; [lra|]. split; [intros q [<-|Hq]; [lra|auto]|].
      right. destruct H3 as [(-> & ->)|(H3 & H4 & H5)].
      * split; [left; auto|]. auto.
      * split; [right; auto|]. split; [auto|lra].
    + destruct (IH m v Hm) as (m' & v' & E & H1 & H2 & H3).
      exists m', v'. split; [exact E|]. split; [lra|]. split; [intros q [<-|Hq]; [lra|auto]|].
      destruct H3 as [H3|(H3 & H4 & H5)]; [auto|]. right. split; [right; auto|]. auto.
Qed.
Lemma furthest3_spec (a b c : rv) (l : list rv) : forall m v,
  exists m' v', fold_left (furthest3Step (fv a) (fv b) (fv c)) (map fv l) (Fin m, fv v) = (Fin m', fv v') /\
    m' <= m /\ (forall p, In p l -> m' <= vol a b c p) /\
    ((v' = v /\ m' = m) \/ (In v' l /\ m' = vol a b c v' /\ m' < m)).
Proof.
  induction l as [|p l IH]; intros m v; simpl map; cbn [fold_left].
  - exists m, v. repeat split; auto; try lra. intros ? [].
  - unfold furthest3Step at 2. rewrite Get3Ddist_fv. fold (vol a b c p). cbn [fst]. xr_cbn.
    destruct (Rltb_spec (vol a b c p) m) as [H|H].
    + destruct (IH (vol a b c p) p) as (m' & v' & E & H1 & H2 & H3).
      exists m', v'. split; [exact E|]. split; [lra|]. split; [intros q [<-|Hq]; [lra|auto]|].
      right. destruct H3 as [(-> & ->)|(H3 & H4 & H5)].
      * split; [left; auto|]. auto.
      * split; [right; auto|]. split; [auto|lra].
    + destruct (IH m v) as (m' & v' & E & H1 & H2 & H3).
      exists m', v'. split; [exact E|]. split; [lra|]. split; [intros q [<-|Hq]; [lra|auto]|].
      destruct H3 as [H3|(H3 & H4 & H5)]; [auto|]. right. split; [right; auto|]. auto.
Qed.
Lemma area2_nonneg a b c : 0 <= area2 a b c.
Proof. apply rdot_nonneg. Qed.
Lemma on_line_of_area2 a b p : a <> b -> area2 a b p = 0 -> exists t, p = radd a (rscale t (rsub b a)).
Proof.
  intros Hab H. apply area2_zero in H. destruct H as (d & Hd & (s & Es) & (t & Et)).
  assert (s <> 0).
  { intros ->. apply Hab. unfold rsub, rscale in Es. assert (Sx := f_equal rx Es). assert (Sy := f_equal ry Es).
    assert (Sz := f_equal rz Es). cbn [rx ry rz] in *. apply rv_ext; lra. }
  exists (t / s). rewrite Es.
  assert (Tx := f_equal rx Et). assert (Ty := f_equal ry Et). assert (Tz := f_equal rz Et).
  unfold rsub, rscale in Tx, Ty, Tz. cbn [rx ry rz] in Tx, Ty, Tz.
  apply rv_ext; unfold radd, rscale; cbn [rx ry rz]; [assert (rx p = rx a + t * rx d) as -> by lra
    |assert (ry p = ry a + t * ry d) as -> by lra|assert (rz p = rz a + t * rz d) as -> by lra]; field; auto.
Qed.
Lemma initial_tetra_spec (l : list rv) : (forall p, In p l -> in_range32 p) ->
  (exists a b c d, In a l /\ In b l /\ In c l /\ In d l /\ vol a b c d <> 0) ->
  exists v0 v1 v2 v3, createInitialTetra (map fv l) = map fv [v0; v1; v2; v3] /\
    In v0 l /\ In v1 l /\ In v2 l /\
    is_least rx l (rx v0) /\ is_greatest rx l (rx v1) /\
    0 < area2 v0 v1 v2 /\ (forall q, In q l -> area2 v0 v1 q <= area2 v0 v1 v2) /\
    ((exists q, In q l /\ vol v0 v1 v2 q < 0) ->
       In v3 l /\ vol v0 v1 v2 v3 < 0 /\ forall q, In q l -> vol v0 v1 v2 v3 <= vol v0 v1 v2 q) /\
    ((forall q, In q l -> 0 <= vol v0 v1 v2 q) -> v3 = rzero).
Proof.
  intros Hr (a & b & c & d & Ha & Hb & Hc & Hd & HV).
  unfold createInitialTetra, computeExtremitiesForAxeX.
  set (M := RV maxfloat32 maxfloat32 maxfloat32). set (N := RV (- maxfloat32) (- maxfloat32) (- maxfloat32)).
  replace (@minStart XR) with (fv M)
    by (unfold minStart, fv, M, MaxFloat32; cbn [fofQ XR rx ry rz]; rewrite Q2R_maxfloat32; reflexivity).
  replace (@maxStart XR) with (fv N)
    by (unfold maxStart, fv, N, negMaxFloat32; cbn [fofQ XR rx ry rz]; rewrite Q2R_negmaxfloat32; reflexivity).
  destruct (extremities_spec l M N) as (v0 & v1 & E & H1 & H2 & H3 & H4 & H5 & H6). rewrite E.
  (* not all x coordinates are equal *)
  assert (Hx : exists p q, In p l /\ In q l /\ rx p < rx q).
  { destruct (Rtotal_order (rx a) (rx b)) as [L|[Eab|L]]; [exists a, b; auto| |exists b, a; auto].
    destruct (Rtotal_order (rx a) (rx c)) as [L|[Eac|L]]; [exists a, c; auto| |exists c, a; auto].
    destruct (Rtotal_order (rx a) (rx d)) as [L|[Ead|L]]; [exists a, d; auto| |exists d, a; auto].
    exfalso. apply HV. unfold vol, rdet3, rsub; simpl. rewrite <- Eab, <- Eac, <- Ead. ring. }
  destruct Hx as (p & q & Hp & Hq & Hpq).
  assert (In0 : In v0 l).
  { destruct H1 as [->|H1]; [|exact H1]. exfalso. specialize (H3 p Hp). unfold M in H3; simpl in H3.
    destruct (Hr q Hq) as [B _]. apply Rabs_le_inv in B. lra. }
  assert (In1 : In v1 l).
  { destruct H4 as [->|H4]; [|exact H4]. exfalso. specialize (H6 q Hq). unfold N in H6; simpl in H6.
    destruct (Hr p Hp) as [B _]. apply Rabs_le_inv in B. lra. }
  assert (N01 : v0 <> v1) by (intros ->; specialize (H3 p Hp); specialize (H6 q Hq); lra).
  destruct (furthest2_spec v0 v1 l 0 rzero (or_intror (conj eq_refl eq_refl))) as (m2 & v2 & E2 & K1 & K2 & K3).
  assert (G2 : getFurthestFromTwoVectors (map fv l) (fv v0) (fv v1) = fv v2).
  { exact (f_equal snd E2). }
  rewrite G2.
  assert (Hpos : exists r, In r l /\ 0 < area2 v0 v1 r).
  { assert (D : forall r, In r l -> 0 < area2 v0 v1 r \/ exists t, r = radd v0 (rscale t (rsub v1 v0))).
    { intros r Hr'. destruct (Req_dec (area2 v0 v1 r) 0) as [Z|Z].
      - right. apply on_line_of_area2; auto.
      - left. pose proof (area2_nonneg v0 v1 r). lra. }
    destruct (D a Ha) as [?|(ta & ->)]; [exists a; auto|].
    destruct (D b Hb) as [?|(tb & ->)]; [exists b; auto|].
    destruct (D c Hc) as [?|(tc & ->)]; [exists c; auto|].
    destruct (D d Hd) as [?|(td & ->)]; [exists d; auto|].
    exfalso. apply HV. unfold vol, rdet3, rsub, radd, rscale; simpl. ring. }
  destruct Hpos as (r & Hr1 & Hr2).
  assert (P2 : In v2 l /\ m2 = area2 v0 v1 v2 /\ 0 < m2).
  { destruct K3 as [(_ & ->)|K3]; [|exact K3]. specialize (K2 r Hr1). lra. }
  destruct P2 as (In2 & -> & P2).
  destruct (furthest3_spec v0 v1 v2 l 0 rzero) as (m3 & v3 & E3 & L1 & L2 & L3).
  assert (G3 : getFurthestFromthreeVectors (map fv l) (fv v0) (fv v1) (fv v2) = fv v3).
  { exact (f_equal snd E3). }
  rewrite G3. exists v0, v1, v2, v3. split; [reflexivity|].
  split; [exact In0|]. split; [exact In1|]. split; [exact In2|].
  split; [split; [exists v0; auto|exact H3]|]. split; [split; [exists v1; auto|exact H6]|].
  split; [exact P2|]. split; [exact K2|]. split.
  - intros (s & Hs & Vs). destruct L3 as [(_ & ->)|(L3 & -> & L4)].
    + specialize (L2 s Hs). lra.
    + auto.
  - intros Hall. destruct L3 as [(-> & _)|(L3 & -> & L4)]; [reflexivity|].
    specialize (Hall v3 L3). lra.
Qed.
