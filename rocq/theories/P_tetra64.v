(** The point-in-tetrahedron test and the helpers of package triangulate3 in binary64 on grids. *)
From Coq Require Import ZArith Lia List Bool Reals Lra QArith.
From Flocq Require Import Core BinarySingleNaN.
From Verif Require Import Base Arith M_r3 M_meshing M_tri3 Spec_r3 Spec_sphere Spec_mesh Spec_tri3 Spec_grid3 XRvec P_insphere_b64 P_b64sc P_b64err P_meshgeom P_tri3 P_b64grid3 P_near64.
Import ListNotations.
Open Scope Z_scope.

Lemma frel_le x w y v : frel x w -> frel y v -> fle B64 x y = fle XR w v.
Proof.
  intros [Fx ->] [Fy ->]. cbn [fle B64 XR xleb]. rewrite Bleb_correct by assumption.
  destruct (Rleb_spec (B2R x) (B2R y)); [apply Rle_bool_true|apply Rle_bool_false]; assumption.
Qed.
Lemma frel_zero : frel (fofZ B64 0) (fofZ XR 0).
Proof. split; reflexivity. Qed.

Section Grid.
Variables e ox oy oz : Z.
Hypothesis G : okgrid e ox oy oz.
Notation vr := (vrel e ox oy oz).

Lemma subs D a a' b b' : 0 <= D <= 2 ^ 20 -> vr D a a' -> vr D b b' ->
  rel (fsub B64 (vx a) (vx b)) (fsub XR (vx a') (vx b')) e D /\ rel (fsub B64 (vy a) (vy b)) (fsub XR (vy a') (vy b')) e D /\
  rel (fsub B64 (vz a) (vz b)) (fsub XR (vz a') (vz b')) e D.
Proof.
  intros HD (A1 & A2 & A3) (B1 & B2 & B3). destruct G as (He & Hx & Hy & Hz).
  split; [apply (crel_sub e He 0 0 0 ox)|split; [apply (crel_sub e He 0 0 0 oy)|apply (crel_sub e He 0 0 0 oz)]]; assumption.
Qed.
Lemma sameSide_rel a b c d p a' b' c' d' p' : vr 100000 a a' -> vr 100000 b b' -> vr 100000 c c' -> vr 100000 d d' -> vr 100000 p p' ->
  sameSide a b c d p = sameSide a' b' c' d' p'.
Proof.
  intros Ha Hb Hc Hd Hp. pose proof (proj1 G) as He. assert (D : 0 <= 100000 <= 2 ^ 20) by lia.
  destruct (subs _ _ _ _ _ D Hb Ha) as (B1 & B2 & B3). destruct (subs _ _ _ _ _ D Hc Ha) as (C1 & C2 & C3).
  destruct (subs _ _ _ _ _ D Hd Ha) as (D1 & D2 & D3). destruct (subs _ _ _ _ _ D Hp Ha) as (P1 & P2 & P3).
  assert (R : forall q q', vr 100000 q q' -> frel (Dot (Cross (Sub b a) (Sub c a)) (Sub q a)) (Dot (Cross (Sub b' a') (Sub c' a')) (Sub q' a'))).
  { intros q q' Hq. destruct (subs _ _ _ _ _ D Hq Ha) as (Q1 & Q2 & Q3).
    assert (X : exists f B, rel (Dot (Cross (Sub b a) (Sub c a)) (Sub q a)) (Dot (Cross (Sub b' a') (Sub c' a')) (Sub q' a')) f B).
    { do 2 eexists. unfold Dot, Cross, Sub. cbn [vx vy vz]. rl. }
    destruct X as (f & B & X). exact (rel_val _ _ _ _ X). }
  unfold sameSide. cbv zeta. pose proof (R d d' Hd) as Rd. pose proof (R p p' Hp) as Rp.
  rewrite (frel_le _ _ _ _ Rd frel_zero), (frel_le _ _ _ _ Rp frel_zero), (frel_le _ _ _ _ frel_zero Rd), (frel_le _ _ _ _ frel_zero Rp). reflexivity.
Qed.
Lemma tetra_rel a b c d p a' b' c' d' p' : vr 100000 a a' -> vr 100000 b b' -> vr 100000 c c' -> vr 100000 d d' -> vr 100000 p p' ->
  vectorInTetrahedron a b c d p = vectorInTetrahedron a' b' c' d' p'.
Proof.
  intros Ha Hb Hc Hd Hp. unfold vectorInTetrahedron.
  rewrite (sameSide_rel _ _ _ _ _ _ _ _ _ _ Ha Hb Hc Hd Hp), (sameSide_rel _ _ _ _ _ _ _ _ _ _ Hb Hc Hd Ha Hp),
    (sameSide_rel _ _ _ _ _ _ _ _ _ _ Hc Hd Ha Hb Hp), (sameSide_rel _ _ _ _ _ _ _ _ _ _ Hd Ha Hb Hc Hp). reflexivity.
Qed.
Notation cube D v := (fin3 v /\ in_cube e ox oy oz D (rvec v)).
Lemma tetra_grid a b c d p : Forall (fun v => cube 100000 v) [a; b; c; d; p] ->
  vectorInTetrahedron a b c d p = vectorInTetrahedron (fv (rvec a)) (fv (rvec b)) (fv (rvec c)) (fv (rvec d)) (fv (rvec p)).
Proof.
  intros H. rewrite Forall_forall in H.
  assert (V : forall v, In v [a; b; c; d; p] -> vr 100000 v (fv (rvec v))) by (intros v Hv; destruct (H v Hv); apply vrel_cube; assumption).
  apply tetra_rel; apply V; simpl; tauto.
Qed.

(** Get2Ddist and Get3Ddist *)
Lemma get2_rel a b c a' b' c' : vr 5000 a a' -> vr 5000 b b' -> vr 5000 c c' -> frel (Get2Ddist a b c) (Get2Ddist a' b' c').
Proof.
  intros Ha Hb Hc. pose proof (proj1 G) as He. assert (D : 0 <= 5000 <= 2 ^ 20) by lia.
  destruct (subs _ _ _ _ _ D Hb Ha) as (B1 & B2 & B3). destruct (subs _ _ _ _ _ D Hc Ha) as (C1 & C2 & C3).
  assert (X : exists f B, rel (Get2Ddist a b c) (Get2Ddist a' b' c') f B).
  { do 2 eexists. unfold Get2Ddist. cbv zeta. rl. }
  destruct X as (f & B & X). exact (rel_val _ _ _ _ X).
Qed.
Lemma get3_rel a b c d a' b' c' d' : vr 100000 a a' -> vr 100000 b b' -> vr 100000 c c' -> vr 100000 d d' -> frel (Get3Ddist a b c d) (Get3Ddist a' b' c' d').
Proof.
  intros Ha Hb Hc Hd. pose proof (proj1 G) as He. assert (D : 0 <= 100000 <= 2 ^ 20) by lia.
  destruct (subs _ _ _ _ _ D Hb Ha) as (B1 & B2 & B3). destruct (subs _ _ _ _ _ D Hc Ha) as (C1 & C2 & C3). destruct (subs _ _ _ _ _ D Hd Ha) as (D1 & D2 & D3).
  assert (X : exists f B, rel (Get3Ddist a b c d) (Get3Ddist a' b' c' d') f B).
  { do 2 eexists. unfold Get3Ddist. cbv zeta. rl. }
  destruct X as (f & B & X). exact (rel_val _ _ _ _ X).
Qed.
Lemma get2_grid a b c : Forall (fun v => cube 5000 v) [a; b; c] -> let r : b64 := Get2Ddist a b c in
  is_finite r = true /\ B2R r = area2 (rvec a) (rvec b) (rvec c).
Proof.
  intros H r. rewrite Forall_forall in H.
  assert (V : forall v, In v [a; b; c] -> vr 5000 v (fv (rvec v))) by (intros v Hv; destruct (H v Hv); apply vrel_cube; assumption).
  destruct (get2_rel a b c _ _ _ (V a ltac:(simpl; tauto)) (V b ltac:(simpl; tauto)) (V c ltac:(simpl; tauto))) as [F E]. split; [exact F|].
  rewrite Get2Ddist_fv in E. apply Fin_inj in E. symmetry. exact E.
Qed.
Lemma get3_grid a b c d : Forall (fun v => cube 100000 v) [a; b; c; d] -> let r : b64 := Get3Ddist a b c d in
  is_finite r = true /\ B2R r = vol (rvec a) (rvec b) (rvec c) (rvec d).
Proof.
  intros H r. rewrite Forall_forall in H.
  assert (V : forall v, In v [a; b; c; d] -> vr 100000 v (fv (rvec v))) by (intros v Hv; destruct (H v Hv); apply vrel_cube; assumption).
  destruct (get3_rel a b c d _ _ _ _ (V a ltac:(simpl; tauto)) (V b ltac:(simpl; tauto)) (V c ltac:(simpl; tauto)) (V d ltac:(simpl; tauto))) as [F E]. split; [exact F|].
  rewrite Get3Ddist_fv in E. apply Fin_inj in E. symmetry. exact E.
Qed.

(** createInitialTetra; the origin, its default vector, is a point of the cube *)
Hypothesis E70 : e <= 70.
Hypothesis Ox : -5000 <= ox <= 0.
Hypothesis Oy : -5000 <= oy <= 0.
Hypothesis Oz : -5000 <= oz <= 0.
Lemma frel_max32 : frel (@MaxFloat32 B64) (@MaxFloat32 XR).
Proof. split; [vm_compute; reflexivity|]. unfold MaxFloat32 at 1. cbn [fofQ XR]. rewrite Q2R_maxfloat32. change (B2R (@MaxFloat32 B64 : b64)) with (bR (@MaxFloat32 B64)). rewrite bR_max32. reflexivity. Qed.
Lemma frel_negmax32 : frel (@negMaxFloat32 B64) (@negMaxFloat32 XR).
Proof. split; [vm_compute; reflexivity|]. unfold negMaxFloat32 at 1. cbn [fofQ XR]. rewrite Q2R_negmaxfloat32. change (B2R (@negMaxFloat32 B64 : b64)) with (bR (@negMaxFloat32 B64)). rewrite bR_negmax32. reflexivity. Qed.
Lemma crel_small32 x w : crel e ox 5000 x w -> flt B64 x MaxFloat32 = true /\ flt B64 negMaxFloat32 x = true.
Proof.
  intros H. rewrite (frel_lt _ _ _ _ (crel_frel _ _ _ _ _ H) frel_max32), (frel_lt _ _ _ _ frel_negmax32 (crel_frel _ _ _ _ _ H)).
  destruct H as (k & (F & E) & K & ->). unfold MaxFloat32, negMaxFloat32. cbn [fofQ XR]. rewrite Q2R_maxfloat32, Q2R_negmaxfloat32. cbn [flt XR xltb]. rewrite E.
  assert (A : (Rabs (bp e * IZR k) <= bp 90)%R).
  { rewrite Rabs_mult, (Rabs_pos_eq (bp e)) by apply bpow_ge_0. rewrite <- abs_IZR.
    apply Rle_trans with (bp e * bp 20)%R.
    - apply Rmult_le_compat_l; [apply bpow_ge_0|]. change (bp 20) with (IZR (2 ^ 20)). apply IZR_le. lia.
    - rewrite <- bpow_plus. apply bpow_le. lia. }
  assert (M : (bp 90 < maxfloat32)%R).
  { rewrite <- Q2R_maxfloat32. unfold Q2R, MaxFloat32Q, inject_Z. cbn [Qnum Qden]. rewrite Rinv_1, Rmult_1_r. change (bp 90) with (IZR (2 ^ 90)). apply IZR_lt. vm_compute. reflexivity. }
  apply Rabs_le_inv in A. destruct (Rltb_spec (bp e * IZR k) maxfloat32) as [L|L], (Rltb_spec (- maxfloat32) (bp e * IZR k)) as [L'|L']; try (split; reflexivity); exfalso; lra.
Qed.
Lemma extremities_fold l l' a b a' b' : Forall2 (vr 5000) l l' -> vr 5000 a a' -> vr 5000 b b' ->
  let r := fold_left extremitiesStep l (a, b) in let r' := fold_left extremitiesStep l' (a', b') in vr 5000 (fst r) (fst r') /\ vr 5000 (snd r) (snd r').
Proof.
  intros F. revert a b a' b'. induction F as [|p p' l l' H F IH]; intros a b a' b' Ha Hb; [split; assumption|]. cbn [fold_left].
  unfold extremitiesStep at 2 4 6 8.
  rewrite (frel_lt _ _ _ _ (crel_frel _ _ _ _ _ (proj1 H)) (crel_frel _ _ _ _ _ (proj1 Ha))), (frel_lt _ _ _ _ (crel_frel _ _ _ _ _ (proj1 Hb)) (crel_frel _ _ _ _ _ (proj1 H))).
  apply IH; [destruct (flt XR (vx p') (vx a'))|destruct (flt XR (vx b') (vx p'))]; assumption.
Qed.
Lemma extremities_rel l l' : Forall2 (vr 5000) l l' -> l <> [] ->
  let r := computeExtremitiesForAxeX l in let r' := computeExtremitiesForAxeX l' in vr 5000 (fst r) (fst r') /\ vr 5000 (snd r) (snd r').
Proof.
  intros F N. destruct F as [|p p' l l' H F]; [congruence|]. unfold computeExtremitiesForAxeX. cbn [fold_left]. unfold extremitiesStep at 2 4 6 8, minStart, maxStart. cbn [vx].
  rewrite <- (frel_lt _ _ _ _ (crel_frel _ _ _ _ _ (proj1 H)) frel_max32), <- (frel_lt _ _ _ _ frel_negmax32 (crel_frel _ _ _ _ _ (proj1 H))).
  destruct (crel_small32 _ _ (proj1 H)) as [-> ->]. apply extremities_fold; assumption.
Qed.
Lemma zero_rel D : 5000 <= D -> vr D Zero Zero.
Proof.
  intros HD. assert (Z : forall o, -5000 <= o <= 0 -> crel e o D (fofZ B64 0) (fofZ XR 0)).
  { intros o Ho. exists 0. split; [split; [reflexivity|change (B2R (fofZ B64 0 : b64)) with 0%R; lra]|]. split; [lia|]. cbn [fofZ XR B64]. change (B2R (b64_of_Z 0)) with 0%R. reflexivity. }
  split; [|split]; apply Z; assumption.
Qed.
Lemma furthest2_rel l l' a b a' b' : Forall2 (vr 5000) l l' -> vr 5000 a a' -> vr 5000 b b' -> vr 5000 (getFurthestFromTwoVectors l a b) (getFurthestFromTwoVectors l' a' b').
Proof.
  intros F Ha Hb. unfold getFurthestFromTwoVectors.
  assert (X : forall s s', frel (fst s) (fst s') -> vr 5000 (snd s) (snd s') -> let r := fold_left (furthest2Step a b) l s in let r' := fold_left (furthest2Step a' b') l' s' in vr 5000 (snd r) (snd r')).
  { induction F as [|p p' l l' H F IH]; intros s s' H1 H2; [assumption|]. cbn [fold_left]. 
    change (furthest2Step a b s p) with (if flt B64 (fst s) (Get2Ddist a b p) then (Get2Ddist a b p, p) else s).
    change (furthest2Step a' b' s' p') with (if flt XR (fst s') (Get2Ddist a' b' p') then (Get2Ddist a' b' p', p') else s').
    pose proof (get2_rel _ _ _ _ _ _ Ha Hb H) as Q. rewrite (frel_lt _ _ _ _ H1 Q). destruct (flt XR (fst s') (Get2Ddist a' b' p')); apply IH; assumption. }
  apply X; [exact frel_zero|]. apply zero_rel. lia.
Qed.
Lemma furthest3_rel l l' a b c a' b' c' : Forall2 (vr 5000) l l' -> vr 5000 a a' -> vr 5000 b b' -> vr 5000 c c' ->
  vr 5000 (getFurthestFromthreeVectors l a b c) (getFurthestFromthreeVectors l' a' b' c').
Proof.
  intros F Ha Hb Hc. unfold getFurthestFromthreeVectors.
  assert (X : forall s s', frel (fst s) (fst s') -> vr 5000 (snd s) (snd s') -> let r := fold_left (furthest3Step a b c) l s in let r' := fold_left (furthest3Step a' b' c') l' s' in vr 5000 (snd r) (snd r')).
  { induction F as [|p p' l l' H F IH]; intros s s' H1 H2; [assumption|]. cbn [fold_left]. 
    change (furthest3Step a b c s p) with (if flt B64 (Get3Ddist a b c p) (fst s) then (Get3Ddist a b c p, p) else s).
    change (furthest3Step a' b' c' s' p') with (if flt XR (Get3Ddist a' b' c' p') (fst s') then (Get3Ddist a' b' c' p', p') else s').
    assert (W : forall q q', vr 5000 q q' -> vr 100000 q q') by (intros q q'; apply vrel_weaken; lia).
    pose proof (get3_rel _ _ _ _ _ _ _ _ (W _ _ Ha) (W _ _ Hb) (W _ _ Hc) (W _ _ H)) as Q. rewrite (frel_lt _ _ _ _ Q H1). destruct (flt XR (Get3Ddist a' b' c' p') (fst s')); apply IH; assumption. }
  apply X; [exact frel_zero|]. apply zero_rel. lia.
Qed.
Lemma createInitial_rel l l' : Forall2 (vr 5000) l l' -> l <> [] -> Forall2 (vr 5000) (createInitialTetra l) (createInitialTetra l').
Proof.
  intros F N. unfold createInitialTetra. pose proof (extremities_rel l l' F N) as [A B]. cbv zeta in A, B.
  destruct (computeExtremitiesForAxeX l) as [a b], (computeExtremitiesForAxeX l') as [a' b']. cbn [fst snd] in *.
  pose proof (furthest2_rel _ _ _ _ _ _ F A B) as C. pose proof (furthest3_rel _ _ _ _ _ _ _ _ F A B C) as D.
  repeat (constructor; [assumption|]). constructor.
Qed.
Lemma createInitial_grid points : points <> [] -> Forall (fun v => cube 5000 v) points ->
  createInitialTetra (exactly points) = exactly (createInitialTetra points) /\ Forall (fun v => fin3 v) (createInitialTetra points).
Proof.
  intros N H. pose proof (createInitial_rel points (exactly points) (exactly_rel e ox oy oz _ _ H) N) as F.
  induction F as [|p p' l l' Hp F IH]; [split; [reflexivity|constructor]|]. destruct IH as [IH1 IH2].
  destruct (vrel_val _ _ _ _ _ _ _ Hp) as [F3 ->]. split; [|constructor; assumption]. unfold exactly in *. cbn [map]. f_equal. assumption.
Qed.
End Grid.
