(** Property theorem C168: createInitialTetra of package triangulate3 in float64, for all inputs in range. *)
From Coq Require Import Reals Qreals Lra Lia ZArith Bool List.
From Flocq Require Import Core BinarySingleNaN.
From Verif Require Import Base Arith M_r3 M_tri3 Spec_r3 Spec_sphere Spec_mesh Spec_tri3 Spec_acc64 Spec_init3 XRvec P_predicates P_insphere_err P_insphere_b64 P_meshgeom P_tri3 P_acc64 Props_acc64 Props_tri3.
Import ListNotations.
Open Scope R_scope.

(** tame, and less than MaxFloat32 *)
Definition short (v : vec B64) : Prop := tame_vec v /\ Rabs (bR (vx v)) < maxfloat32.
Lemma short_fin v : short v -> bfin (vx v). Proof. intros (((F & _) & _) & _). exact F. Qed.
(* the extreme points, kept whole *)
Lemma extremes_inv (l : list (vec B64)) : (forall p, In p l -> short p) -> forall mn mx,
  bfin (vx mn) -> bfin (vx mx) -> let '(a, b) := fold_left extremitiesStep l (mn, mx) in
  bfin (vx a) /\ bfin (vx b) /\ (a = mn \/ In a l) /\ (b = mx \/ In b l) /\ bR (vx a) <= bR (vx mn) /\ bR (vx mx) <= bR (vx b) /\
  (forall p, In p l -> bR (vx a) <= bR (vx p) <= bR (vx b)).
Proof.
  induction l as [|v l IH]; intros H mn mx Fn Fx; cbn [fold_left].
  - split; [exact Fn|]. split; [exact Fx|]. split; [left; reflexivity|]. split; [left; reflexivity|]. split; [lra|]. split; [lra|]. intros p [].
  - unfold extremitiesStep at 2. assert (Fv : bfin (vx v)) by (apply short_fin, H; left; reflexivity).
    rewrite (flt_bR _ _ Fv Fn), (flt_bR _ _ Fx Fv).
    specialize (IH (fun p Hp => H p (or_intror Hp)) (if Rltb (bR (vx v)) (bR (vx mn)) then v else mn) (if Rltb (bR (vx mx)) (bR (vx v)) then v else mx)).
    destruct (Rltb_spec (bR (vx v)) (bR (vx mn))) as [L1|L1]; destruct (Rltb_spec (bR (vx mx)) (bR (vx v))) as [L2|L2];
      [specialize (IH Fv Fv)|specialize (IH Fv Fx)|specialize (IH Fn Fv)|specialize (IH Fn Fx)];
      destruct (fold_left extremitiesStep l _) as [a b]; destruct IH as (I1 & I2 & I3 & I4 & I5 & I6 & I7);
      (split; [exact I1|]; split; [exact I2|]; split; [simpl; destruct I3 as [->|I3]; auto|]; split; [simpl; destruct I4 as [->|I4]; auto|]; split; [lra|]; split; [lra|]);
      intros p [<-|Hp]; try (apply I7, Hp); lra.
Qed.
Lemma extremes (l : list (vec B64)) : l <> [] -> (forall p, In p l -> short p) -> exists a b, computeExtremitiesForAxeX l = (a, b) /\
  In a l /\ In b l /\ forall p, In p l -> bR (vx a) <= bR (vx p) <= bR (vx b).
Proof.
  intros N H. unfold computeExtremitiesForAxeX.
  assert (Fn : bfin (vx (@minStart B64))) by (vm_compute; reflexivity). assert (Fx : bfin (vx (@maxStart B64))) by (vm_compute; reflexivity).
  pose proof (extremes_inv l H minStart maxStart Fn Fx) as I. destruct (fold_left extremitiesStep l (minStart, maxStart)) as [a b].
  destruct I as (_ & _ & A & B & _ & _ & I). exists a, b. split; [reflexivity|].
  destruct l as [|p l]; [congruence|]. pose proof (proj2 (H p (or_introl eq_refl))) as S. specialize (I p (or_introl eq_refl)) as Ip. apply Rabs_lt_inv in S.
  split; [|split; [|exact I]].
  - destruct A as [->|A]; [|exact A]. exfalso. change (vx (@minStart B64)) with (@MaxFloat32 B64) in Ip. rewrite bR_max32 in Ip. lra.
  - destruct B as [->|B]; [|exact B]. exfalso. change (vx (@maxStart B64)) with (@negMaxFloat32 B64) in Ip. rewrite bR_negmax32 in Ip. lra.
Qed.
(* a fold that keeps the greatest value of f, by a sign *)
Lemma fold_best (step : B64 * vec B64 -> vec B64 -> B64 * vec B64) (f : vec B64 -> B64) (sg : R) (l : list (vec B64)) :
  (forall p, In p l -> bfin (f p)) ->
  (forall s v, bfin (fst s) -> bfin (f v) -> step s v = if Rltb (sg * bR (fst s)) (sg * bR (f v)) then (f v, v) else s) ->
  forall s, bfin (fst s) -> let r := fold_left step l s in
  bfin (fst r) /\ (r = s \/ (In (snd r) l /\ fst r = f (snd r) /\ sg * bR (fst s) < sg * bR (fst r))) /\ sg * bR (fst s) <= sg * bR (fst r) /\
  (forall p, In p l -> sg * bR (f p) <= sg * bR (fst r)).
Proof.
  intros F HS. revert F. induction l as [|v l IH]; intros F s Fs; cbn [fold_left].
  - split; [exact Fs|]. split; [left; reflexivity|]. split; [lra|]. intros p [].
  - assert (Fv : bfin (f v)) by (apply F; left; reflexivity). rewrite (HS s v Fs Fv).
    specialize (IH (fun p Hp => F p (or_intror Hp))). destruct (Rltb_spec (sg * bR (fst s)) (sg * bR (f v))) as [L|L].
    + destruct (IH (f v, v) Fv) as (I1 & I2 & I3 & I4). cbn [fst snd] in *. split; [exact I1|]. split; [|split; [lra|intros p [<-|Hp]; [exact I3|exact (I4 p Hp)]]].
      right. destruct I2 as [E|(I2 & I2' & I2'')]; [rewrite E; cbn [fst snd]; split; [left; reflexivity|]; split; [reflexivity|lra]|]. split; [right; exact I2|]. split; [exact I2'|lra].
    + destruct (IH s Fs) as (I1 & I2 & I3 & I4). split; [exact I1|]. split; [|split; [lra|intros p [<-|Hp]; [lra|exact (I4 p Hp)]]].
      destruct I2 as [E|(I2 & I2')]; [left; exact E|right]. split; [right; exact I2|exact I2'].
Qed.
Lemma furthest2 (l : list (vec B64)) a b : tame_vec a -> tame_vec b -> (forall p, In p l -> tame_vec p) ->
  let w := getFurthestFromTwoVectors l a b in
  (In w l \/ w = Zero) /\ near_greatest (area_sq (rvec a) (rvec b)) (area_sq_err (rvec a) (rvec b)) (map rvec l) (rvec w).
Proof.
  intros Ta Tb T w. unfold w, getFurthestFromTwoVectors. clear w.
  assert (AC : forall p, In p l -> is_finite (Get2Ddist a b p : b64) = true /\ Rabs (B2R (Get2Ddist a b p : b64) - area_sq (rvec a) (rvec b) (rvec p)) <= area_sq_err (rvec a) (rvec b) (rvec p)).
  { intros p Hp. exact (acc_bound _ _ _ _ _ _ (get2d_acc a b p Ta Tb (T p Hp))). }
  destruct (fold_best (furthest2Step a b) (Get2Ddist a b) 1 l) with (s := (fofZ B64 0, @Zero B64)) as (_ & I2 & I3 & I4).
  - intros p Hp. exact (proj1 (AC p Hp)).
  - intros [m u] v Fs Fv. unfold furthest2Step. cbn [fst snd] in *. rewrite (flt_bR _ _ Fs Fv), !Rmult_1_l. reflexivity.
  - reflexivity.
  - cbn [fst snd] in *. change (bR (fofZ B64 0)) with 0 in *. rewrite ?Rmult_1_l in *. destruct (fold_left (furthest2Step a b) l (fofZ B64 0, Zero)) as [m w]. cbn [fst snd] in *.
    destruct I2 as [E|(Hw & -> & I2)].
    + assert (Em : m = fofZ B64 0) by congruence. assert (Ew : w = Zero) by congruence. subst m w. clear E. split; [right; reflexivity|]. right. split; [reflexivity|]. intros q Hq. apply in_map_iff in Hq. destruct Hq as (p & <- & Hp).
      destruct (AC p Hp) as (_ & B). specialize (I4 p Hp). change (bR (fofZ B64 0)) with 0 in I4. apply Rabs_le_inv in B. unfold bR in I4. lra.
    + split; [left; exact Hw|]. left. split; [apply in_map, Hw|]. destruct (AC w Hw) as (_ & Bw). apply Rabs_le_inv in Bw. unfold bR in *. split; [lra|].
      intros q Hq. apply in_map_iff in Hq. destruct Hq as (p & <- & Hp). destruct (AC p Hp) as (_ & B). specialize (I4 p Hp). apply Rabs_le_inv in B. lra.
Qed.
Lemma furthest3 (l : list (vec B64)) a b c : tame_vec a -> tame_vec b -> tame_vec c -> (forall p, In p l -> tame_vec p) ->
  let w := getFurthestFromthreeVectors l a b c in
  (In w l \/ w = Zero) /\ near_greatest (fun q => - volume6 (rvec a) (rvec b) (rvec c) q) (volume6_err (rvec a) (rvec b) (rvec c)) (map rvec l) (rvec w).
Proof.
  intros Ta Tb Tc T w. unfold w, getFurthestFromthreeVectors. clear w.
  assert (AC : forall p, In p l -> is_finite (Get3Ddist a b c p : b64) = true /\ Rabs (B2R (Get3Ddist a b c p : b64) - volume6 (rvec a) (rvec b) (rvec c) (rvec p)) <= volume6_err (rvec a) (rvec b) (rvec c) (rvec p)).
  { intros p Hp. exact (acc_bound _ _ _ _ _ _ (get3d_acc a b c p Ta Tb Tc (T p Hp))). }
  destruct (fold_best (furthest3Step a b c) (Get3Ddist a b c) (-1) l) with (s := (fofZ B64 0, @Zero B64)) as (_ & I2 & I3 & I4).
  - intros p Hp. exact (proj1 (AC p Hp)).
  - intros [m u] v Fs Fv. unfold furthest3Step. cbn [fst snd] in *. rewrite (flt_bR _ _ Fv Fs).
    destruct (Rltb_spec (bR (Get3Ddist a b c v)) (bR m)) as [L|L], (Rltb_spec (-1 * bR m) (-1 * bR (Get3Ddist a b c v))) as [L'|L']; try reflexivity; exfalso; lra.
  - reflexivity.
  - cbn [fst snd] in *. change (bR (fofZ B64 0)) with 0 in *. destruct (fold_left (furthest3Step a b c) l (fofZ B64 0, Zero)) as [m w]. cbn [fst snd] in *.
    destruct I2 as [E|(Hw & -> & I2)].
    + assert (Em : m = fofZ B64 0) by congruence. assert (Ew : w = Zero) by congruence. subst m w. clear E. split; [right; reflexivity|]. right. split; [reflexivity|]. intros q Hq. apply in_map_iff in Hq. destruct Hq as (p & <- & Hp).
      destruct (AC p Hp) as (_ & B). specialize (I4 p Hp). change (bR (fofZ B64 0)) with 0 in I4. apply Rabs_le_inv in B. unfold bR in I4. lra.
    + split; [left; exact Hw|]. left. split; [apply in_map, Hw|]. destruct (AC w Hw) as (_ & Bw). apply Rabs_le_inv in Bw. unfold bR in *. split; [lra|].
      intros q Hq. apply in_map_iff in Hq. destruct Hq as (p & <- & Hp). destruct (AC p Hp) as (_ & B). specialize (I4 p Hp). apply Rabs_le_inv in B. lra.
Qed.

(** C168 *)
Theorem C168_choice (points : list (vec B64)) : points <> [] -> Forall short points ->
  exists v0 v1 v2 v3, createInitialTetra points = [v0; v1; v2; v3] /\
    In v0 points /\ In v1 points /\ (In v2 points \/ v2 = Zero) /\ (In v3 points \/ v3 = Zero) /\
    let l := map rvec points in let a := rvec v0 in let b := rvec v1 in let c := rvec v2 in let d := rvec v3 in
    is_least rx l (rx a) /\ is_greatest rx l (rx b) /\
    near_greatest (area_sq a b) (area_sq_err a b) l c /\
    near_greatest (fun q => - volume6 a b c q) (volume6_err a b c) l d.
Proof.
  intros N H. rewrite Forall_forall in H. destruct (extremes points N H) as (v0 & v1 & E & I0 & I1 & B).
  assert (T : forall p, In p points -> tame_vec p) by (intros p Hp; exact (proj1 (H p Hp))).
  destruct (furthest2 points v0 v1 (T _ I0) (T _ I1) T) as (I2 & G2). set (v2 := getFurthestFromTwoVectors points v0 v1) in *.
  assert (T2 : tame_vec v2).
  { destruct I2 as [I2| ->]; [apply T, I2|]. assert (Z : tame (fofZ B64 0)); [|split; [|split]; exact Z]. split; [reflexivity|]. split; [exists 0%Z; simpl; ring|]. replace (B2R (fofZ B64 0 : b64)) with 0 by reflexivity. rewrite Rabs_R0. apply bpow_ge_0. }
  destruct (furthest3 points v0 v1 v2 (T _ I0) (T _ I1) T2 T) as (I3 & G3). set (v3 := getFurthestFromthreeVectors points v0 v1 v2) in *.
  exists v0, v1, v2, v3. split; [unfold createInitialTetra; rewrite E; reflexivity|]. split; [exact I0|]. split; [exact I1|]. split; [exact I2|]. split; [exact I3|].
  cbv zeta. split; [|split; [|split; [exact G2|exact G3]]].
  - split; [exists (rvec v0); split; [apply in_map, I0|reflexivity]|]. intros q Hq. apply in_map_iff in Hq. destruct Hq as (p & <- & Hp). exact (proj1 (B p Hp)).
  - split; [exists (rvec v1); split; [apply in_map, I1|reflexivity]|]. intros q Hq. apply in_map_iff in Hq. destruct Hq as (p & <- & Hp). exact (proj2 (B p Hp)).
Qed.
Print Assumptions C168_choice.
(* a clear winner is chosen *)
Lemma clear_winner val err l w q : near_greatest val err l w -> In q l -> err q < val q ->
  (forall p, In p l -> p = q \/ val p + (err p + err q) < val q) -> w = q.
Proof.
  intros [(I & _ & G)|(_ & G)] Hq P D.
  - destruct (D w I) as [E|E]; [exact E|]. specialize (G q Hq). lra.
  - specialize (G q Hq). lra.
Qed.
Theorem C168_clear (points : list (vec B64)) c d : points <> [] -> Forall short points ->
  let l := map rvec points in In c l -> In d l ->
  (forall a b, In a l -> In b l -> is_least rx l (rx a) -> is_greatest rx l (rx b) ->
    (area_sq_err a b c < area_sq a b c /\ forall p, In p l -> p = c \/ area_sq a b p + (area_sq_err a b p + area_sq_err a b c) < area_sq a b c) /\
    (volume6_err a b c d < - volume6 a b c d /\ forall p, In p l -> p = d \/ - volume6 a b c p + (volume6_err a b c p + volume6_err a b c d) < - volume6 a b c d)) ->
  exists v0 v1 v2 v3, createInitialTetra points = [v0; v1; v2; v3] /\ rvec v2 = c /\ rvec v3 = d /\ ~ coplanar (rvec v0) (rvec v1) (rvec v2) (rvec v3).
Proof.
  intros N H l Ic Id D. destruct (C168_choice points N H) as (v0 & v1 & v2 & v3 & E & I0 & I1 & _ & _ & K). cbv zeta in K. fold l in K. destruct K as (X0 & X1 & G2 & G3).
  destruct (D (rvec v0) (rvec v1) (in_map rvec _ _ I0) (in_map rvec _ _ I1) X0 X1) as ((P2 & D2) & P3 & D3).
  assert (E2 : rvec v2 = c) by (eapply clear_winner; eassumption). rewrite E2 in G3.
  assert (E3 : rvec v3 = d) by (eapply (clear_winner (fun q => - volume6 (rvec v0) (rvec v1) c q)); eassumption).
  exists v0, v1, v2, v3. split; [exact E|]. split; [exact E2|]. split; [exact E3|]. rewrite E2, E3. intros Q. apply vol_zero in Q. unfold vol in Q.
  assert (0 <= volume6_err (rvec v0) (rvec v1) c d).
  { unfold volume6_err. apply Rmult_le_pos; [unfold gamma; pose proof (g1 8); unfold u53 in *; lra|]. unfold perm3. repeat first [apply Rabs_pos | apply Rplus_le_le_0_compat | apply Rmult_le_pos]. }
  unfold volume6 in P3. lra.
Qed.
Print Assumptions C168_clear.
(* the four points of C46_nonvacuous, far apart, and the vertices chosen *)
Definition ex168 : list (vec B64) := [iv 1000003 1 1; iv 5000011 1 1; iv 2000003 9000011 1; iv 2000029 2000003 (-3000017); iv 2000003 2 0].
Example C168_nonvacuous : ex168 <> [] /\ Forall short ex168 /\
  map vsf (createInitialTetra ex168) = map vsf [iv 1000003 1 1; iv 5000011 1 1; iv 2000003 9000011 1; iv 2000029 2000003 (-3000017)].
Proof.
  split; [discriminate|]. split; [|vm_compute; reflexivity].
  assert (M : IZR (2 ^ 30) < maxfloat32) by (rewrite <- Q2R_maxfloat32; unfold Q2R, MaxFloat32Q, QArith_base.inject_Z; cbn [QArith_base.Qnum QArith_base.Qden]; rewrite Rinv_1, Rmult_1_r; apply IZR_lt; vm_compute; reflexivity).
  assert (S : forall x y z, (Z.abs x <= 2 ^ 30)%Z -> (tame_chk (fofZ B64 x) && tame_chk (fofZ B64 y) && tame_chk (fofZ B64 z))%bool = true -> short (iv x y z)).
  { intros x y z Hx HT. rewrite !andb_true_iff in HT. split; [split; [|split]; apply tame_chk_ok; tauto|].
    unfold iv. cbn [vx]. replace (bR (fofZ B64 x)) with (IZR x); [rewrite <- abs_IZR; eapply Rle_lt_trans; [apply IZR_le, Hx|exact M]|]. symmetry. apply bR_ofZ. eapply Z.le_lt_trans; [exact Hx|reflexivity]. }
  repeat apply Forall_cons; try apply Forall_nil; apply S; first [vm_compute; discriminate | vm_compute; reflexivity].
Qed.
