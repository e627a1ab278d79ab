(** Packages mesh and triangulate3 in float64 away from degenerate positions (C165-C167). *)
From Coq Require Import Reals Lra Lia ZArith Bool List Permutation.
From Flocq Require Import Core BinarySingleNaN.
From Verif Require Import Base Arith M_r3 M_predicates M_tri3 GoMap M_meshing Spec_r3 Spec_sphere Spec_mesh Spec_acc64 Spec_bw Spec_grid3 Spec_clear3 XRvec
  P_predicates P_insphere_err P_insphere_b64 P_meshing P_meshorder P_meshgeom P_acc64 P_clearhull P_cleartri P_bw P_b64grid3.
Import ListNotations.
Notation rel := P_insphere_b64.rel.
Open Scope R_scope.

(** ** the tetrahedron test *)
Lemma side_acc (a b c p : vec B64) : tame_vec a -> tame_vec b -> tame_vec c -> tame_vec p ->
  acc (Dot (Cross (Sub b a) (Sub c a)) (Sub p a)) (rdet3 (rsub (rvec b) (rvec a)) (rsub (rvec c) (rvec a)) (rsub (rvec p) (rvec a)))
    (perm3 (rsub (rvec b) (rvec a)) (rsub (rvec c) (rvec a)) (rsub (rvec p) (rvec a))) 8 540 606.
Proof.
  intros (Ax & Ay & Az) (Bx & By & Bz) (Cx & Cy & Cz) (Dx & Dy & Dz). unfold Dot, Cross, Sub. cbn [vx vy vz].
  pose proof (dif Bx Ax) as bx. pose proof (dif By Ay) as by'. pose proof (dif Bz Az) as bz.
  pose proof (dif Cx Ax) as cx. pose proof (dif Cy Ay) as cy. pose proof (dif Cz Az) as cz.
  pose proof (dif Dx Ax) as dx. pose proof (dif Dy Ay) as dy. pose proof (dif Dz Az) as dz.
  eapply acc_eq; [exact ((by' * cz - cy * bz) * dx + (bz * cx - cz * bx) * dy + (bx * cy - cx * by') * dz)%acc| | |reflexivity..];
    unfold rdet3, perm3, rsub; cbn [rx ry rz rvec]; ring.
Qed.
Lemma sameSide_clear (a b c d p : vec B64) : tame_vec a -> tame_vec b -> tame_vec c -> tame_vec d -> tame_vec p ->
  clear_side (rvec a) (rvec b) (rvec c) (rvec d) -> clear_side (rvec a) (rvec b) (rvec c) (rvec p) ->
  sameSide a b c d p = sameSide (fv (rvec a)) (fv (rvec b)) (fv (rvec c)) (fv (rvec d)) (fv (rvec p)).
Proof.
  intros Ha Hb Hc Hd Hp Cd Cp. pose proof (side_acc a b c d Ha Hb Hc Hd) as Qd. pose proof (side_acc a b c p Ha Hb Hc Hp) as Qp.
  destruct (acc_sign _ _ _ _ _ _ Qd Cd) as (Sd1 & Sd2). destruct (acc_sign _ _ _ _ _ _ Qp Cp) as (Sp1 & Sp2).
  apply eq_true_iff_eq. rewrite sameSide_fv. unfold sameSide. cbv zeta.
  destruct Qd as ((Fd & _) & _). destruct Qp as ((Fp & _) & _).
  unfold clear_side in Cd, Cp. unfold triple.
  set (x := Dot (Cross (Sub b a) (Sub c a)) (Sub d a)) in *. set (y := Dot (Cross (Sub b a) (Sub c a)) (Sub p a)) in *.
  set (D := rdet3 _ _ (rsub (rvec d) _)) in *. set (P := rdet3 _ _ (rsub (rvec p) _)) in *.
  assert (ND : D <> 0). { intros E. rewrite E, Rabs_R0 in Cd. pose proof (Rmult_le_pos (gamma 8) (perm3 (rsub (rvec b) (rvec a)) (rsub (rvec c) (rvec a)) (rsub (rvec d) (rvec a)))) as N. assert (0 <= gamma 8) by (unfold gamma; pose proof (g1 8); unfold u53 in *; lra). pose proof (acc_p _ _ _ _ _ _ (side_acc a b c d Ha Hb Hc Hd)). lra. }
  assert (NP : P <> 0). { intros E. rewrite E, Rabs_R0 in Cp. pose proof (Rmult_le_pos (gamma 8) (perm3 (rsub (rvec b) (rvec a)) (rsub (rvec c) (rvec a)) (rsub (rvec p) (rvec a)))) as N. assert (0 <= gamma 8) by (unfold gamma; pose proof (g1 8); unfold u53 in *; lra). pose proof (acc_p _ _ _ _ _ _ (side_acc a b c p Ha Hb Hc Hp)). lra. }
  assert (F0 : is_finite (fofZ B64 0 : b64) = true) by reflexivity. assert (Z0 : B2R (fofZ B64 0 : b64) = 0) by reflexivity.
  rewrite !fin_le by auto. rewrite Z0. clearbody x y D P.
  destruct (Rleb_spec (B2R x) 0); destruct (Rleb_spec (B2R y) 0); destruct (Rleb_spec 0 (B2R x)); destruct (Rleb_spec 0 (B2R y)); simpl;
    split; intros; try reflexivity; try discriminate.
  all: destruct (Rtotal_order D 0) as [?|[?|?]]; try contradiction; destruct (Rtotal_order P 0) as [?|[?|?]]; try contradiction;
    try (exfalso; intuition lra); try (apply Rmult_le_pos; lra); try (replace (D * P) with ((- D) * (- P)) by ring; apply Rmult_le_pos; lra).
  all: exfalso; assert (D * P < 0); [|lra].
  all: first [assert (0 < (- D) * P) by (apply Rmult_lt_0_compat; lra); lra | assert (0 < D * (- P)) by (apply Rmult_lt_0_compat; lra); lra].
Qed.
Lemma tetra_clear (a b c d p : vec B64) : Forall tame_vec [a; b; c; d; p] ->
  clear_tetra (rvec a) (rvec b) (rvec c) (rvec d) (rvec p) ->
  vectorInTetrahedron a b c d p = vectorInTetrahedron (fv (rvec a)) (fv (rvec b)) (fv (rvec c)) (fv (rvec d)) (fv (rvec p)).
Proof.
  intros H ((A1 & A2 & A3 & A4) & B1 & B2 & B3 & B4). rewrite Forall_forall in H.
  assert (Ha : tame_vec a) by (apply H; simpl; auto). assert (Hb : tame_vec b) by (apply H; simpl; auto). assert (Hc : tame_vec c) by (apply H; simpl; auto).
  assert (Hd : tame_vec d) by (apply H; simpl; auto). assert (Hp : tame_vec p) by (apply H; simpl; auto 6).
  unfold vectorInTetrahedron. rewrite !sameSide_clear by assumption. reflexivity.
Qed.
Lemma clear_side_volume (a b c d : rv) : clear_side a b c d -> signed_volume a b c d <> 0.
Proof.
  intros H E. rewrite sv_triple in E. unfold clear_side in H. unfold triple in E. replace (rdet3 (rsub b a) (rsub c a) (rsub d a)) with 0 in H by lra.
  rewrite Rabs_R0 in H. assert (0 <= gamma 8) by (unfold gamma; pose proof (g1 8); unfold u53 in *; lra).
  assert (0 <= perm3 (rsub b a) (rsub c a) (rsub d a)).
  { unfold perm3. repeat first [apply Rplus_le_le_0_compat | apply Rmult_le_pos | apply Rabs_pos]. }
  pose proof (Rmult_le_pos _ _ H0 H1). lra.
Qed.

(** ** the initial tetrahedron *)
(** tame, and at most 2^197 *)
Definition modest (v : vec B64) : Prop := tame_vec v /\ Rabs (B2R (vx v : b64)) <= bpow radix2 197 /\ Rabs (B2R (vy v : b64)) <= bpow radix2 197 /\ Rabs (B2R (vz v : b64)) <= bpow radix2 197.
Lemma fold_upd_in {A : Arith} (f : A -> A -> A) l : (forall m p, f m p = m \/ f m p = p) -> forall m, fold_left f l m = m \/ In (fold_left f l m) l.
Proof.
  intros Hf. induction l as [|x l IH]; intros m; [left; reflexivity|]. cbn [fold_left]. destruct (IH (f m x)) as [->|H]; [|right; right; exact H].
  destruct (Hf m x) as [->| ->]; [left; reflexivity|right; left; reflexivity].
Qed.
Lemma updMin_or {A : Arith} (m p : A) : updMin m p = m \/ updMin m p = p. Proof. unfold updMin. destruct (flt A p m); auto. Qed.
Lemma updMax_or {A : Arith} (m p : A) : updMax m p = m \/ updMax m p = p. Proof. unfold updMax. destruct (flt A m p); auto. Qed.
Lemma extrema_fin (points : list (vec B64)) (c : vec B64 -> B64) : (forall p, In p points -> bfin (c p)) ->
  bfin (fold_left updMin (map c points) MaxFloat64) /\ bfin (fold_left updMax (map c points) negMaxFloat64).
Proof.
  intros H. split.
  - destruct (fold_upd_in updMin (map c points) updMin_or MaxFloat64) as [->|I]; [vm_compute; reflexivity|]. apply in_map_iff in I. destruct I as (p & <- & Hp). auto.
  - destruct (fold_upd_in updMax (map c points) updMax_or negMaxFloat64) as [->|I]; [vm_compute; reflexivity|]. apply in_map_iff in I. destruct I as (p & <- & Hp). auto.
Qed.
(* one coordinate of the corners *)
Record coord (points : list (vec B64)) (c : vec B64 -> B64) (lo hi : B64) : Prop := {
  co_lo : tame lo; co_hi : tame hi;
  co_lo_in : exists p, In p points /\ B2R (lo : b64) = B2R (c p : b64);
  co_hi_in : exists p, In p points /\ B2R (hi : b64) = B2R (c p : b64);
  co_between : forall p, In p points -> B2R (lo : b64) <= B2R (c p : b64) <= B2R (hi : b64) }.
Lemma tame_of (x y : b64) : is_finite x = true -> B2R x = B2R y -> tame y -> tame x.
Proof. intros F E (_ & H1 & H2). split; [exact F|]. rewrite E. split; assumption. Qed.
Lemma corners (points : list (vec B64)) : points <> [] -> Forall modest points -> let h := findExtremas points in
  coord points vx (vx (hmin h)) (vx (hmax h)) /\ coord points vy (vy (hmin h)) (vy (hmax h)) /\ coord points vz (vz (hmin h)) (vz (hmax h)).
Proof.
  intros N H h. rewrite Forall_forall in H.
  assert (Fi : forall p, In p points -> bfin (vx p) /\ bfin (vy p) /\ bfin (vz p)).
  { intros p Hp. destruct (H p Hp) as (((F1 & _) & (F2 & _) & (F3 & _)) & _). split; [exact F1|]. split; [exact F2|exact F3]. }
  destruct (extremas_B64 points N Fi) as ((X1 & X2) & (Y1 & Y2) & (Z1 & Z2)).
  assert (FX := extrema_fin points vx (fun p Hp => proj1 (Fi p Hp))). assert (FY := extrema_fin points vy (fun p Hp => proj1 (proj2 (Fi p Hp)))).
  assert (FZ := extrema_fin points vz (fun p Hp => proj2 (proj2 (Fi p Hp)))).
  fold h in X1, X2, Y1, Y2, Z1, Z2.
  assert (E := findExtremas_folds points (mkhelper (mkvec (@MaxFloat64 B64) (@MaxFloat64 B64) (@MaxFloat64 B64)) (mkvec (@negMaxFloat64 B64) (@negMaxFloat64 B64) (@negMaxFloat64 B64)))).
  cbv zeta in E. fold (findExtremas points) in E. fold h in E. cbn [hmin hmax vx vy vz] in E.
  assert (G : forall (c : vec B64 -> B64) (lo hi : B64), bfin lo -> bfin hi -> (forall p, In p points -> tame (c p)) ->
    is_least (fun p => bR (c p)) points (bR lo) -> is_greatest (fun p => bR (c p)) points (bR hi) -> coord points c lo hi).
  { intros c lo hi F1 F2 T ((p & Hp & Ep) & L) ((q & Hq & Eq) & U). constructor.
    - apply (tame_of _ (c p)); [exact F1|symmetry; exact Ep|apply T, Hp].
    - apply (tame_of _ (c q)); [exact F2|symmetry; exact Eq|apply T, Hq].
    - exists p. split; [exact Hp|symmetry; exact Ep].
    - exists q. split; [exact Hq|symmetry; exact Eq].
    - intros v Hv. split; [apply L, Hv|apply U, Hv]. }
  rewrite E in *. cbn [hmin hmax vx vy vz] in *. clear E.
  split; [|split]; apply G; try tauto; intros p Hp; destruct (H p Hp) as ((T1 & T2 & T3) & _); assumption.
Qed.
Lemma acc_three : acc (fofZ B64 3) 3 3 0 0 2.
Proof.
  assert (E : B2R (fofZ B64 3 : b64) = 3) by (apply (bR_ofZ 3); reflexivity).
  split; [|split; [rewrite E, Rminus_eq_0, Rabs_R0; simpl; lra|rewrite Rabs_pos_eq; lra]]. rewrite E. split; [reflexivity|]. split; [exact E|]. split.
  - exists 3%Z. simpl. ring.
  - rewrite Rabs_pos_eq by lra. simpl. lra.
Qed.
Definition far64 (lo hi : B64) : B64 := fadd B64 lo (fmul B64 (fofZ B64 3) (fsub B64 hi lo)).
Lemma far_acc (lo hi : b64) : tame lo -> tame hi ->
  acc (far64 lo hi) (B2R lo + 3 * (B2R hi - B2R lo)) (Rabs (B2R lo) + 3 * Rabs (B2R hi - B2R lo)) 3 180 204.
Proof.
  intros L H. pose proof (acc_tame lo L) as l. pose proof (dif H L) as d. pose proof acc_three as t.
  eapply acc_eq; [exact (l + t * d)%acc|reflexivity..].
Qed.
Lemma gamma3 : gamma 3 <= 31 / 10 / 2 ^ 53.
Proof.
  assert (B : INR 3 * u53 <= 1) by (unfold u53; simpl INR; lra). pose proof (gamma_quad 3 B) as G. simpl INR in G. unfold u53 in G. lra.
Qed.
Lemma far_tame (lo hi : b64) : tame lo -> tame hi -> Rabs (B2R lo) <= bpow radix2 197 -> Rabs (B2R hi) <= bpow radix2 197 -> tame (far64 lo hi).
Proof.
  intros L H BL BH. pose proof (far_acc lo hi L H) as Q. pose proof (acc_f _ _ _ _ _ _ Q) as B. destruct Q as ((F & _ & G & _) & _ & _).
  split; [exact F|]. split; [exact G|]. eapply Rle_trans; [exact B|].
  assert (W : Rabs (B2R hi - B2R lo) <= 2 * bpow radix2 197).
  { replace (B2R hi - B2R lo) with (B2R hi + - B2R lo) by ring. eapply Rle_trans; [apply Rabs_triang|]. rewrite Rabs_Ropp. lra. }
  pose proof gamma3 as G3. unfold gamma in G3. replace (/ 2 ^ 53) with u53 in G3 by reflexivity.
  assert (G4 : g 3 <= 8 / 7) by lra. pose proof (bpow_gt_0 radix2 197) as P. assert (P8 : bpow radix2 200 = 8 * bpow radix2 197) by (change 200%Z with (3 + 197)%Z; rewrite bpow_plus; change (bpow radix2 3) with 8; reflexivity). rewrite P8.
  apply Rle_trans with (8 / 7 * (7 * bpow radix2 197)); [|lra]. apply Rmult_le_compat; try lra; [pose proof (g1 3); lra|]. pose proof (Rabs_pos (B2R lo)). pose proof (Rabs_pos (B2R hi - B2R lo)). lra.
Qed.
(* one coordinate of the containment *)
Lemma share lo hi far x M : lo <= x <= hi -> Rabs lo <= M -> Rabs hi <= M ->
  Rabs (far - (lo + 3 * (hi - lo))) <= gamma 3 * (Rabs lo + 3 * Rabs (hi - lo)) ->
  exists k, 0 <= k <= 1 / 3 /\ Rabs (x - (lo + k * (far - lo))) <= / 2 ^ 50 * M.
Proof.
  intros (L1 & L2) BL BH E. pose proof gamma3 as G3. assert (G0 : 0 <= gamma 3) by (unfold gamma; pose proof (g1 3); unfold u53 in *; lra).
  apply Rabs_le_inv in BL, BH. rewrite (Rabs_pos_eq (hi - lo)) in E by lra.
  assert (E' : Rabs (far - (lo + 3 * (hi - lo))) <= 3 / 2 ^ 50 * M).
  { eapply Rle_trans; [exact E|]. apply Rle_trans with (31 / 10 / 2 ^ 53 * (7 * M)); [|lra]. apply Rmult_le_compat; try lra; [pose proof (Rabs_pos lo); lra|].
    unfold Rabs. destruct (Rcase_abs lo); lra. }
  clear E. apply Rabs_le_inv in E'. destruct (Rle_dec far lo) as [C|C].
  - exists 0. split; [lra|]. apply Rabs_le. lra.
  - apply Rnot_le_lt in C. destruct (Rle_dec (3 * (x - lo)) (far - lo)) as [D|D].
    + exists ((x - lo) / (far - lo)). split.
      * split; [apply Rmult_le_pos; [lra|left; apply Rinv_0_lt_compat; lra]|]. apply Rmult_le_reg_r with (far - lo); [lra|]. unfold Rdiv at 1. rewrite Rmult_assoc, Rinv_l by lra. lra.
      * replace (x - (lo + (x - lo) / (far - lo) * (far - lo))) with 0 by (field; lra). rewrite Rabs_R0. apply Rmult_le_pos; lra.
    + exists (1 / 3). split; [lra|]. apply Rabs_le. lra.
Qed.
Lemma englobe_near (points : list (vec B64)) : points <> [] -> Forall modest points ->
  exists t p1 p2 p3 p4, englobe points = (t, p1 :: p2 :: p3 :: p4 :: points) /\ Forall tame_vec [p1; p2; p3; p4] /\
    forall M, all_below M (map rvec points) -> forall p, In p points -> exists q, within (/ 2 ^ 50 * M) (rvec p) q /\
      in_tetra (rvec p1) (rvec p2) (rvec p3) (rvec p4) q.
Proof.
  intros N H. destruct (corners points N H) as (CX & CY & CZ). rewrite Forall_forall in H. unfold englobe, computerInitialTetraPoints. cbv zeta.
  set (h := findExtremas points) in *. destruct h as [[lx ly lz] [hx hy hz]]. cbn [hmin hmax vx vy vz] in *.
  fold (far64 lx hx). fold (far64 ly hy). fold (far64 lz hz).
  destruct CX as [Tlx Thx (px & Ipx & Epx) (qx & Iqx & Eqx) Bx], CY as [Tly Thy (py & Ipy & Epy) (qy & Iqy & Eqy) By], CZ as [Tlz Thz (pz & Ipz & Epz) (qz & Iqz & Eqz) Bz].
  assert (Fx : tame (far64 lx hx)) by (apply far_tame; auto; [rewrite Epx; apply (H px)|rewrite Eqx; apply (H qx)]; assumption).
  assert (Fy : tame (far64 ly hy)) by (apply far_tame; auto; [rewrite Epy; apply (H py)|rewrite Eqy; apply (H qy)]; assumption).
  assert (Fz : tame (far64 lz hz)) by (apply far_tame; auto; [rewrite Epz; apply (H pz)|rewrite Eqz; apply (H qz)]; assumption).
  do 5 eexists. split; [reflexivity|]. split.
  - repeat apply Forall_cons; try apply Forall_nil; (split; [|split]); cbn [vx vy vz]; assumption.
  - intros M HM p Hp. assert (Bd : forall q, In q points -> Rabs (B2R (vx q : b64)) <= M /\ Rabs (B2R (vy q : b64)) <= M /\ Rabs (B2R (vz q : b64)) <= M) by (intros q Hq; apply (HM (rvec q)), in_map, Hq).
    assert (S : forall (lo hi : b64) x, tame lo -> tame hi -> B2R lo <= x <= B2R hi -> Rabs (B2R lo) <= M -> Rabs (B2R hi) <= M ->
      exists k, 0 <= k <= 1 / 3 /\ Rabs (x - (B2R lo + k * (B2R (far64 lo hi : b64) - B2R lo))) <= / 2 ^ 50 * M).
    { intros lo hi x T1 T2 L B1 B2. apply (share (B2R lo) (B2R hi)); auto. exact (proj2 (acc_bound _ _ _ _ _ _ (far_acc lo hi T1 T2))). }
    destruct (S lx hx _ Tlx Thx (Bx p Hp)) as (kx & Kx & Dx); [rewrite Epx; apply (Bd px Ipx)|rewrite Eqx; apply (Bd qx Iqx)|].
    destruct (S ly hy _ Tly Thy (By p Hp)) as (ky & Ky & Dy); [rewrite Epy; apply (Bd py Ipy)|rewrite Eqy; apply (Bd qy Iqy)|].
    destruct (S lz hz _ Tlz Thz (Bz p Hp)) as (kz & Kz & Dz); [rewrite Epz; apply (Bd pz Ipz)|rewrite Eqz; apply (Bd qz Iqz)|].
    clear S. exists (RV (B2R (lx : b64) + kx * (B2R (far64 lx hx : b64) - B2R (lx : b64))) (B2R (ly : b64) + ky * (B2R (far64 ly hy : b64) - B2R (ly : b64))) (B2R (lz : b64) + kz * (B2R (far64 lz hz : b64) - B2R (lz : b64)))).
    split; [split; [|split]; assumption|]. exists (1 - kx - ky - kz), kx, ky, kz. do 4 (split; [lra|]). split; [ring|].
    unfold combine4, radd, rscale, rvec. cbn [rx ry rz vx vy vz]. f_equal; ring.
Qed.

(** ** bowyerWatson *)
Definition good (m : Z) (q : quad) : Prop := let '(a, b, c, d) := q in four_of m a b c d.
Lemma bw_insert_good bad n (T T' : quad -> Prop) : (forall q, T q -> good n q) -> bw_insert bad n T T' -> (0 <= n)%Z -> forall q, T' q -> good (n + 1) q.
Proof.
  intros G B N [[[a b] c] d] H. apply B in H. destruct H as [(H & _)|(-> & ([[[x y] z] w] & (Hq & _) & I & _))].
  - apply G in H. unfold good, four_of in *. destruct H as (H & H2). split; [lia|exact H2].
  - apply G in Hq. unfold good, four_of in *. destruct Hq as (Hr & Hd).
    repeat match goal with H : NoDup (_ :: _) |- _ => inversion H; clear H; subst end. simpl in *.
    assert (E : a <> b /\ b <> c /\ a <> c /\ (0 <= a < n)%Z /\ (0 <= b < n)%Z /\ (0 <= c < n)%Z).
    { destruct I as [I|[I|[I|[I|[]]]]]; injection I as <- <- <-; intuition lia. }
    split; [lia|]. repeat constructor; simpl; intuition lia.
Qed.
Lemma bw_insert_cond bad bad' n (T T' : quad -> Prop) : (forall q, T q -> (bad q <-> bad' q)) -> bw_insert bad n T T' -> bw_insert bad' n T T'.
Proof.
  intros E H a b c d. rewrite (H a b c d).
  assert (X : forall q, T q /\ bad q <-> T q /\ bad' q) by (intros q; split; intros (Q1 & Q2); split; auto; apply (E q Q1); exact Q2).
  assert (B : on_boundary (fun q => T q /\ bad q) (a, b, c) <-> on_boundary (fun q => T q /\ bad' q) (a, b, c)).
  { unfold on_boundary. split; intros (q & Q1 & Q3 & Q4); exists q; (split; [apply X; exact Q1|split; [exact Q3|]]); intros q' f' C; apply Q4, X, C. }
  rewrite B. assert (Y : T (a, b, c, d) /\ ~ bad (a, b, c, d) <-> T (a, b, c, d) /\ ~ bad' (a, b, c, d)) by (split; intros (Q1 & Q2); split; auto; intros Q; apply Q2, (E _ Q1), Q).
  rewrite Y. reflexivity.
Qed.
Lemma bw_run_cond bad bad' m : forall k (T T' : quad -> Prop), (forall j q, (k <= j < k + m)%nat -> good (Z.of_nat j + 4) q -> (bad j q <-> bad' j q)) ->
  (forall q, T q -> good (Z.of_nat k + 4) q) -> bw_run bad k m T T' -> bw_run bad' k m T T'.
Proof.
  induction m as [|m IH]; intros k T T' E G H; [exact H|]. destruct H as (T1 & H1 & H2). exists T1. split.
  - eapply bw_insert_cond; [|exact H1]. intros q Hq. apply E; [lia|apply G, Hq].
  - apply IH; [intros j q Hj; apply E; lia| |exact H2]. intros q Hq. replace (Z.of_nat (S k) + 4)%Z with (Z.of_nat k + 4 + 1)%Z by lia. eapply bw_insert_good; [exact G|exact H1|lia|exact Hq].
Qed.
Lemma Zero_rvec : rvec (@Zero B64) = rzero. Proof. reflexivity. Qed.
Lemma nth_rvec (l : list (vec B64)) n : rvec (nth n l Zero) = nth n (map rvec l) rzero.
Proof. rewrite <- Zero_rvec. symmetry. apply map_nth. Qed.
Lemma violates_clear (all : list (vec B64)) p q : (forall i, tame_vec (nth i all Zero)) -> tame_vec p ->
  (let '(a, b, c, d) := q in let P i := nth (Z.to_nat i) (map rvec all) rzero in clear_sphere (P a) (P b) (P c) (P d) (rvec p)) ->
  (violates all p q <-> in_det (map rvec all) (rvec p) q).
Proof.
  intros T Tp. destruct q as [[[a b] c] d]. cbv zeta. unfold violates, in_det. rewrite <- !nth_rvec. intros C.
  set (A := nth (Z.to_nat a) all Zero) in *. set (B := nth (Z.to_nat b) all Zero) in *. set (C' := nth (Z.to_nat c) all Zero) in *. set (D := nth (Z.to_nat d) all Zero) in *.
  pose proof (insphere_acc A B C' D p (T _) (T _) (T _) (T _) Tp) as Q. destruct (acc_sign _ _ _ _ _ _ Q C) as (S1 & S2).
  assert (F0 : is_finite (fofZ B64 0 : b64) = true) by reflexivity. assert (Z0 : B2R (fofZ B64 0 : b64) = 0) by reflexivity.
  rewrite fin_le; [|exact F0|apply (proj1 (proj1 Q))]. rewrite Z0, Rleb_true. split; intros H; destruct (Rtotal_order (insphere_det (rvec A) (rvec B) (rvec C') (rvec D) (rvec p)) 0) as [L|L]; try lra.
Qed.
Lemma tame_zero : tame_vec (@Zero B64).
Proof. assert (T : tame (fofZ B64 0)); [|split; [|split]; exact T]. split; [reflexivity|]. split; [exists 0%Z; simpl; ring|]. replace (B2R (fofZ B64 0 : b64)) with 0 by reflexivity. rewrite Rabs_R0. apply bpow_ge_0. Qed.
Lemma bowyerWatson_clear ordT ordF ordE (points : list (vec B64)) : points <> [] -> Forall modest points ->
  (forall n, order_ok (ordT n)) -> (forall n, order_ok (ordF n)) -> order_ok ordE ->
  let all := map rvec (snd (englobe points)) in clear_spheres all ->
  exists (T : list quad) tris, NoDup T /\
    bw_run (fun j => in_det all (nth j (map rvec points) rzero)) 0 (length points) (fun q => q = (0, 1, 2, 3)%Z) (fun q => In q T) /\
    bowyerWatson ordT ordF ordE points = Ok (flatten tris) /\
    Permutation tris (map renumber (filter outer (flat_map quad_faces T))).
Proof.
  intros N H HT HF HE all C. destruct (englobe_near points N H) as (t & p1 & p2 & p3 & p4 & EQ & TM & _).
  destruct (bowyerWatson_bw ordT ordF ordE points HT HF HE) as (T & tris & ND & R & E & P). exists T, tris. split; [exact ND|]. split; [|split; [exact E|exact P]].
  assert (TA : forall i, tame_vec (nth i (snd (englobe points)) Zero)).
  { intros i. destruct (nth_in_or_default i (snd (englobe points)) Zero) as [I|D]; [|rewrite D; exact tame_zero].
    rewrite EQ in I at 2. cbn [snd] in I. rewrite Forall_forall in TM, H.
    assert (I' : In (nth i (snd (englobe points)) Zero) [p1; p2; p3; p4] \/ In (nth i (snd (englobe points)) Zero) points) by (simpl in *; tauto).
    destruct I' as [I'|I']; [exact (TM _ I')|exact (proj1 (H _ I'))]. }
  eapply bw_run_cond; [| |exact R].
  - intros j q Hj G. cbv beta. rewrite <- nth_rvec.
    assert (NJ : nth j points Zero = nth (j + 4) (snd (englobe points)) Zero) by (rewrite EQ; cbn [snd]; replace (j + 4)%nat with (S (S (S (S j)))) by lia; reflexivity).
    rewrite NJ. apply violates_clear; [exact TA|apply TA|]. destruct q as [[[a b] c] d]. cbv zeta. rewrite (nth_rvec _ (j + 4)). fold all.
    apply (C (j + 4)%nat a b c d).
    + unfold all. rewrite map_length, EQ. cbn [snd length]. lia.
    + unfold good in G. replace (Z.of_nat (j + 4)) with (Z.of_nat j + 4)%Z by lia. exact G.
  - intros q ->. unfold good, four_of. split; [lia|]. repeat constructor; simpl; intuition lia.
Qed.
