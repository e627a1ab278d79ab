(** Package predicates and package mesh in binary64 on grids: the predicates are exact there, and bowyerWatson
    computes what it computes over the reals. *)
From Coq Require Import String ZArith Lia List Bool Reals Lra QArith Permutation.
From Flocq Require Import Core BinarySingleNaN.
From Verif Require Import Base Arith M_r3 M_predicates GoMap M_meshing Spec_r3 Spec_sphere Spec_mesh Spec_bw Spec_grid3 XRvec P_predicates P_insphere_b64 P_b64sc P_b64err P_meshing P_meshorder P_meshgeom P_bw.
Import ListNotations.
Open Scope Z_scope.

(** [x] is k * 2^e with |k| <= B, and [w] is the same number in the exact instance *)
Definition rel (x : b64) (w : XR) (e B : Z) : Prop := exists k, si x e k B /\ w = Fin (B2R x).

Lemma rel_add x w y v e B C : rel x w e B -> rel y v e C -> B + C <= 2 ^ 53 -> okexp e -> rel (fadd B64 x y) (fadd XR w v) e (B + C).
Proof.
  intros (k & Hx & ->) (l & Hy & ->) L O. exists (k + l). pose proof (si_add x k y l e B C L O Hx Hy) as H. split; [exact H|].
  destruct Hx as ((_ & Ex) & _), Hy as ((_ & Ey) & _), H as ((_ & E) & _). rewrite E, plus_IZR. cbn [fadd XR xadd]. f_equal. rewrite Ex, Ey. ring.
Qed.
Lemma rel_sub x w y v e B C : rel x w e B -> rel y v e C -> B + C <= 2 ^ 53 -> okexp e -> rel (fsub B64 x y) (fsub XR w v) e (B + C).
Proof.
  intros (k & Hx & ->) (l & Hy & ->) L O. exists (k - l). pose proof (si_sub x k y l e B C L O Hx Hy) as H. split; [exact H|].
  destruct Hx as ((_ & Ex) & _), Hy as ((_ & Ey) & _), H as ((_ & E) & _). rewrite E, minus_IZR. cbn [fsub XR xsub]. f_equal. rewrite Ex, Ey. ring.
Qed.
Lemma rel_mul x w y v e f B C : rel x w e B -> rel y v f C -> B * C <= 2 ^ 53 -> okexp (e + f) -> rel (fmul B64 x y) (fmul XR w v) (e + f) (B * C).
Proof.
  intros (k & Hx & ->) (l & Hy & ->) L O. exists (k * l). pose proof (si_mul x k y l e f B C L O Hx Hy) as H. split; [exact H|].
  destruct Hx as ((_ & Ex) & _), Hy as ((_ & Ey) & _), H as ((_ & E) & _). rewrite E, mult_IZR. cbn [fmul XR xmul]. f_equal. rewrite Ex, Ey, bpow_plus. ring.
Qed.
Lemma rel_val x w e B : rel x w e B -> is_finite x = true /\ w = Fin (B2R x).
Proof. intros (k & ((F & _) & _) & E). auto. Qed.
Lemma rel_nonneg x w e B : rel x w e B -> fle B64 (fofZ B64 0) x = fle XR (fofZ XR 0) w.
Proof.
  intros (k & Hx & ->). rewrite (sr_le _ 0%R _ (IZR k) e); [|apply sr_zero|apply (si_sr _ _ _ _ Hx)].
  cbn [fle XR xleb fofZ]. destruct Hx as ((_ & ->) & _). pose proof (bpow_gt_0 radix2 e).
  change (inject_Z 0) with (0 # 1). destruct (Rleb_spec 0 (IZR k)) as [L|L], (Rleb_spec 0 (bp e * IZR k)) as [M|M]; auto; exfalso.
  - pose proof (Rmult_le_pos (bp e) (IZR k)). lra.
  - assert (0 < bp e * - IZR k)%R by (apply Rmult_lt_0_compat; lra). lra.
Qed.

Section Grid.
Variable e : Z.
Hypothesis He : -130 <= e <= 130.
Variables ox oy oz : Z.
Hypothesis Hox : Z.abs ox <= 2 ^ 51.
Hypothesis Hoy : Z.abs oy <= 2 ^ 51.
Hypothesis Hoz : Z.abs oz <= 2 ^ 51.

(** a coordinate between o and o + D grid steps *)
Definition crel (o D : Z) (x : b64) (w : XR) : Prop := exists k, sr x e (IZR k) /\ o <= k <= o + D /\ w = Fin (B2R x).
Lemma crel_sub o D x w y v : Z.abs o <= 2 ^ 51 -> 0 <= D <= 2 ^ 20 -> crel o D x w -> crel o D y v -> rel (fsub B64 x y) (fsub XR w v) e D.
Proof.
  intros Ho HD (k & Hx & Kx & ->) (l & Hy & Ky & ->).
  assert (Sx : si x e k (2 ^ 52)) by (split; [exact Hx|change (2 ^ 52) with (2 * 2 ^ 51); lia]).
  assert (Sy : si y e l (2 ^ 52)) by (split; [exact Hy|change (2 ^ 52) with (2 * 2 ^ 51); lia]).
  assert (O : okexp e) by (unfold okexp; lia).
  pose proof (si_sub x k y l e (2 ^ 52) (2 ^ 52) ltac:(cbv; discriminate) O Sx Sy) as [S _].
  exists (k - l). split; [split; [exact S|lia]|].
  destruct Hx as (_ & Ex), Hy as (_ & Ey), S as (_ & E). rewrite E, minus_IZR. cbn [fsub XR xsub]. f_equal. rewrite Ex, Ey. ring.
Qed.
Definition vrel (D : Z) (p : vec B64) (q : vec XR) : Prop := crel ox D (vx p) (vx q) /\ crel oy D (vy p) (vy q) /\ crel oz D (vz p) (vz q).

Ltac rl := first [eassumption | apply rel_add; [rl|rl|cbv; discriminate|unfold okexp; lia]
  | apply rel_sub; [rl|rl|cbv; discriminate|unfold okexp; lia] | apply rel_mul; [rl|rl|cbv; discriminate|unfold okexp; lia]].

Lemma insphere_rel a b c d p a' b' c' d' p' : vrel 600 a a' -> vrel 600 b b' -> vrel 600 c c' -> vrel 600 d d' -> vrel 600 p p' ->
  exists f B, rel (InSphereFast a b c d p) (InSphereFast a' b' c' d' p') f B.
Proof.
  intros (ax & ay & az) (bx & by' & bz) (cx & cy & cz) (dx & dy & dz) (px & py & pz). unfold InSphereFast. cbv zeta.
  pose proof (crel_sub _ 600 _ _ _ _ Hox ltac:(lia) ax px) as X1. pose proof (crel_sub _ 600 _ _ _ _ Hox ltac:(lia) bx px) as X2.
  pose proof (crel_sub _ 600 _ _ _ _ Hox ltac:(lia) cx px) as X3. pose proof (crel_sub _ 600 _ _ _ _ Hox ltac:(lia) dx px) as X4.
  pose proof (crel_sub _ 600 _ _ _ _ Hoy ltac:(lia) ay py) as Y1. pose proof (crel_sub _ 600 _ _ _ _ Hoy ltac:(lia) by' py) as Y2.
  pose proof (crel_sub _ 600 _ _ _ _ Hoy ltac:(lia) cy py) as Y3. pose proof (crel_sub _ 600 _ _ _ _ Hoy ltac:(lia) dy py) as Y4.
  pose proof (crel_sub _ 600 _ _ _ _ Hoz ltac:(lia) az pz) as Z1. pose proof (crel_sub _ 600 _ _ _ _ Hoz ltac:(lia) bz pz) as Z2.
  pose proof (crel_sub _ 600 _ _ _ _ Hoz ltac:(lia) cz pz) as Z3. pose proof (crel_sub _ 600 _ _ _ _ Hoz ltac:(lia) dz pz) as Z4.
  do 2 eexists. rl.
Qed.
Lemma orient_rel a b c d a' b' c' d' : vrel 100000 a a' -> vrel 100000 b b' -> vrel 100000 c c' -> vrel 100000 d d' ->
  exists f B, rel (orient3dfast a b c d) (orient3dfast a' b' c' d') f B.
Proof.
  intros (ax & ay & az) (bx & by' & bz) (cx & cy & cz) (dx & dy & dz). unfold orient3dfast. cbv zeta.
  pose proof (crel_sub _ 100000 _ _ _ _ Hox ltac:(lia) ax dx) as X1. pose proof (crel_sub _ 100000 _ _ _ _ Hox ltac:(lia) bx dx) as X2.
  pose proof (crel_sub _ 100000 _ _ _ _ Hox ltac:(lia) cx dx) as X3.
  pose proof (crel_sub _ 100000 _ _ _ _ Hoy ltac:(lia) ay dy) as Y1. pose proof (crel_sub _ 100000 _ _ _ _ Hoy ltac:(lia) by' dy) as Y2.
  pose proof (crel_sub _ 100000 _ _ _ _ Hoy ltac:(lia) cy dy) as Y3.
  pose proof (crel_sub _ 100000 _ _ _ _ Hoz ltac:(lia) az dz) as Z1. pose proof (crel_sub _ 100000 _ _ _ _ Hoz ltac:(lia) bz dz) as Z2.
  pose proof (crel_sub _ 100000 _ _ _ _ Hoz ltac:(lia) cz dz) as Z3.
  do 2 eexists. rl.
Qed.

(** comparisons of finite numbers *)
Definition frel (x : b64) (w : XR) : Prop := is_finite x = true /\ w = Fin (B2R x).
Lemma frel_lt x w y v : frel x w -> frel y v -> flt B64 x y = flt XR w v.
Proof.
  intros [Fx ->] [Fy ->]. cbn [flt B64 XR xltb]. rewrite Bltb_correct by assumption.
  destruct (Rltb_spec (B2R x) (B2R y)); [apply Rlt_bool_true|apply Rlt_bool_false]; assumption.
Qed.
Lemma crel_frel o D x w : crel o D x w -> frel x w.
Proof. intros (k & (F & _) & _ & E). split; auto. Qed.
Lemma frel_max : frel (@MaxFloat64 B64) (@MaxFloat64 XR).
Proof. split; [vm_compute; reflexivity|]. unfold MaxFloat64 at 1. cbn [fofQ XR]. rewrite B2R_maxfloat, Q2R_maxfloat. reflexivity. Qed.
Lemma frel_negmax : frel (@negMaxFloat64 B64) (@negMaxFloat64 XR).
Proof. split; [vm_compute; reflexivity|]. unfold negMaxFloat64 at 1. cbn [fofQ XR]. rewrite B2R_negmaxfloat, Q2R_negmaxfloat. reflexivity. Qed.
Lemma crel_small o D x w : Z.abs o <= 2 ^ 51 -> 0 <= D <= 2 ^ 20 -> crel o D x w ->
  flt B64 x MaxFloat64 = true /\ flt B64 negMaxFloat64 x = true.
Proof.
  intros Ho HD H. rewrite (frel_lt _ _ _ _ (crel_frel _ _ _ _ H) frel_max), (frel_lt _ _ _ _ frel_negmax (crel_frel _ _ _ _ H)).
  destruct H as (k & (F & E) & K & ->). rewrite (proj2 frel_max), (proj2 frel_negmax). cbn [flt XR xltb]. rewrite B2R_maxfloat, B2R_negmaxfloat, E.
  assert (A : (Rabs (bp e * IZR k) <= bp 200)%R).
  { rewrite Rabs_mult, (Rabs_pos_eq (bp e)) by apply bpow_ge_0. rewrite <- abs_IZR.
    apply Rle_trans with (bp e * bp 53)%R.
    - apply Rmult_le_compat_l; [apply bpow_ge_0|]. rewrite bp53. apply IZR_le. change (2 ^ 53) with (4 * 2 ^ 51). lia.
    - rewrite <- bpow_plus. apply bpow_le. lia. }
  assert (M : (bp 200 < maxfloat)%R).
  { rewrite <- Q2R_maxfloat. unfold Q2R, MaxFloat64Q, inject_Z. cbn [Qnum Qden]. rewrite Rinv_1, Rmult_1_r. change (bp 200) with (IZR (2 ^ 200)). apply IZR_lt. vm_compute. reflexivity. }
  apply Rabs_le_inv in A. destruct (Rltb_spec (bp e * IZR k) maxfloat) as [L|L], (Rltb_spec (- maxfloat) (bp e * IZR k)) as [L'|L']; try (split; reflexivity); exfalso; lra.
Qed.

(** findExtremas *)
Definition lorel (o D : Z) (x : b64) (w : XR) : Prop := crel o D x w \/ (x = (@MaxFloat64 B64 : b64) /\ w = @MaxFloat64 XR).
Definition hirel (o D : Z) (x : b64) (w : XR) : Prop := crel o D x w \/ (x = (@negMaxFloat64 B64 : b64) /\ w = @negMaxFloat64 XR).
Lemma updMin_rel o D m n x w : Z.abs o <= 2 ^ 51 -> 0 <= D <= 2 ^ 20 -> lorel o D m n -> crel o D x w -> crel o D (@updMin B64 m x) (@updMin XR n w).
Proof.
  intros Ho HD [Hm|[-> ->]] Hx; unfold updMin.
  - rewrite <- (frel_lt _ _ _ _ (crel_frel _ _ _ _ Hx) (crel_frel _ _ _ _ Hm)). destruct (flt B64 x m); assumption.
  - rewrite <- (frel_lt _ _ _ _ (crel_frel _ _ _ _ Hx) frel_max). destruct (crel_small _ _ _ _ Ho HD Hx) as [-> _]. assumption.
Qed.
Lemma updMax_rel o D m n x w : Z.abs o <= 2 ^ 51 -> 0 <= D <= 2 ^ 20 -> hirel o D m n -> crel o D x w -> crel o D (@updMax B64 m x) (@updMax XR n w).
Proof.
  intros Ho HD [Hm|[-> ->]] Hx; unfold updMax.
  - rewrite <- (frel_lt _ _ _ _ (crel_frel _ _ _ _ Hm) (crel_frel _ _ _ _ Hx)). destruct (flt B64 m x); assumption.
  - rewrite <- (frel_lt _ _ _ _ frel_negmax (crel_frel _ _ _ _ Hx)). destruct (crel_small _ _ _ _ Ho HD Hx) as [_ ->]. assumption.
Qed.
Definition hrel (D : Z) (h : helper B64) (h' : helper XR) : Prop := vrel D (hmin h) (hmin h') /\ vrel D (hmax h) (hmax h').
Lemma extrema_fold D l l' h h' : 0 <= D <= 2 ^ 20 -> Forall2 (vrel D) l l' -> hrel D h h' -> hrel D (fold_left extremaStep l h) (fold_left extremaStep l' h').
Proof.
  intros HD F. revert h h'. induction F as [|p p' l l' (Hx & Hy & Hz) F IH]; intros h h' H; [exact H|]. cbn [fold_left]. apply IH.
  destruct H as ((A1 & A2 & A3) & (B1 & B2 & B3)). unfold extremaStep. split; (split; [|split]); cbn [hmin hmax vx vy vz];
    (apply updMin_rel || apply updMax_rel); auto; left; assumption.
Qed.
Lemma findExtremas_rel D l l' : 0 <= D <= 2 ^ 20 -> Forall2 (vrel D) l l' -> l <> [] -> hrel D (findExtremas l) (findExtremas l').
Proof.
  intros HD F N. destruct F as [|p p' l l' (Hx & Hy & Hz) F]; [congruence|]. unfold findExtremas. cbn [fold_left]. apply extrema_fold; auto.
  unfold extremaStep. split; (split; [|split]); cbn [hmin hmax vx vy vz]; (apply updMin_rel || apply updMax_rel); auto; right; auto.
Qed.

(** the initial tetrahedron *)
Lemma crel_weaken o D D' x w : D <= D' -> crel o D x w -> crel o D' x w.
Proof. intros L (k & S & K & E). exists k. repeat split; auto; try apply S; lia. Qed.
Lemma crel_tetra o D lo hi lo' hi' : Z.abs o <= 2 ^ 51 -> 0 <= D <= 2 ^ 18 -> crel o D lo lo' -> crel o D hi hi' -> Rle (B2R lo) (B2R hi) ->
  crel o (3 * D) (fadd B64 lo (fmul B64 (fofZ B64 3) (fsub B64 hi lo))) (fadd XR lo' (fmul XR (fofZ XR 3) (fsub XR hi' lo'))).
Proof.
  intros Ho HD Hl Hh L. pose proof (crel_sub o D _ _ _ _ Ho ltac:(lia) Hh Hl) as Hd.
  assert (T : rel (fofZ B64 3) (fofZ XR 3) 0 3).
  { exists 3. split; [split; [|lia]; split; [reflexivity|]|]; cbn; unfold Defs.F2R; cbn; try lra. f_equal. lra. }
  pose proof (rel_mul _ _ _ _ 0 e 3 D T Hd ltac:(lia) ltac:(unfold okexp; lia)) as Hm. rewrite Z.add_0_l in Hm.
  destruct Hl as (k & Sl & Kl & El), Hh as (l & Sh & Kh & Eh), Hm as (m & Sm & Em).
  assert (Sl' : si lo e k (2 ^ 52)) by (split; [exact Sl|change (2 ^ 52) with (2 * 2 ^ 51); lia]).
  assert (O : okexp e) by (unfold okexp; lia).
  assert (P : (0 < bp e)%R) by apply bpow_gt_0.
  assert (M : m = 3 * (l - k)).
  { apply eq_IZR. apply Rmult_eq_reg_l with (bp e); [|apply Rgt_not_eq, P]. destruct Sm as ((_ & E) & _). rewrite <- E.
    assert (Q : Fin (B2R (fmul B64 (fofZ B64 3) (fsub B64 hi lo) : b64)) = Fin (bp e * IZR (3 * (l - k)))); [|congruence].
    rewrite <- Em, El, Eh. cbn [fmul fsub fofZ XR xmul xsub]. f_equal. destruct Sl as (_ & ->), Sh as (_ & ->). rewrite mult_IZR, minus_IZR. ring. }
  assert (KL : k <= l). { apply le_IZR. destruct Sl as (_ & E1), Sh as (_ & E2). rewrite E1, E2 in L. apply Rmult_le_reg_l with (bp e); assumption. }
  pose proof (si_add lo k _ m e (2 ^ 52) (3 * D) ltac:(lia) O Sl' Sm) as S.
  exists (k + m). split; [apply S|]. split; [lia|].
  rewrite Em, El. cbn [fadd XR xadd]. f_equal. destruct S as ((_ & ->) & _), Sl as (_ & ->), Sm as ((_ & ->) & _). rewrite plus_IZR. ring.
Qed.

Lemma vrel_fin D p q : vrel D p q -> bfin (vx p) /\ bfin (vy p) /\ bfin (vz p).
Proof. intros (H1 & H2 & H3). repeat split; [destruct (crel_frel _ _ _ _ H1)|destruct (crel_frel _ _ _ _ H2)|destruct (crel_frel _ _ _ _ H3)]; assumption. Qed.
Lemma least_greatest {T} (f : T -> R) l a b : is_least f l a -> is_greatest f l b -> Rle a b.
Proof. intros [(p & Hp & <-) _] [_ H]. apply H. exact Hp. Qed.
Lemma vrel_weaken D D' p q : D <= D' -> vrel D p q -> vrel D' p q.
Proof. intros L (H1 & H2 & H3). repeat split; eapply crel_weaken; eassumption. Qed.
Lemma englobe_rel D l l' : 0 <= D <= 2 ^ 18 -> Forall2 (vrel D) l l' -> l <> [] ->
  fst (englobe l) = fst (englobe l') /\ Forall2 (vrel (3 * D)) (snd (englobe l)) (snd (englobe l')).
Proof.
  intros HD F N. pose proof (findExtremas_rel D l l' ltac:(lia) F N) as ((A1 & A2 & A3) & (B1 & B2 & B3)).
  assert (Fi : forall p, In p l -> bfin (vx p) /\ bfin (vy p) /\ bfin (vz p)).
  { intros p Hp. clear -F Hp. induction F; [destruct Hp|]. destruct Hp as [<-|Hp]; [eapply vrel_fin; eassumption|auto]. }
  destruct (extremas_B64 l N Fi) as ((X1 & X2) & (Y1 & Y2) & (Z1 & Z2)).
  pose proof (least_greatest _ _ _ _ X1 X2) as LX. pose proof (least_greatest _ _ _ _ Y1 Y2) as LY. pose proof (least_greatest _ _ _ _ Z1 Z2) as LZ.
  unfold englobe, computerInitialTetraPoints. cbv zeta. cbn [fst snd]. split; [reflexivity|].
  assert (W : forall o x w, crel o D x w -> crel o (3 * D) x w) by (intros o x w; apply crel_weaken; lia).
  cbn [app]. repeat (apply Forall2_cons; [split; [|split]; cbn [vx vy vz]; auto; apply crel_tetra; auto|]).
  clear -F HD. induction F; constructor; auto. eapply vrel_weaken; [|eassumption]. lia.
Qed.

(** the run *)
Lemma zget_rel (P : vec B64 -> vec XR -> Prop) l l' i : Forall2 P l l' ->
  (exists p q, zget l i = Ok p /\ zget l' i = Ok q /\ P p q) \/ (zget l i = Panic /\ zget l' i = Panic).
Proof.
  intros F. unfold zget. destruct (i <? 0); [right; auto|].
  revert F. generalize (Z.to_nat i) as n. intros n F. revert n. induction F as [|p q l l' H F IH]; intros [|n]; cbn [nth_error].
  - right; auto.
  - right; auto.
  - left. exists p, q. auto.
  - apply IH.
Qed.
Lemma findBad_rel l l' p p' t : Forall2 (vrel 600) l l' -> vrel 600 p p' -> findBad l p t = findBad l' p' t.
Proof.
  intros F Hp. induction t as [|[k v] t IH]; [reflexivity|]. cbn [findBad].
  destruct (zget_rel _ l l' (ia v) F) as [(a & a' & -> & -> & Ha)|[-> ->]]; cbn [rbind]; [|reflexivity].
  destruct (zget_rel _ l l' (ib v) F) as [(b & b' & -> & -> & Hb)|[-> ->]]; cbn [rbind]; [|reflexivity].
  destruct (zget_rel _ l l' (ic v) F) as [(c & c' & -> & -> & Hc)|[-> ->]]; cbn [rbind]; [|reflexivity].
  destruct (zget_rel _ l l' (M_meshing.id v) F) as [(d & d' & -> & -> & Hd)|[-> ->]]; cbn [rbind]; [|reflexivity].
  rewrite IH. destruct (findBad l' p' t); cbn [rbind]; auto.
  destruct (insphere_rel a b c d p a' b' c' d' p' Ha Hb Hc Hd Hp) as (f & B & R). rewrite (rel_nonneg _ _ _ _ R). reflexivity.
Qed.
Lemma insertAll_rel ordT ordF all all' k l l' t : Forall2 (vrel 600) all all' -> Forall2 (vrel 600) l l' ->
  insertAll ordT ordF all k l t = insertAll ordT ordF all' k l' t.
Proof.
  intros FA F. revert k t. induction F as [|p p' l l' H F IH]; intros k t; [reflexivity|]. cbn [insertAll].
  unfold insertPoint. rewrite (findBad_rel all all' p p' _ FA H).
  match goal with |- rbind ?a _ = _ => destruct a; cbn [rbind]; auto end.
Qed.
Lemma bowyerWatson_rel ordT ordF ordE l l' : Forall2 (vrel 200) l l' -> bowyerWatson ordT ordF ordE l = bowyerWatson ordT ordF ordE l'.
Proof.
  intros F. destruct l as [|p0 l0] eqn:El.
  { inversion F. reflexivity. }
  rewrite <- El in *. assert (N : l <> []) by congruence.
  destruct (englobe_rel 200 l l' ltac:(lia) F N) as [E1 E2]. unfold bowyerWatson.
  destruct (englobe l) as [t all], (englobe l') as [t' all']. cbn [fst snd] in *. subst t'.
  rewrite (insertAll_rel ordT ordF all all' 0 l l' _ E2); [reflexivity|].
  clear -F. induction F; constructor; auto. eapply vrel_weaken; [|eassumption]. lia.
Qed.
End Grid.

(** points of a cube of the grid *)
Definition fin3 (v : vec B64) : Prop := bfin (vx v) /\ bfin (vy v) /\ bfin (vz v).
Lemma vrel_cube e ox oy oz D v : fin3 v -> in_cube e ox oy oz D (rvec v) -> vrel e ox oy oz D v (fv (rvec v)).
Proof.
  intros (F1 & F2 & F3) (i & j & k & Hi & Hj & Hk & E). unfold grid_point, grid_number, rvec in E. injection E as E1 E2 E3.
  unfold vrel, fv, rvec. cbn [vx vy vz rx ry rz].
  split; [exists i|split; [exists j|exists k]]; (split; [split; [assumption|rewrite Rmult_comm; assumption]|split; [assumption|reflexivity]]).
Qed.

Lemma Fin_inj a b : Fin a = Fin b -> a = b.
Proof. intros H. exact (f_equal (fun x => match x with Fin r => r | _ => 0%R end) H). Qed.
Section Cube.
Variables e ox oy oz : Z.
Hypothesis G : okgrid e ox oy oz.
Lemma okg : -130 <= e <= 130 /\ Z.abs ox <= 2 ^ 51 /\ Z.abs oy <= 2 ^ 51 /\ Z.abs oz <= 2 ^ 51. Proof. exact G. Qed.
Notation He := (proj1 okg).
Notation Hx := (proj1 (proj2 okg)).
Notation Hy := (proj1 (proj2 (proj2 okg))).
Notation Hz := (proj2 (proj2 (proj2 okg))).

Lemma insphere_grid a b c d p : Forall (fun v => fin3 v /\ in_cube e ox oy oz 600 (rvec v)) [a; b; c; d; p] ->
  let r : b64 := InSphereFast a b c d p in is_finite r = true /\ B2R r = insphere_det (rvec a) (rvec b) (rvec c) (rvec d) (rvec p).
Proof.
  intros H r. rewrite Forall_forall in H.
  assert (V : forall v, In v [a; b; c; d; p] -> vrel e ox oy oz 600 v (fv (rvec v))) by (intros v Hv; destruct (H v Hv); apply vrel_cube; assumption).
  destruct (insphere_rel e He ox oy oz Hx Hy Hz a b c d p _ _ _ _ _ (V a ltac:(simpl; tauto)) (V b ltac:(simpl; tauto)) (V c ltac:(simpl; tauto))
    (V d ltac:(simpl; tauto)) (V p ltac:(simpl; tauto))) as (f & B & R). apply rel_val in R. destruct R as [F E]. split; [exact F|].
  rewrite insphere_fast_det in E. apply Fin_inj in E. symmetry. exact E.
Qed.
Lemma orient_grid a b c d : Forall (fun v => fin3 v /\ in_cube e ox oy oz 100000 (rvec v)) [a; b; c; d] ->
  let r : b64 := orient3dfast a b c d in is_finite r = true /\ B2R r = signed_volume (rvec a) (rvec b) (rvec c) (rvec d).
Proof.
  intros H r. rewrite Forall_forall in H.
  assert (V : forall v, In v [a; b; c; d] -> vrel e ox oy oz 100000 v (fv (rvec v))) by (intros v Hv; destruct (H v Hv); apply vrel_cube; assumption).
  destruct (orient_rel e He ox oy oz Hx Hy Hz a b c d _ _ _ _ (V a ltac:(simpl; tauto)) (V b ltac:(simpl; tauto)) (V c ltac:(simpl; tauto))
    (V d ltac:(simpl; tauto))) as (f & B & R). apply rel_val in R. destruct R as [F E]. split; [exact F|].
  destruct (orient3d_laws (rvec a) (rvec b) (rvec c) (rvec d) rzero) as (o & Eo & -> & _). rewrite Eo in E. apply Fin_inj in E. symmetry. exact E.
Qed.
Definition exactly (points : list (vec B64)) : list (vec XR) := map (fun p => fv (rvec p)) points.
Lemma exactly_rel D points : Forall (fun v => fin3 v /\ in_cube e ox oy oz D (rvec v)) points -> Forall2 (vrel e ox oy oz D) points (exactly points).
Proof. intros H. induction H as [|p l [H1 H2] H IH]; constructor; auto. apply vrel_cube; assumption. Qed.
Lemma bowyerWatson_grid ordT ordF ordE points : Forall (fun v => fin3 v /\ in_cube e ox oy oz 200 (rvec v)) points ->
  bowyerWatson ordT ordF ordE points = bowyerWatson ordT ordF ordE (exactly points).
Proof. intros H. apply (bowyerWatson_rel e He ox oy oz Hx Hy Hz). apply exactly_rel. exact H. Qed.

Lemma vrel_val D p q : vrel e ox oy oz D p q -> fin3 p /\ q = fv (rvec p).
Proof.
  intros (H1 & H2 & H3). split; [eapply vrel_fin; split; [|split]; eassumption|].
  destruct (crel_frel _ _ _ _ _ H1) as [_ E1], (crel_frel _ _ _ _ _ H2) as [_ E2], (crel_frel _ _ _ _ _ H3) as [_ E3].
  destruct q as [x y z]. cbn [vx vy vz] in *. subst. reflexivity.
Qed.
Lemma cube_in_range D v : 0 <= D <= 2 ^ 20 -> in_cube e ox oy oz D (rvec v) -> fin3 v -> in_range (rvec v).
Proof.
  intros HD HC HF. destruct (vrel_cube _ _ _ _ _ _ HF HC) as (H1 & H2 & H3).
  assert (Bd : forall x : b64, (Rabs (B2R x) <= maxfloat)%R).
  { intros x. eapply Rle_trans; [apply (abs_B2R_le_emax_minus_prec 53 1024); reflexivity|].
    unfold maxfloat. replace (1024 - 53)%Z with 971%Z by reflexivity.
    rewrite !bpow_powerRZ. change (IZR radix2) with 2%R. cbn [powerRZ].
    change (Pos.to_nat 1024) with 1024%nat. change (Pos.to_nat 971) with 971%nat. lra. }
  unfold in_range, rvec. cbn [rx ry rz]. auto.
Qed.
Lemma englobe_grid points : points <> [] -> Forall (fun v => fin3 v /\ in_cube e ox oy oz (2 ^ 18) (rvec v)) points ->
  exists t p1 p2 p3 p4, englobe points = (t, p1 :: p2 :: p3 :: p4 :: points) /\ fin3 p1 /\ fin3 p2 /\ fin3 p3 /\ fin3 p4 /\
    forall p, In p points -> in_tetra (rvec p1) (rvec p2) (rvec p3) (rvec p4) (rvec p).
Proof.
  intros N H. destruct (englobe_rel e He ox oy oz Hx Hy Hz (2 ^ 18) points (exactly points) ltac:(lia) (exactly_rel _ _ H) N) as [_ E].
  destruct (englobe_spec (map rvec points)) as (t & q1 & q2 & q3 & q4 & E1 & _ & I).
  - destruct points; [congruence|discriminate].
  - intros p Hp. apply in_map_iff in Hp. destruct Hp as (v & <- & Hv). rewrite Forall_forall in H. destruct (H v Hv) as [F C].
    apply (cube_in_range (2 ^ 18)); auto. lia.
  - unfold exactly in E. rewrite map_map in E1. rewrite E1 in E. cbn [snd map] in E.
    unfold englobe in E |- *. destruct (computerInitialTetraPoints (findExtremas points)) as [[[p1 p2] p3] p4]. cbn [snd app] in E |- *.
    inversion E as [|? ? ? ? V1 E']; subst. inversion E' as [|? ? ? ? V2 E'']; subst. inversion E'' as [|? ? ? ? V3 E3]; subst. inversion E3 as [|? ? ? ? V4 E4]; subst.
    apply vrel_val in V1, V2, V3, V4. destruct V1 as [F1 V1], V2 as [F2 V2], V3 as [F3 V3], V4 as [F4 V4].
    apply fv_inj in V1, V2, V3, V4. subst. do 5 eexists. split; [reflexivity|]. repeat (split; [assumption|]).
    intros p Hp. apply I. apply in_map. exact Hp.
Qed.
End Cube.

(** the exact run in the language of the specification *)
Lemma violates_det all p q : violates (A := XR) (map fv all) (fv p) q <-> in_det all p q.
Proof.
  destruct q as [[[a b] c] d]. unfold violates, in_det.
  assert (N : forall i, nth (Z.to_nat i) (map fv all) (Zero : vec XR) = fv (nth (Z.to_nat i) all rzero)).
  { intros i. rewrite <- (map_nth fv). apply f_equal. unfold Zero, fv, rzero. cbn. reflexivity. }
  rewrite !N, insphere_fast_det. cbn [fle XR xleb fofZ]. apply Rleb_true.
Qed.
Lemma bw_insert_bad bad bad' n T T' : (forall q, bad q <-> bad' q) -> bw_insert bad n T T' -> bw_insert bad' n T T'.
Proof.
  intros E H a b c d. rewrite (H a b c d). rewrite E.
  assert (B : on_boundary (fun q => T q /\ bad q) (a, b, c) <-> on_boundary (fun q => T q /\ bad' q) (a, b, c)); [|tauto].
  unfold on_boundary. split; intros (q & (Q1 & Q2) & Q3 & Q4); exists q; (split; [split; [exact Q1|apply E; exact Q2]|split; [exact Q3|]]);
    intros q' f' [C1 C2]; apply Q4; (split; [exact C1|apply E; exact C2]).
Qed.
Lemma bw_run_bad bad bad' m : forall k T T', (forall j q, bad j q <-> bad' j q) -> bw_run bad k m T T' -> bw_run bad' k m T T'.
Proof.
  induction m as [|m IH]; intros k T T' E H; [exact H|]. destruct H as (T1 & H1 & H2). exists T1. split.
  - eapply bw_insert_bad; [|exact H1]. apply E.
  - apply IH; assumption.
Qed.
Lemma bowyerWatson_grid_run e ox oy oz ordT ordF ordE points : okgrid e ox oy oz -> points <> [] ->
  Forall (fun v => fin3 v /\ in_cube e ox oy oz 200 (rvec v)) points ->
  (forall n, order_ok (ordT n)) -> (forall n, order_ok (ordF n)) -> order_ok ordE ->
  exists s1 s2 s3 s4 (T : list quad) tris, NoDup T /\
    (forall p, In p points -> in_tetra s1 s2 s3 s4 (rvec p)) /\
    bw_run (fun j => in_det (s1 :: s2 :: s3 :: s4 :: map rvec points) (nth j (map rvec points) rzero)) 0 (length points)
      (fun q => q = (0, 1, 2, 3)) (fun q => In q T) /\
    bowyerWatson ordT ordF ordE points = Ok (flatten tris) /\
    Permutation tris (map renumber (filter outer (flat_map quad_faces T))).
Proof.
  intros G N H HT HF HE. rewrite (bowyerWatson_grid e ox oy oz G ordT ordF ordE points H).
  destruct (bowyerWatson_bw ordT ordF ordE (exactly points) HT HF HE) as (T & tris & ND & R & E & P).
  destruct (englobe_spec (map rvec points)) as (t & q1 & q2 & q3 & q4 & E1 & _ & I).
  - destruct points; [congruence|discriminate].
  - intros p Hp. apply in_map_iff in Hp. destruct Hp as (v & <- & Hv). rewrite Forall_forall in H. destruct (H v Hv) as [F C].
    apply (cube_in_range e ox oy oz 200); auto. lia.
  - exists q1, q2, q3, q4, T, tris. split; [exact ND|]. split; [intros p Hp; apply I, in_map, Hp|]. split; [|split; [exact E|exact P]].
    unfold exactly in R at 3. rewrite map_length in R. eapply bw_run_bad; [|exact R]. intros j q. cbv beta.
    replace (exactly points) with (map fv (map rvec points)) by apply map_map. rewrite E1. cbn [snd].
    replace (nth j (map fv (map rvec points)) Zero) with (fv (nth j (map rvec points) rzero)); [apply violates_det|].
    rewrite <- (map_nth fv). apply f_equal. unfold Zero, fv, rzero. cbn. reflexivity.
Qed.
