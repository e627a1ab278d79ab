(** Property theorem C158: ConvexHull as compiled, in binary64, on every input clear of rounding errors. *)
From Coq Require Import ZArith Lia List Bool Reals Lra Permutation Sorted.
From Flocq Require Import Core BinarySingleNaN.
From Verif Require Import Base Arith M_r3 M_tri2 M_triangulator Spec_r3 Spec_plane Spec_hull Spec_delaunay Spec_acc64 Spec_clear XRvec P_tri2 P_hull P_hullset
  P_insphere_err P_insphere_b64 P_b64hull P_acc64 P_clearhull P_flipterm Props_grid Props_hullset Props_acc64.
Import ListNotations.
Open Scope R_scope.

(** ** C158: the float64 run returns the points the exact algorithm returns *)
Theorem C158_hull_exact srt vs : (forall v, In v vs -> tame_vec v) -> clear_points (values vs) -> sorts lessXY vs (srt vs) ->
  exists h srtX, ConvexHull srt vs = Ok h /\ incl h vs /\
    sorts lessXY (map fv (values vs)) (srtX (map fv (values vs))) /\ ConvexHull srtX (map fv (values vs)) = Ok (map fv (values h)).
Proof. intros Hv Hc Hs. exact (hull_clear vs Hv Hc srt Hs). Qed.
Print Assumptions C158_hull_exact.
(** hence the convex hull: a polygon around the input whose vertices are the input points on the boundary, each once *)
Theorem C158_hull_convex srt vs : (forall v, In v vs -> tame_vec v) -> clear_points (values vs) -> sorts lessXY vs (srt vs) ->
  separated (values vs) -> (exists p q, In p (values vs) /\ In q (values vs) /\ p <> q) ->
  exists h, ConvexHull srt vs = Ok h /\ incl h vs /\ encloses (values h) (values vs) /\
    (forall p, In p (values h) <-> In p (values vs) /\ on_boundary (values vs) p) /\ (not_on_line (values vs) -> NoDup (values h)).
Proof.
  intros Hv Hc Hs Sep PQ. destruct (hull_clear vs Hv Hc srt Hs) as (h & srtX & E & I & So & EX).
  destruct (C139_hull_members srtX (values vs) So Sep PQ) as (h' & E' & Mem & _).
  assert (h' = values h) as ->. { apply map_fv_inj. unfold values in *. congruence. }
  destruct (convex_hull_correct srtX (values vs) So Sep PQ) as (h2 & E2 & _ & En & _).
  assert (h2 = values h) as ->. { apply map_fv_inj. unfold values in *. congruence. }
  exists h. split; [exact E|]. split; [exact I|]. split; [exact En|]. split; [exact Mem|]. intros NL.
  destruct (C139_hull_once srtX (values vs) So Sep NL) as (h3 & E3 & ND & _).
  assert (h3 = values h) as <-. { apply map_fv_inj. unfold values in *. congruence. } exact ND.
Qed.
Print Assumptions C158_hull_convex.

(** ** a check of clearness for integer points, and a case with 51-bit coordinates *)
Definition zpt := (Z * Z * Z)%type.
Definition zv (p : zpt) : vec B64 := iv (fst (fst p)) (snd (fst p)) (snd p).
Definition zr (p : zpt) : rv := RV (IZR (fst (fst p))) (IZR (snd (fst p))) (IZR (snd p)).
Definition zterms (a b c : zpt) : Z := let '(ax, ay, _) := a in let '(bx, by', _) := b in let '(cx, cy, _) := c in
  (Z.abs (bx - ax) * Z.abs (cy - ay) + Z.abs (by' - ay) * Z.abs (cx - ax))%Z.
Definition zccw (a b c : zpt) : Z := let '(ax, ay, _) := a in let '(bx, by', _) := b in let '(cx, cy, _) := c in
  ((bx - ax) * (cy - ay) - (by' - ay) * (cx - ax))%Z.
Definition zclear (a b c : zpt) : bool :=
  (5 * zterms a b c <? 2 ^ 53 * Z.abs (zccw a b c))%Z || (zterms a b c =? 0)%Z || ((fst (fst b) =? fst (fst c)) && (snd (fst b) =? snd (fst c)))%Z.
Lemma zclear_ok a b c : zclear a b c = true -> clear_orient (zr a) (zr b) (zr c).
Proof.
  destruct a as [[ax ay] az], b as [[bx by'] bz], c as [[cx cy] cz]. unfold zclear. rewrite !orb_true_iff, andb_true_iff, Z.ltb_lt, !Z.eqb_eq. cbn [fst snd].
  assert (Et : cross_terms (zr (ax, ay, az)) (zr (bx, by', bz)) (zr (cx, cy, cz)) = IZR (zterms (ax, ay, az) (bx, by', bz) (cx, cy, cz))).
  { unfold cross_terms, zr, zterms. cbn [rx ry fst snd]. rewrite plus_IZR, !mult_IZR, !abs_IZR, !minus_IZR. reflexivity. }
  assert (Ec : ccw (zr (ax, ay, az)) (zr (bx, by', bz)) (zr (cx, cy, cz)) = IZR (zccw (ax, ay, az) (bx, by', bz) (cx, cy, cz))).
  { unfold ccw, zr, zccw. cbn [rx ry fst snd]. rewrite minus_IZR, !mult_IZR, !minus_IZR. ring. }
  intros [[H|H]|[H1 H2]].
  - left. rewrite Et, Ec, <- abs_IZR. apply IZR_lt in H. rewrite !mult_IZR in H.
    assert (T0 : 0 <= IZR (zterms (ax, ay, az) (bx, by', bz) (cx, cy, cz))). { rewrite <- Et. unfold cross_terms. apply Rplus_le_le_0_compat; apply Rmult_le_pos; apply Rabs_pos. }
    pose proof (gamma_lin 4 ltac:(discriminate)) as G. replace (INR 4) with 4 in G by (simpl; lra).
    eapply Rle_lt_trans; [apply Rmult_le_compat_r; [exact T0|exact G]|]. replace (IZR (2 ^ 53)) with (2 ^ 53) in H by (simpl; lra). lra.
  - right. left. rewrite Et, H. reflexivity.
  - right. right. subst. split; reflexivity.
Qed.
Lemma zdist_clear a b : clear_dist (zr a) (zr b).
Proof.
  destruct a as [[ax ay] az], b as [[bx by'] bz]. unfold clear_dist. set (k := ((ax - bx) * (ax - bx) + (ay - by') * (ay - by') + (az - bz) * (az - bz))%Z).
  assert (E : rdist2 (zr (ax, ay, az)) (zr (bx, by', bz)) = IZR k). { unfold rdist2, rdot, rsub, zr, k. cbn [rx ry rz fst snd]. rewrite !plus_IZR, !mult_IZR, !minus_IZR. reflexivity. }
  rewrite E. assert (K : (0 <= k)%Z) by (unfold k; pose proof (Z.square_nonneg (ax - bx)); pose proof (Z.square_nonneg (ay - by')); pose proof (Z.square_nonneg (az - bz)); lia).
  pose proof (gamma_lin 5 ltac:(discriminate)) as G. replace (INR 5) with 5 in G by (simpl; lra).
  destruct (Z.eq_dec k 0) as [->|N]; [rewrite Rmult_0_r; apply Rabs_pos_lt; unfold epsR; lra|]. assert (K1 : (1 <= k)%Z) by lia. apply IZR_le in K1.
  rewrite Rabs_pos_eq by (unfold epsR; lra). eapply Rle_lt_trans; [apply Rmult_le_compat_r; [lra|exact G]|]. unfold epsR. lra.
Qed.
Definition zsep (a b : zpt) : bool := let '(ax, ay, az) := a in let '(bx, by', bz) := b in
  ((ax =? bx) && (ay =? by') && (az =? bz) || negb (ax =? bx) || negb (ay =? by'))%Z.
Lemma zsep_ok a b : zsep a b = true -> zr a <> zr b -> ~ samexy (zr a) (zr b) /\ epsR <= rdist2 (zr a) (zr b).
Proof.
  destruct a as [[ax ay] az], b as [[bx by'] bz]. unfold zsep. rewrite !orb_true_iff, !andb_true_iff, !negb_true_iff, !Z.eqb_eq, !Z.eqb_neq. intros H N.
  assert (D : ax <> bx \/ ay <> by'). { destruct H as [[((-> & ->) & ->)|H]|H]; [exfalso; apply N; reflexivity|left; exact H|right; exact H]. }
  unfold samexy, zr. cbn [rx ry fst snd]. split; [intros (X & Y); apply eq_IZR in X, Y; lia|].
  unfold rdist2, rdot, rsub. cbn [rx ry rz]. rewrite <- !minus_IZR, <- !mult_IZR, <- !plus_IZR.
  assert (K : (1 <= (ax - bx) * (ax - bx) + (ay - by') * (ay - by') + (az - bz) * (az - bz))%Z).
  { pose proof (Z.square_nonneg (ax - bx)) as Q1. pose proof (Z.square_nonneg (ay - by')) as Q2. pose proof (Z.square_nonneg (az - bz)) as Q3. destruct D as [D|D].
    - assert (0 < (ax - bx) * (ax - bx))%Z by (apply Z.le_neq; split; [exact Q1|]; intros E; symmetry in E; apply Z.mul_eq_0 in E; lia). lia.
    - assert (0 < (ay - by') * (ay - by'))%Z by (apply Z.le_neq; split; [exact Q2|]; intros E; symmetry in E; apply Z.mul_eq_0 in E; lia). lia. }
  apply IZR_le in K. unfold epsR. lra.
Qed.
Definition zpts : list zpt := [(0, 0, 0); (2251799813685247, 1, 0); (1, 2251799813685245, 5); (1125899906842625, 1125899906842627, 0); (2251799813685247, 1, 0)]%Z.
Lemma zv_R p : In p zpts -> rvec (zv p) = zr p.
Proof. intros H. repeat (destruct H as [<-|H]; [apply iv_R; vm_compute; discriminate|]). destruct H. Qed.
Example C158_nonvacuous : let vs := map zv zpts in (forall v, In v vs -> tame_vec v) /\ clear_points (values vs) /\ separated (values vs) /\
  (exists p q, In p (values vs) /\ In q (values vs) /\ p <> q) /\ ~ (exists e, forall v, In v vs -> on_grid24 e v) /\
  match ConvexHull (A:=B64) (fun l => l) (map zv [(0, 0, 0); (1, 2251799813685245, 5); (1125899906842625, 1125899906842627, 0); (2251799813685247, 1, 0); (2251799813685247, 1, 0)]%Z) with
  | Ok h => map (fun v : vec B64 => sf (vx v)) h = map (fun v : vec B64 => sf (vx v)) (map zv [(0, 0, 0); (2251799813685247, 1, 0); (1125899906842625, 1125899906842627, 0); (1, 2251799813685245, 5)]%Z)
  | _ => False end.
Proof.
  cbv zeta. assert (Ev : values (map zv zpts) = map zr zpts). { unfold values. rewrite map_map. apply map_ext_in. exact zv_R. }
  rewrite Ev. split; [|split; [|split; [|split; [|split]]]].
  - intros v H. apply in_map_iff in H. destruct H as (p & <- & H). repeat (destruct H as [<-|H]; [split; [|split]; apply tame_chk_ok; vm_compute; reflexivity|]). destruct H.
  - split.
    + intros a b c Ha Hb Hc. apply in_map_iff in Ha, Hb, Hc. destruct Ha as (a' & <- & Ha), Hb as (b' & <- & Hb), Hc as (c' & <- & Hc). apply zclear_ok.
      assert (F : forallb (fun a => forallb (fun b => forallb (fun c => zclear a b c) zpts) zpts) zpts = true) by (vm_compute; reflexivity).
      rewrite forallb_forall in F. specialize (F _ Ha). rewrite forallb_forall in F. specialize (F _ Hb). rewrite forallb_forall in F. exact (F _ Hc).
    + intros a b Ha Hb. apply in_map_iff in Ha, Hb. destruct Ha as (a' & <- & Ha), Hb as (b' & <- & Hb). apply zdist_clear.
  - intros a b Ha Hb N. apply in_map_iff in Ha, Hb. destruct Ha as (a' & <- & Ha), Hb as (b' & <- & Hb). apply zsep_ok; [|exact N].
    assert (F : forallb (fun a => forallb (fun b => zsep a b) zpts) zpts = true) by (vm_compute; reflexivity).
    rewrite forallb_forall in F. specialize (F _ Ha). rewrite forallb_forall in F. exact (F _ Hb).
  - exists (zr (0, 0, 0)%Z), (zr (2251799813685247, 1, 0)%Z). split; [left; reflexivity|]. split; [right; left; reflexivity|]. intros H. apply (f_equal rx) in H. cbn [rx zr fst snd] in H. lra.
  - intros (e & H). destruct (H (zv (2251799813685247, 1, 0)%Z) ltac:(right; left; reflexivity)) as (X & Y & Z & SX & SY & _). destruct SX as [[FX EX] BX], SY as [[FY EY] BY].
    pose proof (zv_R (2251799813685247, 1, 0)%Z ltac:(right; left; reflexivity)) as E. unfold rvec, zr in E. cbn [fst snd] in E. assert (E1 := f_equal rx E). assert (E2 := f_equal ry E). cbn [rx ry] in E1, E2.
    rewrite E1 in EX. rewrite E2 in EY. clear E1 E2 E FX FY. pose proof (bpow_gt_0 radix2 e) as P. apply IZR_le in BX, BY. rewrite abs_IZR in BX.
    assert (Y1 : (1 <= Y)%Z). { destruct (Z_lt_le_dec Y 1) as [L|L]; [|exact L]. assert (L' : (Y <= 0)%Z) by lia. apply IZR_le in L'. pose proof (Rmult_le_compat_l _ _ _ (Rlt_le _ _ P) L'). lra. }
    apply IZR_le in Y1. assert (Q : bpow radix2 e <= 1) by (rewrite EY; rewrite <- (Rmult_1_r (bpow radix2 e)) at 1; apply Rmult_le_compat_l; lra).
    assert (Q2 : bpow radix2 e * IZR X <= 1 * Rabs (IZR X)). { pose proof (Rle_abs (IZR X)). pose proof (Rabs_pos (IZR X)). eapply Rle_trans; [apply Rmult_le_compat_l; [lra|eassumption]|apply Rmult_le_compat_r; lra]. }
    lra.
  - vm_compute. reflexivity.
Qed.
