(** Triangulate on exact planar input. *)
From Coq Require Import ZArith Lia List Bool Reals Lra Permutation Sorted.
From Verif Require Import Base Arith GoLoop M_r3 M_tri2 M_triangulator Spec_r3 Spec_plane Spec_halfedge Spec_delaunay XRvec P_tri2 P_polygon P_delgeom
  P_halfedge P_ring P_flip P_leg P_tstate P_legmodel P_addtri P_ringops P_insstep P_chain P_delaunay P_hullfar P_insert P_seed P_init P_flipterm.
Import ListNotations.
Open Scope Z_scope.

Section Order.
Variable pts : list rv.
Notation vs := (map fv pts).
Notation n := (Ln pts).
Notation PP := (PP pts).
Variable ctr : rv.
Notation sq := (map (fun p : vec XR => SquaredDistance p (fv ctr)) vs).
Definition key_lt (a b : Z) : Prop :=
  (rdist2 (PP a) ctr < rdist2 (PP b) ctr)%R \/
  (rdist2 (PP a) ctr = rdist2 (PP b) ctr /\
   ((rx (PP a) < rx (PP b))%R \/ (rx (PP a) = rx (PP b) /\ (ry (PP a) < ry (PP b))%R))).
Lemma nth_vs' a : 0 <= a < n -> nth (Z.to_nat a) vs (@mkvec XR (fofZ XR 0) (fofZ XR 0) (fofZ XR 0)) = fv (PP a).
Proof. intros H. apply nth_error_nth. apply nth_vs; auto. Qed.
Lemma nth_sq a : 0 <= a < n -> nth (Z.to_nat a) sq (fofZ XR 0) = Fin (rdist2 (PP a) ctr).
Proof.
  intros H. apply nth_error_nth. rewrite map_map. erewrite map_nth_error; [|unfold P_insert.PP, getz; destruct (Z.ltb_spec a 0); [lia|]; apply (nth_error_nth' pts rzero); lia].
  rewrite SquaredDistance_fv. unfold P_insert.PP, getz. destruct (Z.ltb_spec a 0); [lia|]. reflexivity.
Qed.
Lemma lessId_spec a b : 0 <= a < n -> 0 <= b < n -> (@lessId XR vs sq a b = true <-> key_lt a b).
Proof.
  intros Ha Hb. unfold lessId. rewrite !nth_vs', !nth_sq by auto. unfold key_lt. cbn.
  destruct (Reqb_spec (rdist2 (PP a) ctr) (rdist2 (PP b) ctr)) as [E|E]; cbn.
  - destruct (Reqb_spec (rx (PP a)) (rx (PP b))) as [E2|E2]; cbn; rewrite Rltb_true; split; intros; lra.
  - rewrite Rltb_true. split; intros; lra.
Qed.
Lemma lessId_false a b : 0 <= a < n -> 0 <= b < n -> (@lessId XR vs sq a b = false <-> ~ key_lt a b).
Proof. intros Ha Hb. rewrite <- lessId_spec by auto. destruct (lessId vs sq a b); split; intros; congruence. Qed.
Lemma In_allIds a m : In a (allIds m) <-> 0 <= a < Z.of_nat m.
Proof.
  unfold allIds. rewrite in_map_iff. split.
  - intros (k & <- & Hk). apply in_seq in Hk. lia.
  - intros H. exists (Z.to_nat a). split; [lia|]. apply in_seq. lia.
Qed.
Lemma allIds_NoDup m : NoDup (allIds m).
Proof. unfold allIds. apply FinFun.Injective_map_NoDup; [intros a b; lia|]. apply seq_NoDup. Qed.
Lemma sorted_ids srt : good_sort srt ->
  let ids := srt (@lessId XR vs sq) (allIds (length vs)) in
  NoDup ids /\ (forall a, In a ids <-> 0 <= a < n) /\ StronglySorted (fun a b => (rdist2 (PP a) ctr <= rdist2 (PP b) ctr)%R) ids.
Proof.
  intros GS. cbv zeta. rewrite map_length. destruct (GS (@lessId XR vs sq) (allIds (length pts))) as [PM ST].
  - intros a b Ha Hb L. apply In_allIds in Ha. apply In_allIds in Hb. apply lessId_spec in L; auto. apply lessId_false; auto.
    unfold key_lt in *. lra.
  - intros a b c Ha Hb Hc L1 L2. apply In_allIds in Ha. apply In_allIds in Hb. apply In_allIds in Hc.
    apply lessId_false in L1; auto. apply lessId_false in L2; auto. apply lessId_false; auto. unfold key_lt in *. lra.
  - set (ids := srt _ _) in *. assert (I : forall a, In a ids <-> 0 <= a < n).
    { intros a. rewrite <- In_allIds. split; apply Permutation_in; auto. apply Permutation_sym; auto. }
    split; [apply (Permutation_NoDup PM), allIds_NoDup|]. split; auto.
    assert (I' : forall a, In a ids -> 0 <= a < n) by (intros a; apply I). clear PM I.
    induction ST as [|x l ST IH F]; constructor.
    + apply IH. intros a Ha. apply I'. right; auto.
    + rewrite Forall_forall in *. intros b Hb. specialize (F b Hb). apply lessId_false in F; [|apply I'; simpl; auto|apply I'; simpl; auto].
      unfold key_lt in F. lra.
Qed.
End Order.

(** the insertion loop, for any arithmetic that decides the predicates exactly *)
Section Loop.
Context {FA : Arith}.
Variables (vs : list (vec FA)) (pts : list rv).
Hypothesis EX : exact_preds vs pts.
Notation n := (Ln pts).
Notation PP := (PP pts).
Variables (i0 i1 i2 : Z) (ctr : vec FA) (o : rv).
Hypothesis Hpl : planar pts.
Hypothesis Hseed : forall v, 0 <= v < n -> (0 <= incirc (PP i0) (PP i1) (PP i2) (PP v))%R.
Hypothesis Hseed_or : (0 < ar (PP i0) (PP i1) (PP i2))%R.
Variable hs : Z.
Hypothesis Hhs : 0 < hs.
Hypothesis HKEY : forall v, 0 <= v < n -> 0 <= hashKey ctr hs (vat vs v) < hs.
Hypothesis Hnear0 : forall i, 0 <= i < n -> flt FA (SquaredDistance (vat vs i) (mkvec infinity infinity (fofZ FA 0))) eps = false.
Hypothesis Hnear : forall i j, 0 <= i < n -> 0 <= j < n ->
  flt FA (SquaredDistance (vat vs i) (vat vs j)) eps = true -> (rdist2 (PP i) (PP j) < epsR)%R.
Notation rest := (rest pts i0 i1 i2 hs).
Notation D v := (dist2xy (PP v) o).
(* [u] may be inserted before [v] *)
Definition before (u v : Z) : Prop := samexy (PP v) (PP u) \/ (D u < D v + dist2xy (PP u) (PP v))%R.

Lemma rest_len s V R : rest s V R -> (2 <= length R)%nat.
Proof.
  intros RS. destruct (w_hull _ _ (r_wfs _ _ _ _ _ _ _ _ RS)) as (h & _ & Ih).
  destruct R as [|a [|b R]]; [destruct Ih| |simpl; lia]. exfalso.
  assert (Q : In (a, a) (polygon_edges [a])) by (left; auto).
  destruct (f_ok _ _ _ _ _ (r_full _ _ _ _ _ _ _ _ RS) a a Q) as (R1 & _ & E1 & E2).
  apply (m_ne _ _ _ (r_mesh _ _ _ _ _ _ _ _ RS) _ R1). congruence.
Qed.
Lemma rest_seeds s V R : rest s V R -> In i0 V /\ In i1 V /\ In i2 V.
Proof. intros RS. apply (seed_in pts i0 i1 i2 hs V R s RS). Qed.
Lemma no_edge_coincides s V R p : rest s V R -> 0 <= p < n -> (forall v, In v V -> before v p) ->
  (forall u v, In (u, v) (polygon_edges R) -> ~ vis PP p u v) -> exists v, In v V /\ samexy (PP p) (PP v).
Proof.
  intros RS Rp Far NV.
  assert (Dec : (exists v, In v V /\ samexy (PP p) (PP v)) \/ (forall v, In v V -> ~ samexy (PP p) (PP v))).
  { clear. induction V as [|a V IH]; [right; intros v []|]. destruct (Req_dec (rx (PP p)) (rx (PP a))) as [E1|E1]; [destruct (Req_dec (ry (PP p)) (ry (PP a))) as [E2|E2]|].
    1: left; exists a; split; [left; auto|split; auto].
    all: destruct IH as [(v & Iv & Q)|IH]; [left; exists v; split; [right; auto|auto]|].
    all: right; intros v [<-|Hv]; auto; intros [Q1 Q2]; contradiction. }
  destruct Dec as [|Dec]; auto. exfalso.
  destruct (far_visible PP p V R o) as (u & v & E & Vis); auto.
  - apply (r_RV _ _ _ _ _ _ _ _ RS).
  - apply (rg_nd _ _ _ (w_ring _ _ (r_wfs _ _ _ _ _ _ _ _ RS))).
  - apply (r_conv _ _ _ _ _ _ _ _ RS).
  - apply (r_dist _ _ _ _ _ _ _ _ RS).
  - destruct (rest_seeds _ _ _ RS) as (I0 & I1 & I2). exists i0, i1, i2. repeat split; auto. lra.
  - pose proof (rest_len _ _ _ RS). destruct R; [simpl in *; lia|discriminate].
  - apply (rest_len _ _ _ RS).
  - intros v Hv. destruct (Far v Hv) as [Q|Q]; auto. exfalso. apply (Dec v Hv Q).
  - apply (NV u v); auto.
Qed.

Definition last_point (pp : vec FA) (V : list Z) : Prop :=
  pp = mkvec infinity infinity (fofZ FA 0) \/
  exists j v, 0 <= j < n /\ pp = vat vs j /\ In v V /\ samexy (PP j) (PP v).
Lemma samexy_same u v : 0 <= u < n -> 0 <= v < n -> samexy (PP u) (PP v) -> PP u = PP v.
Proof.
  intros Hu Hv [E1 E2]. pose proof (Hpl (PP u) (PP v) (PP_In pts u Hu) (PP_In pts v Hv)) as E3.
  destruct (PP u), (PP v); simpl in *; congruence.
Qed.
Lemma rdist2_refl a : rdist2 a a = 0%R.
Proof. unfold rdist2, rdot, rsub; simpl. ring. Qed.

Lemma insertAll_ok : forall ids pp s V R, rest s V R -> NoDup ids -> (forall i, In i ids -> 0 <= i < n) ->
  (forall i, In i ids -> In i V -> i = i0 \/ i = i1 \/ i = i2) ->
  StronglySorted before ids -> (forall v i, In v V -> In i ids -> before v i) ->
  last_point pp V ->
  exists s' V' R', insertAll vs ctr i0 i1 i2 ids pp s = Ok s' /\ rest s' V' R' /\
    (forall v, In v V -> In v V') /\ forall i, In i ids -> exists v, In v V' /\ (rdist2 (PP i) (PP v) < epsR)%R.
Proof.
  assert (E0 : (0 < epsR)%R) by (pose proof epsR_pos; lra).
  induction ids as [|i ids IH]; intros pp s V R RS ND Rg Ov ST Far LP.
  { exists s, V, R. cbn. split; auto. split; auto. split; auto. intros i []. }
  apply NoDup_cons_iff in ND. destruct ND as [Ni ND]. apply StronglySorted_inv in ST. destruct ST as [ST Fi]. rewrite Forall_forall in Fi.
  cbn [insertAll]. assert (Ri : 0 <= i < n) by (apply Rg; simpl; auto). rewrite (zget_vat vs pts EX) by auto. cbn [rbind].
  assert (Rg' : forall j, In j ids -> 0 <= j < n) by (intros; apply Rg; right; auto).
  assert (Ov' : forall j, In j ids -> In j V -> j = i0 \/ j = i1 \/ j = i2) by (intros; apply Ov; [right|]; auto).
  assert (Far' : forall v j, In v V -> In j ids -> before v j) by (intros; apply Far; [|right]; auto).
  destruct (flt FA (SquaredDistance (vat vs i) pp) eps) eqn:Near.
  - (* near-duplicate *)
    destruct (IH pp s V R RS ND Rg' Ov' ST Far' LP) as (s' & V' & R' & E & RS' & Sub & Cov).
    exists s', V', R'. split; auto. split; auto. split; auto. intros j [<-|Hj]; auto.
    destruct LP as [->|(k & v & Rk & -> & Iv & Sk)]; [rewrite Hnear0 in Near by auto; discriminate|].
    exists v. split; auto. apply Hnear in Near; auto.
    rewrite <- (samexy_same k v); auto. apply (r_range _ _ _ _ _ _ _ _ RS); auto.
  - assert (LPi : forall W v, In v W -> samexy (PP i) (PP v) -> last_point (vat vs i) W).
    { intros W v Hv Sv. right. exists i, v. auto. }
    assert (Refl : samexy (PP i) (PP i)) by (split; auto).
    destruct ((i =? i0) || (i =? i1) || (i =? i2)) eqn:Sd.
    + assert (Iv : In i V).
      { destruct (rest_seeds _ _ _ RS) as (I0 & I1 & I2).
        apply orb_true_iff in Sd. rewrite orb_true_iff in Sd. destruct Sd as [[Q|Q]|Q]; apply Z.eqb_eq in Q; subst i; auto. }
      destruct (IH (vat vs i) s V R RS ND Rg' Ov' ST Far' (LPi V i Iv Refl)) as (s' & V' & R' & E & RS' & Sub & Cov).
      exists s', V', R'. split; auto. split; auto. split; auto. intros j [<-|Hj]; auto.
      exists i. split; auto. rewrite rdist2_refl. auto.
    + apply orb_false_iff in Sd. rewrite orb_false_iff in Sd. destruct Sd as [[Q0 Q1] Q2].
      apply Z.eqb_neq in Q0. apply Z.eqb_neq in Q1. apply Z.eqb_neq in Q2.
      assert (NV : ~ In i V). { intros Q. destruct (Ov i) as [|[|]]; simpl; auto. }
      destruct (insertPoint_ok vs pts EX i0 i1 i2 ctr Hseed Hseed_or hs Hhs HKEY i V R s RS Ri NV) as [[E Nvis]|(s1 & C & E & RS1 & _)];
        rewrite E; cbn [rbind].
      * destruct (no_edge_coincides s V R i RS Ri) as (v & Iv & Sv); auto.
        { intros v Hv. apply Far; simpl; auto. }
        destruct (IH (vat vs i) s V R RS ND Rg' Ov' ST Far' (LPi V v Iv Sv)) as (s' & V' & R' & E' & RS' & Sub & Cov).
        exists s', V', R'. split; auto. split; auto. split; auto. intros j [<-|Hj]; auto.
        exists v. split; auto. rewrite (samexy_same i v); auto. rewrite rdist2_refl; auto. apply (r_range _ _ _ _ _ _ _ _ RS); auto.
      * destruct (IH (vat vs i) s1 (i :: V) (i :: C) RS1 ND Rg') as (s' & V' & R' & E' & RS' & Sub & Cov); auto.
        { intros j Hj [<-|Hv]; [contradiction|auto]. }
        { intros v j [<-|Hv] Hj; auto. }
        { apply (LPi _ i); simpl; auto. }
        exists s', V', R'. split; auto. split; auto. split; [intros; apply Sub; simpl; auto|]. intros j [<-|Hj]; auto.
        exists i. split; [apply Sub; simpl; auto|]. rewrite rdist2_refl. auto.
Qed.
End Loop.

Definition cut (s : tri) : tri := withHalfedges (live s (halfedges s)) (withTriangles (live s (triangles s)) s).

(** from the seeds to the result *)
Lemma triangulate_eq {FA : Arith} srt (vs : list (vec FA)) : vs <> [] -> triangulate srt vs =
      let! (x0, y0, x1, y1) := bounds vs in
      let m := mkvec (fdiv FA (fadd FA x0 x1) (fofZ FA 2)) (fdiv FA (fadd FA y0 y1) (fofZ FA 2)) (fofZ FA 0) in
      let i0 := seed0 vs m in
      let! v0 := zget vs i0 in
      let i1 := seed1 vs i0 v0 in
      let! v1 := zget vs i1 in
      let '(i2, minRadius) := seed2 vs i0 i1 v0 v1 in
      if feq FA minRadius infinity then Ok (emptyTri, true)
      else
        let! v2 := zget vs i2 in
        let '(i1, i2) := if flt FA (area v0 v1 v2) (fofZ FA 0) then (i2, i1) else (i1, i2) in
        let! v1 := zget vs i1 in
        let! v2 := zget vs i2 in
        let center := circumcenter v0 v1 v2 in
        let sq := map (fun p => SquaredDistance p center) vs in
        let ids := srt (lessId vs sq) (allIds (length vs)) in
        let! s := initTri vs center i0 i1 i2 in
        let! s := insertAll vs center i0 i1 i2 ids (mkvec infinity infinity (fofZ FA 0)) s in
        Ok (cut s, false).
Proof. destruct vs as [|a l]; [contradiction|]. reflexivity. Qed.

Section Run.
Context {FA : Arith}.
Variables (vs : list (vec FA)) (pts : list rv).
Hypothesis EX : exact_preds vs pts.
Notation n := (Ln pts).
Notation PP := (PP pts).
Variables (i0 i1 i2 : Z) (ctr : vec FA) (o : rv).
Hypothesis Hpl : planar pts.
Hypothesis Hseed : forall v, 0 <= v < n -> (0 <= incirc (PP i0) (PP i1) (PP i2) (PP v))%R.
Hypothesis Hseed_or : (0 < ar (PP i0) (PP i1) (PP i2))%R.
Hypothesis R0 : 0 <= i0 < n.
Hypothesis R1 : 0 <= i1 < n.
Hypothesis R2 : 0 <= i2 < n.
Notation hs := (ftoZ FA (fceil FA (fsqrt FA (fofZ FA n)))).
Hypothesis Hhs : 0 < hs.
Hypothesis HKEY : forall v, 0 <= v < n -> 0 <= hashKey ctr hs (vat vs v) < hs.
Hypothesis Hnear0 : forall i, 0 <= i < n -> flt FA (SquaredDistance (vat vs i) (mkvec infinity infinity (fofZ FA 0))) eps = false.
Hypothesis Hnear : forall i j, 0 <= i < n -> 0 <= j < n ->
  flt FA (SquaredDistance (vat vs i) (vat vs j)) eps = true -> (rdist2 (PP i) (PP j) < epsR)%R.
Variable ids : list Z.
Hypothesis Hnd : NoDup ids.
Hypothesis Hids : forall a, In a ids <-> 0 <= a < n.
Hypothesis Hst : StronglySorted (before pts o) ids.
Hypothesis Hfirst : forall j i, In j [i0; i1; i2] -> 0 <= i < n -> before pts o j i.

Theorem run_ok : exists s V R,
  (let! s := initTri vs ctr i0 i1 i2 in
   let! s := insertAll vs ctr i0 i1 i2 ids (mkvec infinity infinity (fofZ FA 0)) s in
   Ok (cut s, false)) = Ok (cut s, false) /\
  rest pts i0 i1 i2 hs s V R /\
  forall i, 0 <= i < n -> exists v, In v V /\ (rdist2 (PP i) (PP v) < epsR)%R.
Proof.
  destruct (initTri_ok vs pts EX i0 i1 i2 ctr Hseed Hseed_or R0 R1 R2 Hhs HKEY) as (s & Ei & RS). rewrite Ei. cbn [rbind].
  destruct (insertAll_ok vs pts EX i0 i1 i2 ctr o Hpl Hseed Hseed_or hs Hhs HKEY Hnear0 Hnear ids
    (mkvec infinity infinity (fofZ FA 0)) s [i0; i1; i2] [i0; i1; i2]) as (s' & V' & R' & Ea & RS' & _ & Cov); auto.
  - intros i Hi. apply Hids; auto.
  - intros i _ [<-|[<-|[<-|[]]]]; auto.
  - intros v i Hv Hi. apply Hfirst; auto. apply Hids; auto.
  - left. reflexivity.
  - exists s', V', R'. rewrite Ea. cbn [rbind]. split; auto. split; auto. intros i Hi. apply Cov. apply Hids; auto.
Qed.
End Run.

Theorem triangulate_planar srt pts : good_sort srt -> planar pts -> length pts <> 1%nat -> Ln pts < 2 ^ 63 ->
  (pts = [] /\ triangulate srt (map fv pts) = Ok (emptyTri, false)) \/
  (2 <= Ln pts /\ on_a_line pts /\ triangulate srt (map fv pts) = Ok (emptyTri, true)) \/
  (~ on_a_line pts /\ exists s V R i0 i1 i2, triangulate srt (map fv pts) = Ok (cut s, false) /\
     rest pts i0 i1 i2 (hsize pts) s V R /\
     forall i, 0 <= i < Ln pts -> exists v, In v V /\ (rdist2 (PP pts i) (PP pts v) < epsR)%R).
Proof.
  intros GS Pl L1 Big. destruct (Nat.eq_dec (length pts) 0) as [E|NE].
  { left. destruct pts; [|discriminate]. split; reflexivity. }
  right. assert (N2 : 2 <= Ln pts) by lia.
  rewrite triangulate_eq by (intros Q; apply NE; destruct pts; [reflexivity|discriminate]). cbv zeta. set (n := Ln pts) in *.
  unfold bounds. rewrite !zget_vs by lia. cbn [rbind]. destruct (fold_left _ _ _) as [[[x0 y0] x1] y1].
  set (m := @mkvec XR _ _ _). pose proof (seed0_range pts N2 m) as R0. rewrite (zget_vs pts (seed0 _ m)) by auto. cbn [rbind].
  set (i0 := seed0 (map fv pts) m) in *. destruct (seed1_spec pts Pl N2 i0 R0) as [R1 _]. rewrite (zget_vs pts (seed1 _ _ _)) by auto. cbn [rbind].
  destruct (seed2 _ _ _ _ _) as [i2 r] eqn:E2.
  destruct (seeds_ok pts Pl N2 m _ i2 r eq_refl E2) as (_ & _ & D).
  set (i1 := seed1 (map fv pts) i0 (fv (PP pts i0))) in *.
  destruct D as [[-> Line]|(Ef & R2 & Ar & Emp)].
  { left. cbn. auto. }
  change (ar (PP pts i0) (PP pts i1) (PP pts i2) <> 0%R) in Ar.
  change (forall v, 0 <= v < n -> (0 <= ar (PP pts i0) (PP pts i1) (PP pts i2) * incirc (PP pts i0) (PP pts i1) (PP pts i2) (PP pts v))%R) in Emp.
  right. assert (NL : ~ on_a_line pts).
  { intros Ln. apply Ar. apply (line_ar pts _ _ _ Ln); apply PP_In; auto. }
  split; auto. rewrite Ef. rewrite (zget_vs pts i2) by auto. cbn [rbind].
  rewrite area_fv.
  (* the general case for a positively oriented seed *)
  assert (Gen : forall j1 j2, 0 <= j1 < n -> 0 <= j2 < n -> (0 < ar (PP pts i0) (PP pts j1) (PP pts j2))%R ->
    (forall v, 0 <= v < n -> (0 <= incirc (PP pts i0) (PP pts j1) (PP pts j2) (PP pts v))%R) ->
    exists s V R a0 a1 a2,
     (let! v1 := zget (map fv pts) j1 in
      let! v2 := zget (map fv pts) j2 in
      let! s := initTri (map fv pts) (circumcenter (fv (PP pts i0)) v1 v2) i0 j1 j2 in
      let! s := insertAll (map fv pts) (circumcenter (fv (PP pts i0)) v1 v2) i0 j1 j2
         (srt (lessId (map fv pts) (map (fun p => SquaredDistance p (circumcenter (fv (PP pts i0)) v1 v2)) (map fv pts))) (allIds (length (map fv pts))))
         (mkvec infinity infinity (fofZ XR 0)) s in
      Ok (cut s, false)) = Ok (cut s, false) /\
     rest pts a0 a1 a2 (hsize pts) s V R /\
     forall i, 0 <= i < n -> exists v, In v V /\ (rdist2 (PP pts i) (PP pts v) < epsR)%R).
  { intros j1 j2 Rj1 Rj2 Or Hs. rewrite !zget_vs by auto. cbn [rbind].
    assert (Nc : ccw (PP pts i0) (PP pts j1) (PP pts j2) <> 0%R) by (unfold ar in Or; lra).
    rewrite circumcenter_fv by auto. set (ctr := rcircumcenter (PP pts i0) (PP pts j1) (PP pts j2)).
    pose proof (rcircumcenter_circle _ _ _ Nc) as Ci. fold ctr in Ci.
    set (r2 := dist2xy (PP pts i0) ctr) in *.
    assert (Rp : (0 < r2)%R).
    { destruct (sq2_nonneg (PP pts i0) ctr) as [|Q]; [auto|]. exfalso. fold r2 in Q. unfold sq2 in Q. fold r2 in Q. 
      destruct Ci as (C1 & C2 & C3). rewrite <- Q in *. apply sq2_zero in C1. apply sq2_zero in C2. 
      destruct C1 as [A1 A2]. destruct C2 as [B1 B2]. apply Nc. unfold ccw. rewrite A1, A2, B1, B2. ring. }
    assert (Out : forall v, 0 <= v < n -> (r2 <= dist2xy (PP pts v) ctr)%R).
    { intros v Hv. specialize (Hs v Hv). rewrite (incirc_identity _ _ _ _ _ _ Ci) in Hs. unfold ar in Or.
      destruct (Rle_lt_dec r2 (dist2xy (PP pts v) ctr)) as [|Q]; auto. exfalso.
      assert (0 < (- ccw (PP pts i0) (PP pts j1) (PP pts j2)) * (r2 - dist2xy (PP pts v) ctr))%R by (apply Rmult_lt_0_compat; lra). lra. }
    assert (Hctr : forall v, 0 <= v < n -> ~ samexy ctr (PP pts v)).
    { intros v Hv [Q1 Q2]. specialize (Out v Hv). unfold dist2xy in Out. rewrite Q1, Q2 in Out. lra. }
    pose proof (sorted_ids pts ctr srt GS) as SI. cbv zeta in SI.
    set (ids := srt _ _) in *. destruct SI as (ND & Iids & ST).
    pose proof (hsize_range pts i0 R0 Big) as HR.
    assert (B : forall a b, 0 <= a < n -> 0 <= b < n -> (dist2xy (PP pts a) ctr <= dist2xy (PP pts b) ctr)%R -> before pts ctr a b).
    { intros a b Ha Hb Q. unfold before. destruct (sq2_nonneg (PP pts a) (PP pts b)) as [G|G]; unfold sq2 in G; [right; lra|left].
      symmetry in G. apply sq2_zero in G. destruct G. split; auto. }
    destruct (run_ok (map fv pts) pts (exact_XR pts) i0 j1 j2 (fv ctr) ctr) with (ids := ids) as (s & V & R & E & RS & Cov); auto.
    - rewrite (hsize_eq pts i0 R0 Big). lia.
    - rewrite (hsize_eq pts i0 R0 Big). intros v Hv. rewrite vat_PP. apply hashKey_range; auto.
    - intros i Hi. rewrite vat_PP. reflexivity.
    - intros i j Hi Hj Near. rewrite !vat_PP, SquaredDistance_fv, eps_fin in Near. cbn in Near. apply Rltb_true in Near. exact Near.
    - assert (Ii : forall a, In a ids -> 0 <= a < n) by (intros a; apply Iids). clearbody ids. clearbody ctr. clear -ST Ii Pl B. induction ST as [|x l ST IH F]; constructor.
      + apply IH. intros; apply Ii; right; auto.
      + rewrite Forall_forall in *. intros y Hy. specialize (F y Hy).
        assert (E : rz (PP pts x) = rz (PP pts y)) by (apply Pl; apply PP_In; apply Ii; simpl; auto).
        apply B; [apply Ii; simpl; auto|apply Ii; simpl; auto|].
        unfold rdist2, rdot, rsub in F; simpl in F. unfold dist2xy. rewrite E in F. lra.
    - intros v i Hv Hi. specialize (Out i Hi). destruct Ci as (C1 & C2 & C3).
      destruct Hv as [<-|[<-|[<-|[]]]]; apply B; auto; lra.
    - exists s, V, R, i0, j1, j2. rewrite (hsize_eq pts i0 R0 Big) in RS. split; auto. }
  cbn [flt XR xltb fofZ]. destruct (Rltb (- ccw (PP pts i0) (PP pts i1) (PP pts i2)) 0) eqn:B.
  - apply Rltb_true in B.
    assert (B' : (ar (PP pts i0) (PP pts i1) (PP pts i2) < 0)%R) by (unfold ar; lra). apply Gen; auto.
    + rewrite ar_swap23. lra.
    + intros v Hv. specialize (Emp v Hv).
      assert (E : incirc (PP pts i0) (PP pts i2) (PP pts i1) (PP pts v) = (- incirc (PP pts i0) (PP pts i1) (PP pts i2) (PP pts v))%R)
        by (unfold incirc; ring).
      rewrite E. apply (Rmult_le_reg_l (- ar (PP pts i0) (PP pts i1) (PP pts i2))); lra.
  - assert (B' : (0 < ar (PP pts i0) (PP pts i1) (PP pts i2))%R).
    { unfold Rltb in B. destruct Rlt_dec; [discriminate|]. unfold ar in *. lra. }
    apply Gen; auto. intros v Hv. specialize (Emp v Hv).
    apply (Rmult_le_reg_l (ar (PP pts i0) (PP pts i1) (PP pts i2))); lra.
Qed.
