(** The triangles that the triangulator returns do not overlap and cover the hull. *)
From Coq Require Import ZArith Lia List Bool Reals Lra Permutation.
From Verif Require Import Base Arith M_tri2 M_triangulator Spec_r3 Spec_plane Spec_halfedge Spec_delaunay P_tri2 P_delgeom
  P_halfedge P_ring P_flip P_leg P_tstate P_legmodel P_addtri P_ringops P_insstep P_chain P_insert P_triang P_result P_tile.
Import ListNotations.
Open Scope Z_scope.

Lemma list_min {X} (le : X -> X -> Prop) : (forall x y, le x y \/ le y x) -> (forall x y z, le x y -> le y z -> le x z) ->
  forall l, l <> [] -> exists m, In m l /\ forall x, In x l -> le m x.
Proof.
  intros Tot Tr. induction l as [|a l IH]; intros N; [contradiction|]. destruct l as [|b l].
  - exists a. split; [left; auto|]. intros x [<-|[]]. destruct (Tot a a); auto.
  - destruct IH as (m & Hm & Le); [discriminate|]. destruct (Tot a m) as [Q|Q].
    + exists a. split; [left; auto|]. intros x [<-|Hx]; [destruct (Tot a a); auto|]. apply (Tr a m x); auto.
    + exists m. split; [right; auto|]. intros x [<-|Hx]; auto.
Qed.
Lemma walk_up {X} (f : X -> bool) b : forall l a, f a = false -> In b l -> f b = true -> exists x y, In (x, y) (pairs (a :: l)) /\ f x = false /\ f y = true.
Proof.
  induction l as [|c l IH]; intros a Fa Hb Fb; [destruct Hb|]. destruct (f c) eqn:Fc.
  - exists a, c. split; [left; auto|auto].
  - destruct Hb as [->|Hb]; [congruence|]. destruct (IH c Fc Hb Fb) as (x & y & Hxy & F). exists x, y. split; [right; exact Hxy|auto].
Qed.

Section Tiling.
Variable pts : list rv.
Notation n := (Ln pts).
Notation PP := (PP pts).
Variables (i0 i1 i2 hs : Z) (s : tri) (V R : list Z).
Hypothesis RS : rest pts i0 i1 i2 hs s V R.
Notation L := (trianglesLen s).
Let M : mesh L (TT s) (HH s) := r_mesh _ _ _ _ _ _ _ _ RS.
Let RG : ring (Ln (nodes s)) (NN s) R := w_ring _ _ (r_wfs _ _ _ _ _ _ _ _ RS).

Lemma ring_triangle u v : In (u, v) (polygon_edges R) -> exists w, (0 < ar (PP u) (PP v) (PP w))%R /\
  forall p, In p V -> (0 <= incirc (PP u) (PP v) (PP w) (PP p))%R.
Proof.
  intros He. destruct (f_ok _ _ _ _ _ (r_full _ _ _ _ _ _ _ _ RS) u v He) as (Re & _ & F1 & F2).
  exists (TT s (pv (NT s u))). pose proof (r_or _ _ _ _ _ _ _ _ RS _ Re) as O. unfold orient in O. rewrite F1, F2 in O. split; auto.
  intros p Hp. pose proof (r_del _ _ _ _ _ _ _ _ RS _ p Re Hp) as D. unfold circ in D. rewrite F1, F2 in D. auto.
Qed.
Lemma ring_left u v w : In (u, v) (polygon_edges R) -> In w V -> (0 <= ar (PP u) (PP v) (PP w))%R.
Proof. intros He Hw. pose proof (r_conv _ _ _ _ _ _ _ _ RS u v w He Hw) as Q. rewrite <- ar_rot in Q. exact Q. Qed.
Lemma ring_V u v : In (u, v) (polygon_edges R) -> In u V /\ In v V.
Proof. intros He. apply pe_In in He. destruct He. split; apply (r_RV _ _ _ _ _ _ _ _ RS); auto. Qed.

Lemma ring_up_unique q u v u' v' : In (u, v) (polygon_edges R) -> In (u', v') (polygon_edges R) ->
  dn q (PP u) = false -> dn q (PP v) = true -> dn q (PP u') = false -> dn q (PP v') = true -> u = u'.
Proof.
  intros He He' Du Dv Du' Dv'. destruct (ring_V u v He) as [Vu Vv]. destruct (ring_V u' v' He') as [Vu' Vv'].
  destruct (up_up q (PP u) (PP v) (PP u') (PP v')) as [Q1 Q2]; auto; try (apply ring_left; auto).
  pose proof (dn_spec q (PP u)) as A. pose proof (dn_spec q (PP v)) as B. pose proof (dn_spec q (PP u')) as A'. pose proof (dn_spec q (PP v')) as B'.
  rewrite Du in A. rewrite Dv in B. rewrite Du' in A'. rewrite Dv' in B'. unfold ht in A, B, A', B'.
  destruct (Rtotal_order (ry (PP u)) (ry (PP u'))) as [Lt|[Eq|Gt]].
  - exfalso. destruct (ring_triangle u' v' He') as (w & O & D). pose proof (D u Vu) as Q.
    pose proof (between_in (PP u') (PP v') (PP w) (PP u) Q2) as W. apply Rle_not_lt in Q. apply Q, W; auto.
    replace ((ry (PP u) - ry (PP u')) * (ry (PP v') - ry (PP u)))%R with ((ry (PP u') - ry (PP u)) * (ry (PP u) - ry (PP v')))%R by ring.
    apply Rmult_lt_0_compat; lra.
  - apply (r_dist _ _ _ _ _ _ _ _ RS); auto. split; [|auto].
    assert (E : ((rx (PP u') - rx (PP u)) * (ry (PP v) - ry (PP u)) = 0)%R).
    { revert Q1. geo. rewrite <- Eq. lra. }
    apply Rmult_integral in E. lra.
  - exfalso. destruct (ring_triangle u v He) as (w & O & D). pose proof (D u' Vu') as Q.
    pose proof (between_in (PP u) (PP v) (PP w) (PP u') Q1) as W. apply Rle_not_lt in Q. apply Q, W; auto.
    replace ((ry (PP u') - ry (PP u)) * (ry (PP v) - ry (PP u')))%R with ((ry (PP u) - ry (PP u')) * (ry (PP u') - ry (PP v)))%R by ring.
    apply Rmult_lt_0_compat; lra.
Qed.
Definition rcross q (e : Z * Z) : Rdefinitions.R := cross q (PP (fst e)) (PP (snd e)).
Lemma rcross_pos q e : (0 < rcross q e)%R -> dn q (PP (fst e)) = false /\ dn q (PP (snd e)) = true /\ rcross q e = 1%R.
Proof.
  unfold rcross, cross. destruct (dn q (PP (fst e))), (dn q (PP (snd e))); try lra.
  - destruct (Rltb_spec (ar (PP (fst e)) (PP (snd e)) q) 0); lra.
  - destruct (Rltb_spec 0 (ar (PP (fst e)) (PP (snd e)) q)); auto; lra.
Qed.
Lemma ring_le_one q : (Rsum (rcross q) (polygon_edges R) <= 1)%R.
Proof.
  apply Rsum_one.
  - intros e He. destruct (Rle_lt_dec (rcross q e) 0) as [Q|Q]; [lra|]. apply rcross_pos in Q. lra.
  - intros e He Q. apply rcross_pos in Q. tauto.
  - apply (NoDup_map_inv fst), pe_fst_NoDup, (rg_nd _ _ _ RG).
  - intros [u v] [u' v'] He He' Q Q'. apply rcross_pos in Q, Q'. cbn [fst snd] in Q, Q'.
    assert (u = u') as <- by (apply (ring_up_unique q u v u' v'); tauto). f_equal.
    apply (pe_succ_unique R u); auto. apply (rg_nd _ _ _ RG).
Qed.
Definition strictly_in_ring q := forall u v, In (u, v) (polygon_edges R) -> (0 < ar (PP u) (PP v) q)%R.
Lemma turn_id p m k q : (ar p m k * (0 - ht q m) = (ht q p - ht q m) * ar m k q + (ht q k - ht q m) * ar p m q)%R.
Proof. unfold ht. geo. ring. Qed.
Lemma both_sides q : R <> [] -> strictly_in_ring q -> (exists a, In a R /\ dn q (PP a) = false) /\ (exists b, In b R /\ dn q (PP b) = true).
Proof.
  intros RN SI. split.
  - destruct (list_min (fun a b => ht q (PP a) < ht q (PP b) \/ (ht q (PP a) = ht q (PP b) /\ rx (PP a) <= rx (PP b)))%R) with (l := R) as (m & Hm & Le); auto.
    { intros a b. destruct (Rtotal_order (ht q (PP a)) (ht q (PP b))) as [?|[?|?]]; auto. destruct (Rle_lt_dec (rx (PP a)) (rx (PP b))); [auto|]. right. right. lra. }
    { intros a b c. lra. }
    exists m. split; auto. destruct (dn q (PP m)) eqn:D; auto. exfalso. pose proof (dn_spec q (PP m)) as A. rewrite D in A.
    destruct (pe_succ R m Hm) as (k & Ek). destruct (pe_pred R m Hm) as (p & Ep). destruct (pe_In _ _ _ Ek) as [_ Ik]. destruct (pe_In _ _ _ Ep) as [Ip _].
    pose proof (SI _ _ Ek) as S1. pose proof (SI _ _ Ep) as S2. pose proof (Le p Ip) as L1. pose proof (Le k Ik) as L2.
    pose proof (ring_left p m k Ep (r_RV _ _ _ _ _ _ _ _ RS k Ik)) as T1.
    pose proof (turn_id (PP p) (PP m) (PP k) q) as E.
    assert (0 <= (ht q (PP p) - ht q (PP m)) * ar (PP m) (PP k) q)%R by (apply Rmult_le_pos; lra).
    assert (0 <= (ht q (PP k) - ht q (PP m)) * ar (PP p) (PP m) q)%R by (apply Rmult_le_pos; lra).
    assert (0 <= ar (PP p) (PP m) (PP k) * ht q (PP m))%R by (apply Rmult_le_pos; lra).
    assert (Z2 : ((ht q (PP k) - ht q (PP m)) * ar (PP p) (PP m) q = 0)%R) by lra. apply Rmult_integral in Z2.
    assert (Hk : ht q (PP k) = ht q (PP m)) by lra.
    assert (Q : (ar (PP m) (PP k) q = (rx (PP k) - rx (PP m)) * (- ht q (PP m)) + (ht q (PP k) - ht q (PP m)) * (rx (PP m) - rx q))%R) by (unfold ht; geo; ring).
    assert (0 <= (rx (PP k) - rx (PP m)) * ht q (PP m))%R by (apply Rmult_le_pos; lra). rewrite Hk in Q. lra.
  - destruct (list_min (fun a b => ht q (PP b) < ht q (PP a) \/ (ht q (PP a) = ht q (PP b) /\ rx (PP b) <= rx (PP a)))%R) with (l := R) as (m & Hm & Le); auto.
    { intros a b. destruct (Rtotal_order (ht q (PP a)) (ht q (PP b))) as [?|[?|?]]; auto. destruct (Rle_lt_dec (rx (PP b)) (rx (PP a))); [auto|]. right. right. lra. }
    { intros a b c. lra. }
    exists m. split; auto. destruct (dn q (PP m)) eqn:D; auto. exfalso. pose proof (dn_spec q (PP m)) as A. rewrite D in A.
    destruct (pe_succ R m Hm) as (k & Ek). destruct (pe_pred R m Hm) as (p & Ep). destruct (pe_In _ _ _ Ek) as [_ Ik]. destruct (pe_In _ _ _ Ep) as [Ip _].
    pose proof (SI _ _ Ek) as S1. pose proof (SI _ _ Ep) as S2. pose proof (Le p Ip) as L1. pose proof (Le k Ik) as L2.
    pose proof (ring_left p m k Ep (r_RV _ _ _ _ _ _ _ _ RS k Ik)) as T1.
    pose proof (turn_id (PP p) (PP m) (PP k) q) as E.
    assert (0 <= - (ht q (PP p) - ht q (PP m)) * ar (PP m) (PP k) q)%R by (apply Rmult_le_pos; lra).
    assert (0 <= - (ht q (PP k) - ht q (PP m)) * ar (PP p) (PP m) q)%R by (apply Rmult_le_pos; lra).
    assert (0 <= ar (PP p) (PP m) (PP k) * - ht q (PP m))%R by (apply Rmult_le_pos; lra).
    assert (Z2 : ((ht q (PP k) - ht q (PP m)) * ar (PP p) (PP m) q = 0)%R) by lra. apply Rmult_integral in Z2.
    assert (Hk : ht q (PP k) = ht q (PP m)) by lra.
    assert (Q : (ar (PP m) (PP k) q = (rx (PP k) - rx (PP m)) * (- ht q (PP m)) + (ht q (PP k) - ht q (PP m)) * (rx (PP m) - rx q))%R) by (unfold ht; geo; ring).
    assert (0 <= (rx (PP m) - rx (PP k)) * - ht q (PP m))%R by (apply Rmult_le_pos; lra). rewrite Hk in Q. lra.
Qed.
Lemma ring_one q : strictly_in_ring q -> (1 <= Rsum (rcross q) (polygon_edges R))%R.
Proof.
  intros SI. assert (RN : R <> []).
  { destruct (w_hull _ _ (r_wfs _ _ _ _ _ _ _ _ RS)) as (h & _ & Hh). intros E. rewrite E in Hh. destruct Hh. }
  destruct (both_sides q RN SI) as [(a & Ia & Da) (b & Ib & Db)].
  destruct (rotate_to R a Ia) as (l & P1 & P2).
  assert (Hb : In b l). { apply (Permutation_in _ P1) in Ib. destruct Ib as [->|]; auto. congruence. }
  destruct (walk_up (fun i => dn q (PP i)) b (l ++ [a]) a Da ltac:(apply in_or_app; auto) Db) as (x & y & Hxy & Dx & Dy).
  rewrite <- pe_pairs in Hxy. apply (Permutation_in _ (Permutation_sym P2)) in Hxy.
  assert (Ex : rcross q (x, y) = 1%R).
  { unfold rcross, cross. cbn [fst snd]. rewrite Dx, Dy. destruct (Rltb_spec 0 (ar (PP x) (PP y) q)); auto. pose proof (SI x y Hxy). lra. }
  rewrite <- Ex. apply Rsum_ge_in; auto.
  intros [u v] He. unfold rcross, cross. cbn [fst snd]. pose proof (SI u v He). destruct (dn q (PP u)), (dn q (PP v)); try lra.
  - destruct (Rltb_spec (ar (PP u) (PP v) q) 0); lra.
  - destruct (Rltb_spec 0 (ar (PP u) (PP v) q)); lra.
Qed.
Definition tc q (t : Z * Z * Z) : Rdefinitions.R := let '(a, b, c) := t in (cross q (PP a) (PP b) + cross q (PP b) (PP c) + cross q (PP c) (PP a))%R.
Lemma total q : Rsum (tc q) (triples (T_ s)) = Rsum (rcross q) (polygon_edges R).
Proof.
  unfold tc. rewrite (slot_sum pts i0 i1 i2 hs s V R RS (fun u v => cross q (PP u) (PP v))); [reflexivity|]. intros. apply cross_anti.
Qed.
Lemma triple_or a b c : In (a, b, c) (triples (T_ s)) -> (0 < ar (PP a) (PP b) (PP c))%R.
Proof. intros H. destruct (triple_slot pts i0 i1 i2 hs s V R RS a b c H) as (e & He & -> & -> & ->). apply (r_or _ _ _ _ _ _ _ _ RS e He). Qed.
Lemma tc_nonneg q t : In t (triples (T_ s)) -> (0 <= tc q t)%R.
Proof.
  destruct t as [[a b] c]. intros H. destruct (tcross_spec q _ _ _ (triple_or a b c H)) as (Q & _). unfold tc. unfold tcross in Q. lra.
Qed.
Theorem res_disjoint q i j a b c a' b' c' : nth_error (triples (T_ s)) i = Some (a, b, c) -> nth_error (triples (T_ s)) j = Some (a', b', c') ->
  tin q (PP a) (PP b) (PP c) -> tin q (PP a') (PP b') (PP c') -> i = j.
Proof.
  intros Hi Hj Ti Tj. pose proof (nth_error_In _ _ Hi) as Ii. pose proof (nth_error_In _ _ Hj) as Ij.
  destruct (tcross_spec q _ _ _ (triple_or _ _ _ Ii)) as (_ & Q1 & _). destruct (tcross_spec q _ _ _ (triple_or _ _ _ Ij)) as (_ & Q2 & _).
  specialize (Q1 Ti). specialize (Q2 Tj). pose proof (ring_le_one q) as W. rewrite <- total in W.
  assert (E1 : tc q (a, b, c) = 1%R) by exact Q1. assert (E2 : tc q (a', b', c') = 1%R) by exact Q2.
  destruct (Nat.lt_total i j) as [Lt|[->|Lt]]; auto; exfalso.
  - pose proof (Rsum_two (tc q) (triples (T_ s)) i j _ _ (tc_nonneg q) Lt Hi Hj). lra.
  - pose proof (Rsum_two (tc q) (triples (T_ s)) j i _ _ (tc_nonneg q) Lt Hj Hi). lra.
Qed.
Theorem res_cover q : strictly_in_ring q -> exists a b c, In (a, b, c) (triples (T_ s)) /\ tinc q (PP a) (PP b) (PP c).
Proof.
  intros SI. pose proof (ring_one q SI) as W. rewrite <- total in W.
  destruct (Rsum_pos_in (tc q) (triples (T_ s))) as ([[a b] c] & Hin & P); [lra|].
  exists a, b, c. split; auto. destruct (tcross_spec q _ _ _ (triple_or a b c Hin)) as (Q1 & _ & Q3). apply Q3.
  unfold tc in P. unfold tcross in *. lra.
Qed.
End Tiling.
