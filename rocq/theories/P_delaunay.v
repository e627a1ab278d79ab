(** After the insertion of p with all its opposite edges legal, every circumcircle is empty. *)
From Coq Require Import ZArith Lia List Bool Reals Lra Permutation.
From Verif Require Import Base Arith Spec_r3 Spec_plane P_tri2 P_delgeom P_halfedge P_ring P_flip P_leg P_addtri P_insstep P_legmodel.
Import ListNotations.
Open Scope Z_scope.

(** an element of least value *)
Lemma list_argmin {X} (f : X -> R) (l : list X) : l <> [] -> exists x, In x l /\ forall y, In y l -> (f x <= f y)%R.
Proof.
  induction l as [|a l IH]; [contradiction|]. intros _. destruct l as [|b l].
  - exists a. split; [left; auto|]. intros y [<-|[]]. lra.
  - destruct IH as (x & Hx & Hm); [discriminate|].
    destruct (Rle_lt_dec (f a) (f x)) as [Q|Q].
    + exists a. split; [left; auto|]. intros y [<-|Hy]; [lra|]. pose proof (Hm y Hy). lra.
    + exists x. split; [right; auto|]. intros y [<-|Hy]; [lra|]. auto.
Qed.

Section Final.
Variables (P : Z -> rv) (p : Z) (V0 Rg : list Z) (L : Z) (T H N : Z -> Z).
Hypothesis G : ginv P p V0 L T H.
Hypothesis LE : legal_except P p L T H (fun _ => False).
Hypothesis F : hfull Rg L T H N.
Hypothesis Hconv : forall u v w, In (u, v) (polygon_edges Rg) -> In w (p :: V0) -> (0 <= ar (P w) (P u) (P v))%R.
Hypothesis Hp : ~ In p V0.
Hypothesis Hout : exists x y, (ar (P p) (P x) (P y) < 0)%R /\ forall w, In w V0 -> (0 <= ar (P w) (P x) (P y))%R.
Notation M := (g_mesh _ _ _ _ _ _ G).

Lemma bound_inside e w : 0 <= e < L -> H e = -1 -> In w (p :: V0) -> (0 <= ar (P (T e)) (P (T (nx e))) (P w))%R.
Proof.
  intros He Hm Hw. destruct (f_cov _ _ _ _ _ F e He Hm) as (v & Hv & Ev).
  destruct (pe_succ _ _ Hv) as (z & Hz). destruct (f_ok _ _ _ _ _ F _ _ Hz) as (_ & _ & Q1 & Q2).
  rewrite Ev in Q1, Q2. rewrite Q1, Q2. rewrite ar_rot. apply Hconv; auto.
Qed.
Lemma star_slot e : 0 <= e < L -> has p T e -> exists f, same_tri e f /\ 0 <= f < L /\ T (pv f) = p.
Proof.
  intros He [E|[E|E]].
  - exists (nx e). split; [apply same_tri_nx|]. split; [apply nx_range; auto; apply (m_L3 _ _ _ M)|]. rewrite pv_nx. auto.
  - exists (pv e). split; [apply same_tri_pv|]. split; [apply pv_range; auto; apply (m_L3 _ _ _ M)|]. rewrite pv_pv. auto.
  - exists e. split; [apply same_tri_refl|]. auto.
Qed.
Lemma vert_in e : 0 <= e < L -> T e <> p -> In (T e) V0.
Proof. intros He Hn. destruct (g_vert _ _ _ _ _ _ G e He); [contradiction|auto]. Qed.

Lemma star_empty e v : 0 <= e < L -> has p T e -> In v (p :: V0) -> (0 <= circ P T e v)%R.
Proof.
  intros He Hh Hv. destruct (star_slot e He Hh) as (f & Sf & Rf & Ef).
  rewrite <- (circ_same P T e f v Sf). clear e He Hh Sf.
  pose proof (g_or _ _ _ _ _ _ G f Rf) as Or. unfold orient in Or. rewrite Ef in Or.
  destruct Hv as [<-|Hv].
  { unfold circ. rewrite <- Ef. destruct (incirc_vertex (P (T f)) (P (T (nx f))) (P (T (pv f)))) as (_ & _ & ->). lra. }
  destruct (Rle_lt_dec 0 (ar (P (T f)) (P (T (nx f))) (P v))) as [S|S].
  { apply (g_side _ _ _ _ _ _ G); auto. }
  destruct (m_pair _ _ _ M f Rf) as [B|(Rh & I & E1 & E2)].
  { pose proof (bound_inside f v Rf B (or_intror Hv)). lra. }
  destruct (mesh_distinct _ _ _ f M Rf) as (D1 & D2 & D3).
  pose proof (g_or _ _ _ _ _ _ G (H f) Rh) as Oh. unfold orient in Oh. rewrite E1, E2 in Oh.
  assert (W : T (pv (H f)) <> p).
  { intros E. rewrite E in Oh. clear - Or Oh. arlra. }
  assert (NH : ~ has p T (H f)).
  { intros [E|[E|E]]; congruence. }
  pose proof (pv_range L (H f) (m_L3 _ _ _ M) Rh) as Rpv.
  pose proof (LE f Rf Ef (fun x => x) (proj1 Rh)) as Lg. unfold circ in *. rewrite Ef in *.
  pose proof (g_empty _ _ _ _ _ _ G (H f) Rh NH v Hv) as Em. unfold circ in Em. rewrite E1, E2 in Em.
  apply (pencil_other_side _ _ (P p) (P (T (pv (H f)))) (P v)); auto. lra.
Qed.

(** ** Triangles without p *)
Definition power (e : Z) : R := (circ P T e p / orient P T e)%R.
Lemma power_same e f : same_tri e f -> power f = power e.
Proof. intros S. unfold power. rewrite (circ_same P T e f p S), (orient_same P T e f S). reflexivity. Qed.
Definition nonstar : list Z := filter (fun e => if has_dec p T e then false else true) (tris L).
Lemma tris_range e : In e (tris L) -> 0 <= e < L.
Proof.
  unfold tris. intros Hi. apply in_map_iff in Hi. destruct Hi as (k & <- & Hk). apply in_seq in Hk.
  pose proof (m_L _ _ _ M). pose proof (Z.div_mod L 3). pose proof (Z.mod_pos_bound L 3). lia.
Qed.
Lemma nonstar_In e : 0 <= e < L -> ~ has p T e -> In (3 * (e / 3)) nonstar /\ same_tri (3 * (e / 3)) e.
Proof.
  intros He Hn.
  assert (S : same_tri (3 * (e / 3)) e).
  { rewrite same_tri_div. rewrite <- (Z.add_0_r (3 * (e / 3))). apply div3_eq. lia. }
  split; auto. apply filter_In. split; [apply tris_In; auto; apply (m_L3 _ _ _ M)|].
  destruct (has_dec p T (3 * (e / 3))) as [Q|]; auto. exfalso. apply Hn. apply (has_same_tri p T _ _ S Q).
Qed.
(* points of the closed disc of e beyond its edge *)
Definition beyond (e : Z) (v : Z) : bool :=
  if Rle_dec (circ P T e v) 0 then if Rlt_dec (ar (P (T e)) (P (T (nx e))) (P v)) 0 then true else false else false.
Definition nbeyond (e : Z) : nat := length (filter (beyond e) V0).
Lemma beyond_true e v : beyond e v = true <-> (circ P T e v <= 0)%R /\ (ar (P (T e)) (P (T (nx e))) (P v) < 0)%R.
Proof.
  unfold beyond. destruct (Rle_dec (circ P T e v) 0); destruct (Rlt_dec (ar (P (T e)) (P (T (nx e))) (P v)) 0);
    split; try discriminate; try tauto; intros [? ?]; contradiction.
Qed.

Lemma walk : forall n e, (nbeyond e < n)%nat -> 0 <= e < L -> ~ has p T e ->
  (circ P T e p < 0)%R -> (ar (P (T e)) (P (T (nx e))) (P p) < 0)%R ->
  (forall f, 0 <= f < L -> ~ has p T f -> (power e <= power f)%R) -> False.
Proof.
  induction n as [|n IH]; intros e Hn He Hh Hc Hf Hmin; [lia|].
  pose proof (g_or _ _ _ _ _ _ G e He) as Oe.
  destruct (m_pair _ _ _ M e He) as [B|(Rh & I & E1 & E2)].
  { pose proof (bound_inside e p He B (or_introl eq_refl)). lra. }
  remember (H e) as f eqn:Df.
  pose proof (g_or _ _ _ _ _ _ G f Rh) as Of.
  pose proof (pv_range L f (m_L3 _ _ _ M) Rh) as Rpf. pose proof (pv_range L e (m_L3 _ _ _ M) He) as Rpe.
  assert (NTe : T e <> p) by (intros Q; apply Hh; left; auto).
  assert (NTn : T (nx e) <> p) by (intros Q; apply Hh; right; left; auto).
  assert (NTp : T (pv e) <> p) by (intros Q; apply Hh; right; right; auto).
  destruct (has_dec p T f) as [Sf|Sf].
  { (* star neighbour: it would be illegal *)
    assert (Ep : T (pv f) = p) by (destruct Sf as [Q|[Q|Q]]; congruence).
    assert (Hf0 : 0 <= H f) by (rewrite I; lia).
    pose proof (LE f Rh Ep (fun x => x) Hf0) as Lg. rewrite I in Lg. unfold circ in Lg, Hc.
    rewrite E1, E2, Ep in Lg. rewrite incirc_swap2 in Lg. lra. }
  assert (Iu : In (T (pv f)) V0).
  { apply vert_in; auto. intros Q. apply Sf. right; right; auto. }
  set (x := P (T e)) in *. set (y := P (T (nx e))) in *. set (w := P (T (pv e))) in *. set (u := P (T (pv f))) in *.
  assert (Cf : forall v, circ P T f v = incirc y x u (P v)) by (intros v; unfold circ; rewrite E1, E2; reflexivity).
  assert (Orf : orient P T f = ar y x u) by (unfold orient; rewrite E1, E2; reflexivity).
  assert (Ce : forall v, circ P T e v = incirc x y w (P v)) by reflexivity.
  assert (Ore : orient P T e = ar x y w) by reflexivity.
  rewrite Ore in Oe. rewrite Orf in Of.
  assert (Eu : (0 <= incirc x y w u)%R).
  { pose proof (g_empty _ _ _ _ _ _ G e He Hh _ Iu) as Q. exact Q. }
  destruct (walk_step x y w u (P p) Oe Of Eu Hf) as [W1 W2].
  pose proof (Hmin f Rh Sf) as Hm. unfold power in Hm. rewrite Cf, Ce, Orf, Ore in Hm.
  assert (Eq : (incirc y x u (P p) * ar x y w = incirc x y w (P p) * ar y x u)%R).
  { apply Rle_antisym; auto.
    assert (Q : (incirc x y w (P p) / ar x y w * (ar x y w * ar y x u) <= incirc y x u (P p) / ar y x u * (ar x y w * ar y x u))%R).
    { apply Rmult_le_compat_r; auto. apply Rlt_le, Rmult_lt_0_compat; auto. }
    replace (incirc x y w (P p) / ar x y w * (ar x y w * ar y x u))%R with (incirc x y w (P p) * ar y x u)%R in Q by (field; lra).
    replace (incirc y x u (P p) / ar y x u * (ar x y w * ar y x u))%R with (incirc y x u (P p) * ar x y w)%R in Q by (field; lra).
    lra. }
  specialize (W2 Eq).
  assert (Same : forall v, (circ P T f v <= 0)%R -> (circ P T e v <= 0)%R).
  { intros v Q. rewrite Cf in Q. rewrite Ce. specialize (W2 (P v)).
    destruct (Rle_lt_dec (incirc x y w (P v)) 0) as [|Q2]; auto.
    pose proof (Rmult_lt_0_compat _ _ Q2 Of). pose proof (Rmult_le_compat_r (ar x y w) _ _ (Rlt_le _ _ Oe) Q). lra. }
  assert (Cfp : (circ P T f p < 0)%R).
  { rewrite Cf. destruct (Rlt_le_dec (incirc y x u (P p)) 0) as [|Q2]; auto.
    pose proof (Rmult_le_pos _ _ Q2 (Rlt_le _ _ Oe)).
    rewrite Ce in Hc. pose proof (Rmult_lt_compat_r (ar y x u) _ _ Of Hc). lra. }
  assert (Pf : power f = power e).
  { unfold power. rewrite Cf, Ce, Orf, Ore.
    apply (Rmult_eq_reg_r (ar x y w * ar y x u)%R); [|apply Rgt_not_eq, Rmult_lt_0_compat; auto].
    replace (incirc x y w (P p) / ar x y w * (ar x y w * ar y x u))%R with (incirc x y w (P p) * ar y x u)%R by (field; lra).
    replace (incirc y x u (P p) / ar y x u * (ar x y w * ar y x u))%R with (incirc y x u (P p) * ar x y w)%R by (field; lra).
    exact Eq. }
  (* some further edge of f faces p *)
  destruct Hout as (hx & hy & Ho1 & Ho2).
  assert (NIn : ~ ((0 <= ar x u (P p))%R /\ (0 <= ar u y (P p))%R)).
  { intros [Q1 Q2].
    assert (Q3 : (0 <= ar (P p) (P hx) (P hy))%R); [|lra].
    apply (tri_halfplane y x u (P p)); auto.
    - clear - Hf. arlra.
    - unfold y. apply Ho2. apply vert_in; auto. apply nx_range; auto. apply (m_L3 _ _ _ M).
    - unfold x. apply Ho2. apply vert_in; auto.
    - unfold u. apply Ho2. auto. }
  assert (Step : forall g, same_tri f g -> 0 <= g < L -> (ar (P (T g)) (P (T (nx g))) (P p) < 0)%R ->
     (forall v, (circ P T f v <= 0)%R -> (ar (P (T g)) (P (T (nx g))) (P v) < 0)%R -> (ar x y (P v) < 0)%R) ->
     (ar (P (T g)) (P (T (nx g))) u = 0)%R -> False).
  { intros g Sg Rg' Fg Sub Zu.
    assert (Hg : ~ has p T g) by (intros Q; apply Sf; apply (has_same_tri p T g f); auto; apply same_tri_sym; auto).
    apply (IH g); auto.
    - unfold nbeyond in *. apply (Nat.lt_le_trans _ (length (filter (beyond e) V0))); [|lia].
      apply (filter_lt _ _ _ (T (pv f))); auto.
      + intros v _ Q. apply beyond_true in Q. destruct Q as [Q1 Q2]. rewrite (circ_same P T f g v Sg) in Q1.
        apply beyond_true. split; [apply Same; auto|apply Sub; auto].
      + apply beyond_true. split.
        * apply Same. rewrite Cf. fold u. destruct (incirc_vertex y x u) as (_ & _ & ->). lra.
        * fold u. fold x y. clear - Of. arlra.
      + destruct (beyond g (T (pv f))) eqn:Q; auto. apply beyond_true in Q. destruct Q as [_ Q]. fold u in Q. lra.
    - rewrite (circ_same P T f g p Sg). auto.
    - intros k Rk Hk. rewrite (power_same f g Sg), Pf. apply Hmin; auto. }
  pose proof (nx_range L f (m_L3 _ _ _ M) Rh) as Rnf.
  assert (TE1 : P (T (nx f)) = x) by (unfold x; rewrite E2; reflexivity).
  assert (TE2 : P (T f) = y) by (unfold y; rewrite E1; reflexivity).
  destruct (Rlt_le_dec (ar x u (P p)) 0) as [F1|F1].
  - apply (Step (nx f)); auto using same_tri_nx.
    + rewrite nx_nx, TE1. exact F1.
    + intros v Q1 Q2. rewrite nx_nx, TE1 in Q2. fold u in Q2. rewrite Cf in Q1.
      assert (Oxu : (0 < ar x u y)%R) by (clear - Of; arlra).
      destruct (cone x u y (P v) Oxu) as [C1 C2]; auto.
      * rewrite incirc_rot. exact Q1.
      * clear - C2. arlra.
    + rewrite nx_nx, TE1. fold u. apply ar_baa.
  - destruct (Rlt_le_dec (ar u y (P p)) 0) as [F2|F2].
    + apply (Step (pv f)); auto using same_tri_pv.
      * rewrite nx_pv, TE2. exact F2.
      * intros v Q1 Q2. rewrite nx_pv, TE2 in Q2. fold u in Q2. rewrite Cf in Q1.
        assert (Oxu : (0 < ar u y x)%R) by (clear - Of; arlra).
        destruct (cone u y x (P v) Oxu) as [C1 C2]; auto.
        -- rewrite incirc_rot2. exact Q1.
        -- clear - C1. arlra.
      * rewrite nx_pv, TE2. fold u. apply ar_aba.
    + apply NIn. auto.
Qed.

Lemma nonstar_empty e : 0 <= e < L -> ~ has p T e -> (0 <= circ P T e p)%R.
Proof.
  intros He Hh. destruct (Rle_lt_dec 0 (circ P T e p)) as [|Neg]; auto. exfalso.
  destruct (nonstar_In e He Hh) as [I _].
  destruct (list_argmin power nonstar) as (d & Id & Hmin). { intros E. rewrite E in I. destruct I. }
  apply filter_In in Id. destruct Id as [Id Hd]. apply tris_range in Id.
  destruct (has_dec p T d) as [|Nd]; [discriminate|]. clear Hd.
  assert (Hmin' : forall f, 0 <= f < L -> ~ has p T f -> (power d <= power f)%R).
  { intros f Rf Nf. destruct (nonstar_In f Rf Nf) as [If Sf]. rewrite (power_same _ _ Sf). auto. }
  pose proof (g_or _ _ _ _ _ _ G e He) as Oe. pose proof (g_or _ _ _ _ _ _ G d Id) as Od.
  assert (Cd : (circ P T d p < 0)%R).
  { pose proof (Hmin' e He Hh) as Q. unfold power in Q.
    destruct (Rlt_le_dec (circ P T d p) 0) as [|Q2]; auto. exfalso.
    assert (0 <= circ P T d p / orient P T d)%R by (apply Rmult_le_pos; auto; apply Rlt_le, Rinv_0_lt_compat; auto).
    assert (circ P T e p / orient P T e < 0)%R; [|lra].
    unfold Rdiv. rewrite <- (Rmult_0_l (/ orient P T e)). apply Rmult_lt_compat_r; auto. apply Rinv_0_lt_compat; auto. }
  (* an edge of d that faces p *)
  assert (Fc : forall g, same_tri d g -> 0 <= g < L -> (0 <= ar (P (T g)) (P (T (nx g))) (P p))%R).
  { intros g Sg Rg'. destruct (Rle_lt_dec 0 (ar (P (T g)) (P (T (nx g))) (P p))) as [|Q]; auto. exfalso.
    apply (walk (S (nbeyond g)) g); auto.
    - intros Q2. apply Nd. apply (has_same_tri p T g d); auto. apply same_tri_sym; auto.
    - rewrite (circ_same P T d g p Sg). auto.
    - intros k Rk Hk. rewrite (power_same d g Sg). auto. }
  destruct Hout as (hx & hy & Ho1 & Ho2).
  pose proof (nx_range L d (m_L3 _ _ _ M) Id) as Rn. pose proof (pv_range L d (m_L3 _ _ _ M) Id) as Rp.
  pose proof (Fc d (same_tri_refl d) Id) as F1. pose proof (Fc (nx d) (same_tri_nx d) Rn) as F2. rewrite nx_nx in F2.
  pose proof (Fc (pv d) (same_tri_pv d) Rp) as F3. rewrite nx_pv in F3.
  assert (Q3 : (0 <= ar (P p) (P hx) (P hy))%R); [|lra].
  apply (tri_halfplane (P (T d)) (P (T (nx d))) (P (T (pv d))) (P p)); auto; apply Ho2; apply vert_in; auto;
    intros Q; apply Nd; unfold has; auto.
Qed.

Theorem final_delaunay e v : 0 <= e < L -> In v (p :: V0) -> (0 <= circ P T e v)%R.
Proof.
  intros He Hv. destruct (has_dec p T e) as [Hh|Hh]; [apply star_empty; auto|].
  destruct Hv as [<-|Hv]; [apply nonstar_empty; auto|]. apply (g_empty _ _ _ _ _ _ G); auto.
Qed.
End Final.
