(** A point p that is not nearer to a centre than any vertex v of a convex ring, up to the square
    of the distance between p and v, sees an edge of the ring. *)
From Coq Require Import ZArith Lia List Bool Reals Lra Permutation.
From Verif Require Import Base Arith Spec_r3 Spec_plane P_tri2 P_delgeom P_halfedge P_ring P_flip P_insstep P_chain P_delaunay.
Import ListNotations.
Open Scope Z_scope.

Section Far.
Variables (P : Z -> rv) (p : Z) (V0 R0 : list Z) (o : rv).
Hypothesis R0V : forall v, In v R0 -> In v V0.
Hypothesis ND0 : NoDup R0.
Hypothesis Hconv : forall u v w, In (u, v) (polygon_edges R0) -> In w V0 -> (0 <= ar (P w) (P u) (P v))%R.
Hypothesis Hdist : forall u v, In u V0 -> In v V0 -> samexy (P u) (P v) -> u = v.
Hypothesis Hnc : exists a b c, In a V0 /\ In b V0 /\ In c V0 /\ ar (P a) (P b) (P c) <> 0%R.
Hypothesis Hne : R0 <> [].
Hypothesis Hlen : (2 <= length R0)%nat.
Hypothesis Hfar : forall v, In v V0 -> (dist2xy (P v) o < dist2xy (P p) o + dist2xy (P v) (P p))%R.

(* coordinates relative to p along the direction of the centre, and across it *)
Let hh (w : rv) : R := ((rx w - rx (P p)) * (rx o - rx (P p)) + (ry w - ry (P p)) * (ry o - ry (P p)))%R.
Let cc (w : rv) : R := ((rx o - rx (P p)) * (ry w - ry (P p)) - (ry o - ry (P p)) * (rx w - rx (P p)))%R.

Lemma far_front v : In v V0 -> (0 < hh (P v))%R.
Proof.
  intros Hv. pose proof (Hfar v Hv) as F.
  assert (E : (2 * hh (P v) = dist2xy (P p) o - dist2xy (P v) o + dist2xy (P v) (P p))%R) by (unfold hh, dist2xy; ring).
  lra.
Qed.
(* ar in these coordinates *)
Lemma ar_coords u v : (ar (P p) u v * dist2xy (P p) o = cc u * hh v - hh u * cc v)%R.
Proof. unfold ar, ccw, cc, hh, dist2xy. ring. Qed.
Lemma rad_pos : (0 < dist2xy (P p) o)%R.
Proof.
  destruct Hnc as (a & _ & _ & Ia & _). pose proof (Hfar a Ia) as F. pose proof (far_front a Ia) as F2.
  destruct (sq2_nonneg (P p) o) as [|Z]; auto. exfalso. symmetry in Z. apply sq2_zero in Z. destruct Z as [Z1 Z2].
  unfold hh in F2. rewrite Z1, Z2 in F2. lra.
Qed.
Definition slope (v : Z) : R := (cc (P v) / hh (P v))%R.
Lemma slope_ar u v : In u V0 -> In v V0 -> (slope v <= slope u)%R -> (0 <= ar (P p) (P u) (P v))%R.
Proof.
  intros Hu Hv S. pose proof (far_front u Hu) as Fu. pose proof (far_front v Hv) as Fv. pose proof rad_pos as RP.
  pose proof (ar_coords (P u) (P v)) as A. unfold slope in S.
  assert (S2 : (cc (P v) * hh (P u) <= cc (P u) * hh (P v))%R).
  { apply (Rmult_le_compat_r (hh (P u) * hh (P v))) in S; [|apply Rlt_le, Rmult_lt_0_compat; auto].
    replace (cc (P v) / hh (P v) * (hh (P u) * hh (P v)))%R with (cc (P v) * hh (P u))%R in S by (field; lra).
    replace (cc (P u) / hh (P u) * (hh (P u) * hh (P v)))%R with (cc (P u) * hh (P v))%R in S by (field; lra). exact S. }
  apply (Rmult_le_reg_r (dist2xy (P p) o)); auto. lra.
Qed.
Lemma slope_eq u v : In u V0 -> In v V0 -> ar (P p) (P u) (P v) = 0%R -> slope u = slope v.
Proof.
  intros Hu Hv E. pose proof (far_front u Hu) as Fu. pose proof (far_front v Hv) as Fv.
  pose proof (ar_coords (P u) (P v)) as A. rewrite E in A. unfold slope.
  apply (Rmult_eq_reg_r (hh (P u) * hh (P v))); [|apply Rmult_integral_contrapositive; lra].
  replace (cc (P v) / hh (P v) * (hh (P u) * hh (P v)))%R with (cc (P v) * hh (P u))%R by (field; lra).
  replace (cc (P u) / hh (P u) * (hh (P u) * hh (P v)))%R with (cc (P u) * hh (P v))%R by (field; lra). lra.
Qed.

(* the vertex of largest slope, the one nearest to p among these *)
Lemma first_vertex : exists m, In m R0 /\ (forall w, In w R0 -> (0 <= ar (P p) (P m) (P w))%R) /\
  (forall w, In w R0 -> ar (P p) (P m) (P w) = 0%R -> (hh (P m) <= hh (P w))%R).
Proof.
  destruct (list_argmin (fun v => - slope v)%R R0 Hne) as (m0 & I0 & M0).
  set (F := filter (fun v => if Req_EM_T (slope v) (slope m0) then true else false) R0).
  assert (IF : forall v, In v F <-> In v R0 /\ slope v = slope m0).
  { intros v. unfold F. rewrite filter_In. destruct (Req_EM_T (slope v) (slope m0)); split; intros [A B]; split; auto; try discriminate; contradiction. }
  destruct (list_argmin (fun v => hh (P v)) F) as (m & Im & Mm).
  { intros E. assert (Q : In m0 F) by (apply IF; auto). rewrite E in Q. destruct Q. }
  apply IF in Im. destruct Im as [Im Em]. exists m. split; auto. split.
  - intros w Hw. apply slope_ar; auto. pose proof (M0 w Hw). cbv beta in *. lra.
  - intros w Hw E. apply Mm. apply IF. split; auto. rewrite <- Em. symmetry. apply slope_eq; auto.
Qed.

Lemma far_visible : exists u v, In (u, v) (polygon_edges R0) /\ vis P p u v.
Proof.
  destruct first_vertex as (m & Im & M1 & M2).
  destruct (pe_pred R0 m Im) as (u & Eu). exists u, m. split; auto.
  destruct (pe_In _ _ _ Eu) as [Iu _].
  assert (Num : u <> m).
  { intros ->. destruct R0 as [|a [|b l]] eqn:ER; simpl in Hlen; try lia. rewrite <- ER in *. destruct (rotate_to R0 m Im) as (l' & P1 & P2).
    apply (Permutation_in _ P2) in Eu. pose proof (Permutation_length P1) as LP. rewrite ER in LP.
    destruct l' as [|c l']; [simpl in LP; lia|]. pose proof (Permutation_NoDup P1 ND0) as ND.
    assert (m = c) as ->.
    { apply (pe_succ_unique (m :: c :: l') m); auto. left. auto. }
    apply NoDup_cons_iff in ND. apply (proj1 ND). left. auto. }
  unfold vis. destruct (Rlt_le_dec (ar (P p) (P u) (P m)) 0) as [|Ge]; auto. exfalso.
  pose proof (M1 u Iu) as A1. rewrite ar_swap23 in A1. assert (Z : ar (P p) (P u) (P m) = 0%R) by lra.
  pose proof (M2 u Iu) as A2. rewrite ar_swap23 in A2. specialize (A2 ltac:(lra)).
  (* every ring vertex is on the line u m *)
  assert (Fm := far_front m (R0V m Im)). assert (Fu := far_front u (R0V u Iu)).
  assert (Ax : forall w, (ar (P w) (P u) (P m) * hh (P m) = (hh (P m) - hh (P u)) * ar (P p) (P m) (P w)
      + ar (P p) (P u) (P m) * (hh (P m) - hh (P w)))%R).
  { intros w. unfold ar, ccw, hh. ring. }
  assert (L : forall w, In w R0 -> ar (P w) (P u) (P m) = 0%R).
  { intros w Hw. pose proof (Hconv u m w Eu (R0V w Hw)) as C. pose proof (Ax w) as E. rewrite Z in E.
    pose proof (M1 w Hw) as Mw.
    assert (0 <= (hh (P u) - hh (P m)) * ar (P p) (P m) (P w))%R by (apply Rmult_le_pos; lra).
    assert (0 <= ar (P w) (P u) (P m) * hh (P m))%R by (apply Rmult_le_pos; lra).
    assert (E0 : (ar (P w) (P u) (P m) * hh (P m) = 0)%R) by lra.
    apply Rmult_integral in E0. destruct E0; auto. lra. }
  (* so the whole ring is flat *)
  assert (Flat : forall a b, In (a, b) (polygon_edges R0) -> forall w, In w V0 -> ar (P w) (P a) (P b) = 0%R).
  { assert (Num' : ~ samexy (P u) (P m)) by (intros Q; apply Num; apply Hdist; auto).
    assert (S0 : forall q, Rsum (fun e => ar q (P (fst e)) (P (snd e))) (polygon_edges R0) = 0%R).
    { intros q. rewrite (fan_const P q (P m)). rewrite (Rsum_ext _ (fun _ => 0%R)).
      - clear. induction (polygon_edges R0); simpl; lra.
      - intros [a b] He. cbn [fst snd]. destruct (pe_In _ _ _ He). apply (collinear_line (P m) (P a) (P b) (P u) (P m)); auto. }
    intros a b Eab w Hw. specialize (S0 (P w)).
    assert (G : forall l, (forall e, In e l -> (0 <= ar (P w) (P (fst e)) (P (snd e)))%R) ->
       Rsum (fun e => ar (P w) (P (fst e)) (P (snd e))) l = 0%R -> forall e, In e l -> ar (P w) (P (fst e)) (P (snd e)) = 0%R).
    { clear. induction l as [|x l IH]; intros H1 H2 e []; simpl in H2.
      - subst x. pose proof (H1 e (or_introl eq_refl)).
        assert (0 <= Rsum (fun e => ar (P w) (P (fst e)) (P (snd e))) l)%R by (apply Rsum_nonneg; intros; apply H1; right; auto). lra.
      - apply IH; auto. intros; apply H1; right; auto. pose proof (H1 x (or_introl eq_refl)).
        assert (0 <= Rsum (fun e => ar (P w) (P (fst e)) (P (snd e))) l)%R by (apply Rsum_nonneg; intros; apply H1; right; auto). lra. }
    apply (G (polygon_edges R0)) with (e := (a, b)); auto. intros [a' b'] He. apply Hconv; auto. }
  destruct Hnc as (a & b & c & Ia & Ib & Ic & Hn). apply Hn.
  apply (collinear_line (P a) (P b) (P c) (P u) (P m)); auto.
Qed.
End Far.
