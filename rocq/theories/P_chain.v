(** The part of the convex hull that a new point sees, and the hull after its insertion. *)
From Coq Require Import ZArith Lia List Bool Reals Lra Permutation.
From Verif Require Import Base Arith Spec_r3 Spec_plane P_tri2 P_delgeom P_halfedge P_ring P_flip P_insstep.
Import ListNotations.
Open Scope Z_scope.

(** sums over the edges of a ring *)
Fixpoint Rsum {X} (f : X -> R) (l : list X) : R := match l with [] => 0%R | x :: l' => (f x + Rsum f l')%R end.
Lemma Rsum_app {X} (f : X -> R) l m : Rsum f (l ++ m) = (Rsum f l + Rsum f m)%R.
Proof. induction l as [|x l IH]; simpl; [lra|]. rewrite IH. lra. Qed.
Lemma Rsum_perm {X} (f : X -> R) l m : Permutation l m -> Rsum f l = Rsum f m.
Proof. induction 1; simpl; lra. Qed.
Lemma Rsum_ext {X} (f g : X -> R) l : (forall x, In x l -> f x = g x) -> Rsum f l = Rsum g l.
Proof. induction l as [|x l IH]; intros H; simpl; [auto|]. rewrite (H x), IH; simpl; auto. intros. apply H; simpl; auto. Qed.
Lemma Rsum_plus {X} (f g : X -> R) l : Rsum (fun x => f x + g x)%R l = (Rsum f l + Rsum g l)%R.
Proof. induction l as [|x l IH]; simpl; [lra|]. rewrite IH. lra. Qed.
Lemma Rsum_opp {X} (f : X -> R) l : Rsum (fun x => - f x)%R l = (- Rsum f l)%R.
Proof. induction l as [|x l IH]; simpl; [lra|]. rewrite IH. lra. Qed.
Lemma Rsum_map {X Y} (f : Y -> R) (g : X -> Y) l : Rsum f (map g l) = Rsum (fun x => f (g x)) l.
Proof. induction l as [|x l IH]; simpl; [auto|]. rewrite IH. auto. Qed.
Lemma Rsum_nonneg {X} (f : X -> R) l : (forall x, In x l -> (0 <= f x)%R) -> (0 <= Rsum f l)%R.
Proof.
  induction l as [|x l IH]; intros H; simpl; [lra|].
  pose proof (H x (or_introl eq_refl)). pose proof (IH (fun y Hy => H y (or_intror Hy))). lra.
Qed.
Lemma Rsum_neg {X} (f : X -> R) l : l <> [] -> (forall x, In x l -> (f x < 0)%R) -> (Rsum f l < 0)%R.
Proof.
  destruct l as [|x l]; [contradiction|]. intros _ H. simpl.
  assert (0 <= Rsum (fun y => - f y) l)%R.
  { apply Rsum_nonneg. intros y Hy. pose proof (H y (or_intror Hy)). lra. }
  rewrite Rsum_opp in H0. pose proof (H x (or_introl eq_refl)). lra.
Qed.
Lemma pe_fst_eq {X} (l : list X) : map fst (polygon_edges l) = l.
Proof.
  destruct l as [|x l]; [reflexivity|]. unfold polygon_edges.
  assert (G : forall (a b : list X), length a = length b -> map fst (combine a b) = a).
  { induction a as [|u a IH]; intros [|v b] E; try discriminate; [reflexivity|]. simpl. rewrite IH; auto. }
  apply G. rewrite app_length. simpl. lia.
Qed.
Lemma pe_telescope {X} (g : X -> R) l : Rsum (fun e => g (fst e) - g (snd e))%R (polygon_edges l) = 0%R.
Proof.
  unfold Rminus. rewrite Rsum_plus, Rsum_opp.
  rewrite <- (Rsum_map g fst), <- (Rsum_map g snd), pe_fst_eq, (Rsum_perm g _ _ (pe_snd_perm l)). lra.
Qed.
(** the fan of triangles over a ring from a point: its signed area does not depend on the point *)
Lemma fan_const (P : Z -> rv) (q q' : rv) l :
  Rsum (fun e => ar q (P (fst e)) (P (snd e))) (polygon_edges l) =
  Rsum (fun e => ar q' (P (fst e)) (P (snd e))) (polygon_edges l).
Proof.
  set (g := fun x : Z => ((rx q - rx q') * ry (P x) - (ry q - ry q') * rx (P x))%R).
  assert (E : forall x y : Z, ar q (P x) (P y) = (ar q' (P x) (P y) + (- (g x - g y)))%R)
    by (intros; unfold g, ar, ccw; ring).
  rewrite (Rsum_ext _ (fun e => ar q' (P (fst e)) (P (snd e)) + - (g (fst e) - g (snd e)))%R).
  - rewrite Rsum_plus, Rsum_opp, pe_telescope. lra.
  - intros e _. apply E.
Qed.

Section Chain.
Variables (P : Z -> rv) (p : Z) (V0 R0 : list Z).
Hypothesis R0V : forall v, In v R0 -> In v V0.
Hypothesis ND0 : NoDup R0.
Hypothesis Hconv : forall u v w, In (u, v) (polygon_edges R0) -> In w V0 -> (0 <= ar (P w) (P u) (P v))%R.
Hypothesis Hdist : forall u v, In u V0 -> In v V0 -> samexy (P u) (P v) -> u = v.
Hypothesis Hnc : exists a b c, In a V0 /\ In b V0 /\ In c V0 /\ ar (P a) (P b) (P c) <> 0%R.
Hypothesis Hne : R0 <> [].

Definition vis (u v : Z) : Prop := (ar (P p) (P u) (P v) < 0)%R.
Lemma vis_dec u v : {vis u v} + {(0 <= ar (P p) (P u) (P v))%R}.
Proof. unfold vis. destruct (Rlt_le_dec (ar (P p) (P u) (P v)) 0); auto. Qed.
Lemma not_all_visible : exists u v, In (u, v) (polygon_edges R0) /\ (0 <= ar (P p) (P u) (P v))%R.
Proof.
  assert (D : (exists u v, In (u, v) (polygon_edges R0) /\ (0 <= ar (P p) (P u) (P v))%R) \/
              (forall e, In e (polygon_edges R0) -> (ar (P p) (P (fst e)) (P (snd e)) < 0)%R)).
  { clear. generalize (polygon_edges R0). intros E0. induction E0 as [|[u v] l IH]; [right; intros e []|].
    destruct (vis_dec u v) as [H|H].
    - destruct IH as [(u' & v' & I & Q)|IH].
      + left. exists u', v'. split; [right; auto|auto].
      + right. intros e [<-|He]; auto.
    - left. exists u, v. split; [left; auto|auto]. }
  destruct D as [D|D]; auto. exfalso.
  assert (exists r0 l0, R0 = r0 :: l0) as (r0 & l0 & ER) by (destruct R0; [contradiction|eauto]).
  assert (Ir : In r0 V0) by (apply R0V; rewrite ER; left; auto).
  pose proof (fan_const P (P p) (P r0) R0) as F.
  assert (N : polygon_edges R0 <> []).
  { intros E. pose proof (pe_length R0) as Q. rewrite E, ER in Q. discriminate. }
  pose proof (Rsum_neg _ _ N D).
  assert (0 <= Rsum (fun e => ar (P r0) (P (fst e)) (P (snd e))) (polygon_edges R0))%R.
  { apply Rsum_nonneg. intros [u v] He. apply Hconv; auto. }
  lra.
Qed.

Record chain (C : list Z) : Prop := {
  c_nd : NoDup C;
  c_in : forall v, In v C -> In v R0;
  c_pairs : forall u v, In (u, v) (pairs C) -> In (u, v) (polygon_edges R0);
  c_vis : forall u v, In (u, v) (polygon_edges R0) -> In (u, v) (pairs C) \/ vis u v;
  c_head : exists m C' u, C = m :: C' /\ In (u, m) (polygon_edges R0) /\ vis u m;
  c_last : exists l C' u, C = C' ++ [l] /\ In (l, u) (polygon_edges R0) /\ vis l u }.

Lemma chain_pair C : chain C -> exists u v, In (u, v) (pairs C).
Proof.
  intros CH. destruct not_all_visible as (u & v & I & Q). exists u, v.
  destruct (c_vis _ CH u v I) as [|V]; auto. unfold vis in V. lra.
Qed.
Lemma chain_len C : chain C -> (2 <= length C)%nat.
Proof.
  intros CH. destruct (chain_pair C CH) as (u & v & I). apply in_pairs in I. destruct I as (l1 & l2 & ->).
  rewrite app_length. simpl. lia.
Qed.
Lemma chain_init x y rest : Permutation R0 (x :: y :: rest) -> Permutation (polygon_edges R0) (polygon_edges (x :: y :: rest)) ->
  vis x y -> chain (y :: rest ++ [x]).
Proof.
  intros P1 P2 Hv.
  assert (PP : forall e, In e (polygon_edges R0) <-> In e ((x, y) :: pairs (y :: rest ++ [x]))).
  { intros e. rewrite <- (pe_first x y rest). split; apply Permutation_in; auto. apply Permutation_sym; auto. }
  constructor.
  - apply (Permutation_NoDup (l:=R0)); auto. rewrite P1. apply (Permutation_cons_append (y :: rest)).
  - intros v Hin. apply (Permutation_in _ (Permutation_sym P1)).
    change (In v ((y :: rest) ++ [x])) in Hin. apply in_app_or in Hin.
    destruct Hin as [Hin|[->|[]]]; [right; auto|left; auto].
  - intros u v Hin. apply PP. right; auto.
  - intros u v Hin. apply PP in Hin. destruct Hin as [E|Hin]; auto. injection E as <- <-. auto.
  - exists y, (rest ++ [x]), x. split; auto. split; auto. apply PP. left; auto.
  - exists x, (y :: rest), y. split; auto. split; auto. apply PP. left; auto.
Qed.
Lemma chain_fwd q q' C : chain (q :: q' :: C) -> vis q q' -> chain (q' :: C).
Proof.
  intros [A B D E F G] V.
  assert (I : In (q, q') (polygon_edges R0)) by (apply D; left; auto).
  constructor.
  - apply NoDup_cons_iff in A. tauto.
  - intros v Hv. apply B. right; auto.
  - intros u v Hv. apply D. right; auto.
  - intros u v Hv. destruct (E u v Hv) as [[Q|Q]|Q]; auto. injection Q as <- <-. auto.
  - exists q', C, q. auto.
  - destruct G as (l & C' & u & EC & Q1 & Q2). exists l.
    destruct C' as [|c C']; [destruct C; discriminate|]. injection EC as <- EC. exists C', u. auto.
Qed.
Lemma chain_back C q' q : chain (C ++ [q'; q]) -> vis q' q -> chain (C ++ [q']).
Proof.
  intros [A B D E F G] V.
  assert (I : In (q', q) (polygon_edges R0)) by (apply D; rewrite pairs_snoc; apply in_or_app; right; left; auto).
  constructor.
  - replace (C ++ [q'; q]) with ((C ++ [q']) ++ [q]) in A by (rewrite <- app_assoc; reflexivity).
    apply NoDup_remove_1 in A. rewrite app_nil_r in A. auto.
  - intros v Hv. apply B. apply in_app_or in Hv. apply in_or_app. destruct Hv as [|[->|[]]]; [left; auto|right; left; auto].
  - intros u v Hv. apply D. rewrite pairs_snoc. apply in_or_app. auto.
  - intros u v Hv. destruct (E u v Hv) as [Q|Q]; auto. rewrite pairs_snoc in Q. apply in_app_or in Q.
    destruct Q as [Q|[Q|[]]]; auto. injection Q as <- <-. auto.
  - destruct F as (m & C' & u & EC & Q1 & Q2). exists m.
    destruct C as [|c C]; [exists [], u; injection EC as <- _; auto|]. injection EC as <- EC. exists (C ++ [q']), u. auto.
  - exists q', C, q. auto.
Qed.

(** at the end of both walks *)
Variable C : list Z.
Hypothesis CH : chain C.
Hypothesis Hfst : forall m y C', C = m :: y :: C' -> ~ vis m y.
Hypothesis Hlst : forall l x C', C = C' ++ [x; l] -> ~ vis x l.

Let VP (w : rv) : Prop := exists v, In v V0 /\ w = P v.
Lemma VPi v : In v V0 -> VP (P v).
Proof. intros H. exists v. auto. Qed.
Lemma CV v : In v C -> In v V0.
Proof. intros H. apply R0V, (c_in _ CH), H. Qed.
Lemma conv_inside u v : In (u, v) (polygon_edges R0) -> inside_edge VP (P u) (P v).
Proof. intros I w (k & Hk & ->). apply Hconv; auto. Qed.
Lemma edge_distinct u v : In (u, v) (polygon_edges R0) -> u <> v -> ~ samexy (P u) (P v).
Proof. intros I N S. apply N. destruct (pe_In _ _ _ I). apply Hdist; auto. Qed.
Lemma pairs_ne u v : In (u, v) (pairs C) -> u <> v.
Proof.
  intros I ->. apply in_pairs in I. destruct I as (l1 & l2 & E). pose proof (c_nd _ CH) as ND. rewrite E in ND.
  apply NoDup_remove_2 in ND. apply ND. apply in_or_app. right. left. auto.
Qed.
Lemma end_support m x y : In (x, m) (polygon_edges R0) -> vis x m -> In (m, y) (pairs C) -> ~ vis m y ->
  forall v, In v V0 -> (0 <= ar (P p) (P m) (P v))%R.
Proof.
  intros I1 V1 I2 V2 v Hv. destruct Hnc as (a & b & c & Ia & Ib & Ic & Hn).
  pose proof (c_pairs _ CH _ _ I2) as I3. destruct (pe_In _ _ _ I3) as [_ Iy].
  apply (tangent_end VP (P p) (P x) (P m) (P y) (P a) (P b) (P c)); auto using VPi.
  - apply edge_distinct; auto. apply pairs_ne; auto.
  - apply conv_inside; auto.
  - apply conv_inside; auto.
  - destruct (vis_dec m y); auto; contradiction.
Qed.
Lemma chain_invisible u v : In (u, v) (pairs C) -> (0 <= ar (P p) (P u) (P v))%R.
Proof.
  intros I. destruct (vis_dec u v) as [V|]; auto. exfalso.
  (* the head is an end of visibility *)
  destruct (c_head _ CH) as (m & C' & x & EC & Im & Vm).
  destruct C' as [|y C'].
  { pose proof (chain_len C CH) as Q. rewrite EC in Q. simpl in Q. lia. }
  pose proof (Hfst m y C' EC) as NV.
  assert (Sm : forall w, In w V0 -> (0 <= ar (P p) (P m) (P w))%R).
  { apply (end_support m x y); auto. rewrite EC. left; auto. }
  (* another end of visibility after v *)
  assert (G : forall l2 l1 u v, C = l1 ++ u :: v :: l2 -> vis u v ->
     exists l1' u' m' y' l2', C = l1' ++ u' :: m' :: y' :: l2' /\ vis u' m' /\ ~ vis m' y').
  { clear u v I V. induction l2 as [|w l2 IH]; intros l1 u v E V.
    - exfalso. apply (Hlst v u l1); auto.
    - destruct (vis_dec v w) as [V2|N2].
      + apply (IH (l1 ++ [u]) v w); auto. rewrite <- app_assoc. auto.
      + exists l1, u, v, w, l2. split; auto. split; auto. unfold vis. lra. }
  apply in_pairs in I. destruct I as (l1 & l2 & E).
  destruct (G l2 l1 u v E V) as (l1' & u' & m' & y' & l2' & E' & V1 & V2).
  assert (I1 : In (u', m') (pairs C)) by (apply in_pairs; exists l1', (y' :: l2'); auto).
  assert (I2 : In (m', y') (pairs C)).
  { apply in_pairs. exists (l1' ++ [u']), l2'. rewrite <- app_assoc. auto. }
  pose proof (end_support m' u' y' (c_pairs _ CH _ _ I1) V1 I2 V2) as Sm'.
  assert (m <> m').
  { intros Q. pose proof (c_nd _ CH) as ND. rewrite E' in ND.
    replace (l1' ++ u' :: m' :: y' :: l2') with ((l1' ++ [u']) ++ m' :: y' :: l2') in * by (rewrite <- app_assoc; reflexivity).
    apply NoDup_remove_2 in ND. apply ND. apply in_or_app. left.
    rewrite EC in E'. destruct l1' as [|c l1']; injection E' as -> _; [left; auto|left; auto]. }
  apply H. apply Hdist.
  - apply CV. rewrite EC. left; auto.
  - apply (pairs_In C u' m') in I1. apply CV. tauto.
  - apply (end_unique VP (P p) (P x) (P m) (P u') (P m')).
    + exists m. split; auto. apply CV. rewrite EC. left; auto.
    + exists m'. split; auto. apply (pairs_In C u' m') in I1. apply CV. tauto.
    + apply conv_inside; auto.
    + apply conv_inside. apply (c_pairs _ CH); auto.
    + exact Vm.
    + exact V1.
    + intros w (k & Hk & ->). auto.
    + intros w (k & Hk & ->). auto.
Qed.

(** the new hull is convex *)
Lemma conv_new : forall u v w, In (u, v) (polygon_edges (p :: C)) -> In w (p :: V0) ->
  (0 <= ar (P w) (P u) (P v))%R.
Proof.
  destruct (c_head _ CH) as (m & Cm & x & EC & Im & Vm).
  destruct (c_last _ CH) as (l & Cl & y & EL & Il & Vl).
  pose proof (chain_len C CH) as LC.
  assert (PE : polygon_edges (p :: C) = (p, m) :: pairs C ++ [(l, p)]).
  { rewrite EL at 1. rewrite pe_snoc. rewrite <- EL. rewrite EC at 1. rewrite pairs_cons2. rewrite <- EC. reflexivity. }
  destruct Hnc as (a & b & c & Ia & Ib & Ic & Hn).
  intros u v w I Hw. rewrite PE in I.
  destruct I as [E|I]; [|apply in_app_or in I; destruct I as [I|[E|[]]]].
  - injection E as <- <-. destruct Hw as [<-|Hw].
    + rewrite ar_aab. lra.
    + rewrite <- ar_rot. destruct Cm as [|y' Cm]; [rewrite EC in LC; simpl in LC; lia|].
      apply (end_support m x y'); auto. rewrite EC. left; auto. apply (Hfst m y' Cm); auto.
  - destruct Hw as [<-|Hw]; [apply chain_invisible; auto|]. apply Hconv; auto. apply (c_pairs _ CH); auto.
  - injection E as <- <-. destruct Hw as [<-|Hw]; [rewrite ar_aba; lra|].
    destruct (exists_last (l:=Cl)) as (Cx & x' & EX).
    { intros ->. rewrite EL in LC. simpl in LC. lia. }
    subst Cl. rewrite <- app_assoc in EL. simpl app in EL.
    assert (Ix : In (x', l) (pairs C)) by (rewrite EL, pairs_snoc; apply in_or_app; right; left; auto).
    pose proof (c_pairs _ CH _ _ Ix) as Ix2. destruct (pe_In _ _ _ Ix2) as [Ixx _].
    apply (tangent_start VP (P p) (P x') (P l) (P y) (P a) (P b) (P c)); auto using VPi.
    + apply edge_distinct; auto. apply pairs_ne; auto.
    + apply conv_inside; auto.
    + apply conv_inside; auto.
    + apply chain_invisible; auto.
Qed.
End Chain.
