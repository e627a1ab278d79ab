(** Proofs about shortest networks (property C178). *)
From Coq Require Import ZArith Lia List Bool Reals Lra Classical.
From Verif Require Import Spec_r3 Spec_plane Spec_delaunay Spec_delaunay2 Spec_mst.
Import ListNotations.
Open Scope R_scope.

Lemma linked_trans L u v w : linked L u v -> linked L v w -> linked L u w.
Proof. induction 1 as [|u x v E _ IH]; auto. intros K. eapply linked_cons; eauto. Qed.
Lemma linked_sym L u v : linked L u v -> linked L v u.
Proof. induction 1 as [|u x v E _ IH]; [constructor|]. apply (linked_trans _ _ x); [exact IH|]. eapply linked_cons; [|constructor]. tauto. Qed.
Lemma linked_one L u v : In (u, v) L -> linked L u v.
Proof. intros H. eapply linked_cons; [left; exact H|constructor]. Qed.
Lemma linked_map L M u v : (forall a b, In (a, b) L -> linked M a b) -> linked L u v -> linked M u v.
Proof.
  intros H. induction 1 as [|u x v E _ IH]; [constructor|]. apply (linked_trans _ _ x); [|exact IH]. destruct E as [E|E]; [auto|apply linked_sym; auto].
Qed.
Lemma linked_split a b K u v : linked ((a, b) :: K) u v -> linked K a v \/ linked K b v \/ linked K u v.
Proof.
  induction 1 as [u|u w v E _ IH]; [right; right; constructor|]. cbn [In] in E.
  destruct E as [[E|E]|[E|E]].
  - injection E as -> ->. tauto.
  - destruct IH as [IH|[IH|IH]]; auto. right; right. eapply linked_cons; eauto.
  - injection E as -> ->. tauto.
  - destruct IH as [IH|[IH|IH]]; auto. right; right. eapply linked_cons; eauto.
Qed.
Lemma joined_in T u v : joined T u v -> In u T /\ In v T.
Proof.
  intros (_ & a & b & c & H & Hu & Hv). assert (K : In a T /\ In b T /\ In c T); [|cbn [In] in *; intuition (subst; auto)].
  clear Hu Hv. revert H. assert (G : forall n T, (length T <= n)%nat -> In (a, b, c) (triples T) -> In a T /\ In b T /\ In c T); [|apply (G (length T) T (le_n _))].
  induction n as [|n IH]; intros [|x [|y [|z l]]] L; cbn [length triples In] in *; try lia; try tauto. intros [E|E]; [injection E as -> -> ->; tauto|].
  apply IH in E; [tauto|lia].
Qed.

Section mst.
Variables (pts : list rv) (T : list Z).
Hypothesis Hb : forall u v, In u T -> In v T -> hops pts T (d2 pts u v) u v.
Notation joined := (joined T).
Lemma d2_pos u v : 0 <= d2 pts u v.
Proof. unfold d2, dist2xy. set (x := _ - _). set (y := _ - _). pose proof (Rle_0_sqr x). pose proof (Rle_0_sqr y). unfold Rsqr in *. nra. Qed.
Lemma cost_app f L M : cost pts f (L ++ M) = cost pts f L + cost pts f M.
Proof. unfold cost. induction L as [|e L IH]; cbn [app fold_right]; [ring|]. rewrite IH. ring. Qed.
Lemma cost_cons f e L : cost pts f (e :: L) = f (d2 pts (fst e) (snd e)) + cost pts f L.
Proof. reflexivity. Qed.
Lemma cross (Q : Z -> Prop) m u v : hops pts T m u v -> Q u -> ~ Q v -> exists a b, joined a b /\ d2 pts a b <= m /\ Q a /\ ~ Q b.
Proof.
  induction 1 as [u|u w v J D _ IH]; intros Hu Hv; [contradiction|]. destruct (classic (Q w)) as [K|K]; [auto|]. exists u, w. auto.
Qed.
Lemma exchange L1 : forall L2, network T (L1 ++ L2) -> of_edges T L2 -> exists M, network T M /\ of_edges T M /\
  (length M <= length (L1 ++ L2))%nat /\ forall f, growing f -> cost pts f M <= cost pts f (L1 ++ L2).
Proof.
  induction L1 as [|(u, v) L1 IH]; intros L2 (On & Co) Ed.
  - exists L2. split; [split; assumption|]. split; [exact Ed|]. split; [apply le_n|]. intros f _. apply Rle_refl.
  - cbn [app] in *. set (K := L1 ++ L2) in *. destruct (On u v (or_introl eq_refl)) as (Hu & Hv).
    destruct (classic (linked K u v)) as [C|C].
    + destruct (IH L2) as (M & N1 & N2 & N3 & N4); [|exact Ed|].
      { split; [intros a b I; apply On; right; exact I|]. intros a b Ha Hb'. apply (linked_map ((u, v) :: K)); [|apply Co; auto].
        intros x y [E|E]; [injection E as <- <-; exact C|apply linked_one; exact E]. }
      exists M. fold K in N3, N4. split; [exact N1|]. split; [exact N2|]. split; [cbn [length]; lia|]. intros f G. specialize (N4 f G). rewrite cost_cons. cbn [fst snd]. pose proof (proj1 G _ (d2_pos u v)). lra.
    + destruct (cross (linked K u) _ u v (Hb u v Hu Hv)) as (a & b & J & D & Ca & Cb); [constructor|exact C|].
      destruct (joined_in _ _ _ J) as (Ha & Hb').
      assert (Cv : linked K v b). { destruct (linked_split u v K u b (Co u b Hu Hb')) as [X|[X|X]]; tauto. }
      assert (Inc : forall x y, In (x, y) K -> In (x, y) (L1 ++ (a, b) :: L2)). { intros x y I. unfold K in I. rewrite in_app_iff in *. cbn [In]. tauto. }
      assert (New : In (a, b) (L1 ++ (a, b) :: L2)) by (apply in_elt).
      assert (Up : forall x y, linked K x y -> linked (L1 ++ (a, b) :: L2) x y) by (intros x y; apply linked_map; intros; apply linked_one; auto).
      destruct (IH ((a, b) :: L2)) as (M & N1 & N2 & N3 & N4).
      { split.
        - intros x y I. apply in_app_iff in I. cbn [In] in I. destruct I as [I|[I|I]]; [apply On; right; apply in_app_iff; auto|injection I as <- <-; auto|apply On; right; apply in_app_iff; auto].
        - intros x y Hx Hy. apply (linked_map ((u, v) :: K)); [|apply Co; auto]. intros p q [E|E]; [|apply Up, linked_one; exact E]. injection E as <- <-.
          apply (linked_trans _ _ a); [apply Up; exact Ca|]. apply (linked_trans _ _ b); [apply linked_one; exact New|]. apply Up, linked_sym. exact Cv. }
      { intros x y [E|E]; [injection E as <- <-; exact J|apply Ed; exact E]. }
      exists M. split; [exact N1|]. split; [exact N2|]. split; [unfold K; cbn [length]; rewrite !app_length in *; cbn [length] in *; lia|].
      intros f G. specialize (N4 f G). unfold K. rewrite cost_cons, cost_app in *. rewrite cost_cons in N4. cbn [fst snd] in *.
      pose proof (proj2 G (d2 pts a b) (d2 pts u v) (conj (d2_pos a b) D)). lra.
Qed.

(** ** a shortest one exists *)
Lemma exists_min {X} (P : X -> Prop) (m : X -> R) l : (exists x, In x l /\ P x) -> exists x, In x l /\ P x /\ forall y, In y l -> P y -> m x <= m y.
Proof.
  induction l as [|a l IH]; intros (x & Hx & Px); [destruct Hx|]. destruct (classic (exists x, In x l /\ P x)) as [H|H].
  - destruct (IH H) as (z & Hz & Pz & Mz). destruct (classic (P a /\ m a <= m z)) as [(Pa & La)|N].
    + exists a. split; [left; reflexivity|]. split; [exact Pa|]. intros y [<-|Hy] Py; [lra|]. specialize (Mz y Hy Py). lra.
    + exists z. split; [right; exact Hz|]. split; [exact Pz|]. intros y [<-|Hy] Py; [|auto]. destruct (Rle_or_lt (m a) (m z)); [tauto|lra].
  - exists x. split; [exact Hx|]. split; [exact Px|]. destruct Hx as [<-|Hx]; [|exfalso; eauto]. intros y [<-|Hy] Py; [lra|]. exfalso; eauto.
Qed.
Fixpoint subs {X} (l : list X) : list (list X) := match l with [] => [[]] | x :: l => map (cons x) (subs l) ++ subs l end.
Lemma filter_subs {X} (p : X -> bool) l : In (filter p l) (subs l).
Proof. induction l as [|x l IH]; cbn [filter subs]; [left; reflexivity|]. apply in_app_iff. destruct (p x); [left; apply in_map; exact IH|right; exact IH]. Qed.
Lemma subs_incl {X} (l : list X) : forall s, In s (subs l) -> incl s l.
Proof.
  induction l as [|x l IH]; intros s; cbn [subs]; [intros [<-|[]] y []|]. rewrite in_app_iff, in_map_iff. intros [(s' & <- & H)|H] y; [intros [<-|Hy]; [left; reflexivity|right; eapply IH; eauto]|intros Hy; right; eapply IH; eauto].
Qed.
Definition pair_dec : forall a b : Z * Z, {a = b} + {a <> b}. Proof. decide equality; apply Z.eq_dec. Defined.
Definition all_links : list (Z * Z) := nodup pair_dec (list_prod T T).
Lemma cost_incl f : growing f -> forall l m, NoDup l -> incl l m -> cost pts f l <= cost pts f m.
Proof.
  intros G. assert (P0 : forall m, 0 <= cost pts f m). { induction m as [|e m IH]; [apply Rle_refl|]. rewrite cost_cons. pose proof (proj1 G _ (d2_pos (fst e) (snd e))). lra. }
  induction l as [|e l IH]; intros m ND I; [apply P0|]. inversion ND as [|e' l' N1 N2]; subst.
  destruct (in_split e m (I e (or_introl eq_refl))) as (m1 & m2 & ->). assert (I2 : incl l (m1 ++ m2)).
  { intros x Hx. specialize (I x (or_intror Hx)). apply in_app_iff in I. apply in_app_iff. destruct I as [I|[I|I]]; auto. subst. contradiction. }
  specialize (IH _ N2 I2). rewrite cost_app in *. rewrite !cost_cons. lra.
Qed.
Lemma reduce M : network T M -> of_edges T M -> exists M', In M' (subs all_links) /\ network T M' /\ of_edges T M' /\ (length M' <= length M)%nat /\
  forall f, growing f -> cost pts f M' <= cost pts f M.
Proof.
  intros (On & Co) Ed. set (M' := filter (fun e => if in_dec pair_dec e M then true else false) all_links). exists M'.
  assert (Eq : forall e, In e M' <-> In e M).
  { intros (a, b). unfold M', all_links. rewrite filter_In, nodup_In, in_prod_iff. destruct (in_dec pair_dec (a, b) M) as [I|I]; [|intuition discriminate].
    destruct (On a b I). tauto. }
  assert (ND : NoDup M') by (apply NoDup_filter, NoDup_nodup). assert (Inc : incl M' M) by (intros e He; apply Eq; exact He).
  split; [apply filter_subs|]. split; [split|].
  - intros a b I. apply On, Eq, I.
  - intros a b Ha Hb'. apply (linked_map M); [|apply Co; auto]. intros x y I. apply linked_one, Eq, I.
  - split; [intros a b I; apply Ed, Eq, I|]. split; [apply NoDup_incl_length; auto|]. intros f G. apply cost_incl; auto.
Qed.
Lemma full_network : network T (list_prod T T).
Proof. split; [intros a b I; apply in_prod_iff; exact I|]. intros a b Ha Hb'. apply linked_one, in_prod_iff. auto. Qed.
Lemma shortest f : growing f -> exists M, network T M /\ of_edges T M /\ spare T M /\ forall L, network T L -> cost pts f M <= cost pts f L.
Proof.
  intros G. set (P := fun M => network T M /\ of_edges T M).
  assert (Ex : exists x, In x (subs all_links) /\ P x).
  { destruct (exchange (list_prod T T) []) as (M & N1 & N2 & _); [rewrite app_nil_r; apply full_network|intros a b []|].
    destruct (reduce M N1 N2) as (M' & H1 & H2 & H3 & _). exists M'. split; [exact H1|split; auto]. }
  destruct (exists_min P (cost pts f) _ Ex) as (M0 & I0 & P0 & Min0).
  assert (Low : forall L, network T L -> cost pts f M0 <= cost pts f L).
  { intros L NL. destruct (exchange L []) as (M & N1 & N2 & _ & N4); [rewrite app_nil_r; exact NL|intros a b []|]. specialize (N4 f G). rewrite app_nil_r in N4.
    destruct (reduce M N1 N2) as (M' & H1 & H2 & H3 & _ & H4). specialize (H4 f G). specialize (Min0 M' H1 (conj H2 H3)). lra. }
  destruct (exists_min (fun M => P M /\ cost pts f M <= cost pts f M0) (fun M => INR (length M)) (subs all_links)) as (M & I & (Q & C) & Min).
  { exists M0. split; [exact I0|]. split; [exact P0|apply Rle_refl]. }
  destruct Q as (N & Ed). exists M. split; [exact N|]. split; [exact Ed|]. split.
  - intros e K K' E NK. assert (EdK : of_edges T (K ++ K')). { intros a b I'. apply Ed. rewrite E. apply in_app_iff in I'. apply in_app_iff. cbn [In]. tauto. }
    destruct (reduce (K ++ K') NK EdK) as (M' & H1 & H2 & H3 & H5 & H4). specialize (H4 f G).
    assert (L : INR (length M) <= INR (length M')).
    { apply Min; [exact H1|]. split; [split; auto|]. apply (Rle_trans _ _ _ H4). refine (Rle_trans _ _ _ _ C). rewrite E, !cost_app, cost_cons.
      pose proof (proj1 G _ (d2_pos (fst e) (snd e))). lra. }
    apply INR_le in L. rewrite E, app_length in L. rewrite app_length in H5. cbn [length] in L. lia.
  - intros L NL. specialize (Low L NL). lra.
Qed.
Lemma mst_all : has_shortest_networks pts T.
Proof.
  split; [|exact shortest]. intros L NL. destruct (exchange L []) as (M & N); [rewrite app_nil_r; exact NL|intros a b []|]. rewrite app_nil_r in N. exists M. exact N.
Qed.
End mst.
