(** The hull of the monotone chains is the only closed walk along supporting edges. *)
From Coq Require Import ZArith Lia List Bool Reals Lra Permutation Sorted.
From Verif Require Import Base Arith M_r3 M_tri2 Spec_r3 Spec_plane XRvec P_tri2 P_polygon P_hull P_ring.
Import ListNotations.
Open Scope R_scope.

(** ** the chains skip no point *)
Section Gap.
Variable s : R.
Hypothesis Hs : s = 1 \/ s = -1.
Lemma cross_trans_strict u v w : lexpos u -> lexpos v -> lexpos w ->
  0 < s * crossv u v -> 0 <= s * crossv v w -> 0 < s * crossv u w.
Proof.
  destruct u as [ux uy], v as [a b], w as [wx wy]. unfold lexpos, crossv; simpl.
  intros Hu [Hv|[-> Hv]] Hw H1 H2.
  - assert (E : a * (s * (ux * wy - uy * wx)) =
       ux * (s * (a * wy - b * wx)) + wx * (s * (ux * b - uy * a))) by ring.
    assert (0 <= ux) by lra. assert (0 <= wx) by lra.
    assert (P1 : 0 <= ux * (s * (a * wy - b * wx))) by (apply Rmult_le_pos; auto).
    assert (P2 : 0 <= wx * (s * (ux * b - uy * a))) by (apply Rmult_le_pos; lra).
    assert (0 < a * (s * (ux * wy - uy * wx))).
    { rewrite E. destruct Hw as [Hw|[-> Hw]].
      - assert (0 < wx * (s * (ux * b - uy * a))) by (apply Rmult_lt_0_compat; auto). lra.
      - destruct Hu as [Hu|[-> Hu]].
        + assert (0 < ux * (s * (a * wy - b * 0))); [|lra]. apply Rmult_lt_0_compat; auto.
          destruct Hs as [-> | ->]; [assert (0 < a * wy) by (apply Rmult_lt_0_compat; auto); lra|].
          exfalso. assert (0 < a * wy) by (apply Rmult_lt_0_compat; auto). lra.
        + exfalso. destruct Hs as [-> | ->]; [assert (0 < uy * a) by (apply Rmult_lt_0_compat; auto); lra|].
          assert (0 < a * wy) by (apply Rmult_lt_0_compat; auto). lra. }
    destruct (Rle_lt_dec (s * (ux * wy - uy * wx)) 0) as [Q|Q]; auto. exfalso.
    assert (0 <= a * - (s * (ux * wy - uy * wx))) by (apply Rmult_le_pos; lra). lra.
  - destruct Hs as [-> | ->].
    + assert (wx = 0). { destruct Hw as [Hw|[? _]]; auto. exfalso. assert (0 < b * wx) by (apply Rmult_lt_0_compat; auto). lra. }
      destruct Hw as [?|[_ Hw]]; [lra|]. subst wx.
      assert (0 < ux). { destruct Hu as [?|[-> _]]; auto. exfalso. lra. }
      assert (0 < ux * wy) by (apply Rmult_lt_0_compat; lra). lra.
    + exfalso. assert (0 <= ux) by lra. assert (0 <= ux * b) by (apply Rmult_le_pos; lra). lra.
Qed.
Definition gap (Q : list rv) (y x : rv) : Prop := forall q, In q Q -> lexlt x q -> lexlt q y -> 0 < s * ccw x y q.
Lemma popR_gap Q p : forall st b, (forall q, In q Q -> lexlt q p) ->
  (forall a c, In a Q -> In c Q -> a = c \/ lexlt a c \/ lexlt c a) ->
  In b Q -> adj (edge s Q) (b :: st) ->
  (forall q, In q Q -> lexlt b q -> 0 < s * ccw b p q) ->
  exists b' st', popR s p (b :: st) = b' :: st' /\ (forall q, In q Q -> lexlt b' q -> 0 < s * ccw b' p q) /\
    exists top, b :: st = top ++ b' :: st'.
Proof.
  induction st as [|a st IH]; intros b Hp Htot Hb Hadj Hc.
  - exists b, []. split; [reflexivity|]. split; auto. exists []. reflexivity.
  - cbn [popR]. apply adj_cons2 in Hadj. destruct Hadj as [(Hab & Ha & _ & He) Hadj].
    destruct (Rltb_spec (s * ccw a b p) 0) as [Hlt|Hge].
    + destruct (IH a Hp Htot Ha Hadj) as (b' & st' & E & G & top & Et).
      * intros q Hq Haq.
        assert (F : forall u v w, ccw u v w = crossv (vsub v u) (vsub w u)) by (intros; reflexivity).
        rewrite !F in *. apply (cross_trans_strict _ (vsub b a)); try (apply lexlt_pos; auto); auto.
        -- replace (crossv (vsub p a) (vsub b a)) with (- crossv (vsub b a) (vsub p a)) by (unfold crossv; ring). lra.
        -- rewrite <- F. apply He; auto.
      * exists b', st'. split; auto. split; auto. exists (b :: top). rewrite Et. reflexivity.
    + exists b, (a :: st). split; [reflexivity|]. split; auto. exists []. reflexivity.
Qed.
Lemma chain_gap_step Q st p :
  (forall q, In q Q -> lexlt q p) ->
  (forall a c, In a Q -> In c Q -> a = c \/ lexlt a c \/ lexlt c a) ->
  chain_inv s Q st -> adj (gap Q) st -> adj (gap (Q ++ [p])) (p :: popR s p st).
Proof.
  intros Hp Htot (b & st' & -> & Hb & Hmax & Hmin & Hadj) G.
  destruct (popR_gap Q p st' b) as (b' & st2 & E & G2 & top & Et); auto.
  { intros q Hq Hbq. exfalso. destruct (Hmax q Hq) as [->|W]; unfold lexlt in *; lra. }
  rewrite E. apply adj_cons2. split.
  - intros q Hq H1 H2. apply in_app_or in Hq. destruct Hq as [Hq|[<-|[]]]; auto. unfold lexlt in H2. lra.
  - assert (G3 : adj (gap Q) (b' :: st2)).
    { rewrite Et in G. destruct top as [|t top]; [exact G|]. apply adj_app in G. tauto. }
    assert (HQ : incl (b' :: st2) Q).
    { assert (Hin : forall m c, In c Q -> adj (edge s Q) (c :: m) -> incl (c :: m) Q).
      { induction m as [|d m IH]; intros c Hc Ha y [<-|Hy]; [auto|destruct Hy|auto|].
        apply adj_cons2 in Ha. destruct Ha as [(_ & Hd & _) Ha]. apply (IH d Hd Ha). exact Hy. }
      intros y Hy. apply (Hin st' b Hb Hadj). rewrite Et. apply in_or_app; auto. }
    revert G3 HQ. generalize (b' :: st2). intros m. induction m as [|x [|y m] IH]; [simpl; auto..|].
    rewrite !adj_cons2. intros [A B] HQ. split; [|apply IH; auto; intros z Hz; apply HQ; right; auto].
    intros q Hq H1 H2. apply in_app_or in Hq. destruct Hq as [Hq|[<-|[]]]; [apply A; auto|].
    exfalso. pose proof (Hp x (HQ x (or_introl eq_refl))). unfold lexlt in *. lra.
Qed.
End Gap.

Lemma chains_gap l : l <> [] -> StronglySorted lexlt l ->
  exists U L, fold_left hullStepR l ([], []) = (U, L) /\ chain_inv (-1) l U /\ chain_inv 1 l L /\ adj (gap (-1) l) U /\ adj (gap 1 l) L.
Proof.
  intros Hne Hs.
  assert (Htot : forall a c, In a l -> In c l -> a = c \/ lexlt a c \/ lexlt c a).
  { clear -Hs. induction Hs as [|x l Hs IH Hf]; [intros ? ? []|].
    rewrite Forall_forall in Hf. intros a c [<-|Ha] [<-|Hc]; auto. }
  assert (G : forall post pre, l = pre ++ post -> pre <> [] ->
     forall U L, chain_inv (-1) pre U -> chain_inv 1 pre L -> adj (gap (-1) pre) U -> adj (gap 1 pre) L ->
     exists U' L', fold_left hullStepR post (U, L) = (U', L') /\ chain_inv (-1) l U' /\ chain_inv 1 l L' /\ adj (gap (-1) l) U' /\ adj (gap 1 l) L').
  { induction post as [|p post IH]; intros pre E Hpre U L HU HL GU GL.
    - rewrite app_nil_r in E. subst pre. exists U, L. auto.
    - cbn [fold_left hullStepR].
      assert (Hp : forall q, In q pre -> lexlt q p).
      { intros q Hq. subst l. clear -Hs Hq. induction pre as [|x pre IH]; [destruct Hq|].
        simpl in Hs. inversion Hs; subst. destruct Hq as [->|Hq]; auto.
        rewrite Forall_forall in H2. apply H2. apply in_or_app; right; left; reflexivity. }
      assert (Ht : forall a c, In a pre -> In c pre -> a = c \/ lexlt a c \/ lexlt c a).
      { intros a c Ha Hc. apply Htot; subst l; apply in_or_app; auto. }
      apply (IH (pre ++ [p])).
      + rewrite <- app_assoc. exact E.
      + destruct pre; discriminate.
      + apply chain_step; auto.
      + apply chain_step; auto.
      + apply chain_gap_step; auto.
      + apply chain_gap_step; auto. }
  destruct l as [|x l]; [congruence|]. cbn [fold_left hullStepR popR].
  apply (G l [x]); [reflexivity|discriminate| | |exact I|exact I];
    (exists x, []; repeat split; [left; reflexivity| | ];
     intros q [<-|[]]; left; reflexivity).
Qed.

(** ** supporting edges *)
Definition between (u v q : rv) : Prop := (lexlt u q /\ lexlt q v) \/ (lexlt v q /\ lexlt q u).
(** an edge of the point set: everything on its left, nothing on it between its ends *)
Definition hedge (Q : list rv) (u v : rv) : Prop :=
  In u Q /\ In v Q /\ ~ samexy u v /\ (forall q, In q Q -> 0 <= ccw u v q) /\
  (forall q, In q Q -> ccw u v q = 0 -> ~ between u v q).

Lemma hullR_edges l : StronglySorted lexlt l -> (2 <= length l)%nat ->
  exists a h, hullR l = a :: h /\ ~ In a h /\ (forall q, In q l -> leq a q) /\ In a l /\
    forall e, In e (polygon_edges (a :: h)) -> hedge l (fst e) (snd e).
Proof.
  intros Hs Hlen.
  assert (Hne : l <> []) by (destruct l; [simpl in Hlen; lia|discriminate]).
  assert (Hnd : NoDup l).
  { clear -Hs. induction Hs as [|x l Hs IH Hf]; constructor; auto.
    rewrite Forall_forall in Hf. intros Hx. specialize (Hf x Hx). unfold lexlt in Hf. lra. }
  destruct (chains_gap l Hne Hs) as (U & L & E & (bu & U' & -> & Hbu & Umax & Umin & Uadj) & (bl & L' & -> & Hbl & Lmax & Lmin & Ladj) & GU & GL).
  assert (bl = bu) by (apply leq_antisym; auto). subst bl. rename bu into b.
  assert (Hin : forall s m c, In c l -> adj (edge s l) (c :: m) -> incl (c :: m) l).
  { induction m as [|d m IH]; intros c Hc Ha y [<-|Hy]; [auto|destruct Hy|auto|].
    apply adj_cons2 in Ha. destruct Ha as [(_ & Hd & _) Ha]. apply (IH d Hd Ha). exact Hy. }
  assert (HinU := Hin _ _ _ Hbu Uadj). assert (HinL := Hin _ _ _ Hbl Ladj).
  assert (Hlastin : forall m c, incl (c :: m) l -> In (last m c) l).
  { induction m as [|d m IH]; intros c Hc; [apply Hc; left; reflexivity|].
    assert (El : last (d :: m) c = last m d).
    { apply last_cons. }
    rewrite El. apply IH. intros y Hy. apply Hc. right; auto. }
  remember (last U' b) as a eqn:Da in *.
  assert (Ha : last L' b = a).
  { apply leq_antisym; [apply Lmin; rewrite Da; apply Hlastin; auto|apply Umin; apply Hlastin; auto]. }
  assert (Hal : In a l) by (rewrite Da; apply Hlastin; auto).
  assert (Hab : lexlt a b).
  { destruct (Umax a Hal) as [E2|]; auto. exfalso.
    assert (forall q, In q l -> q = b).
    { intros q Hq. apply leq_antisym; auto. rewrite <- E2. auto. }
    destruct l as [|x [|y l]]; simpl in Hlen; try lia.
    assert (x = y) by (rewrite (H x), (H y); simpl; auto).
    subst y. apply NoDup_cons_iff in Hnd. apply (proj1 Hnd). left; reflexivity. }
  assert (HU : exists u, U' = u ++ [a]).
  { destruct U' as [|c m]; [exfalso; simpl in Da; subst; unfold lexlt in Hab; lra|].
    destruct (@exists_last _ (c :: m)) as (u & z & Ez); [discriminate|].
    exists u. rewrite Da, Ez, last_last. reflexivity. }
  assert (HL : exists u, L' = u ++ [a]).
  { destruct L' as [|c m]; [exfalso; simpl in Ha; rewrite Ha in Hab; unfold lexlt in Hab; lra|].
    destruct (@exists_last _ (c :: m)) as (u & z & Ez); [discriminate|].
    exists u. rewrite <- Ha, Ez, last_last. reflexivity. }
  destruct HU as [u ->]. destruct HL as [v ->].
  assert (Hh : hullR l = a :: rev v ++ b :: u).
  { unfold hullR. rewrite E. cbn [tl]. rewrite rev_app_distr. cbn [rev app].
    f_equal. f_equal. change (b :: u ++ [a]) with ((b :: u) ++ [a]). rewrite removelast_last. reflexivity. }
  exists a, (rev v ++ b :: u). split; [exact Hh|]. split; [|split; [exact Umin|split; [exact Hal|]]].
  - (* a occurs once: the chains are strictly monotone *)
    assert (Mono : forall s m c, adj (edge s l) (c :: m ++ [a]) -> forall x, In x (c :: m) -> lexlt a x).
    { intros s0. induction m as [|d m IH]; intros c Hadj x Hx.
      - destruct Hx as [<-|[]]. simpl in Hadj. apply Hadj.
      - change (c :: (d :: m) ++ [a]) with (c :: d :: m ++ [a]) in Hadj. apply adj_cons2 in Hadj. destruct Hadj as [(A & _) B].
        destruct Hx as [<-|Hx]; [|apply (IH d B); auto]. pose proof (IH d B d (or_introl eq_refl)). unfold lexlt in *. lra. }
    intros Hin'. apply in_app_or in Hin'. 
    assert (W : forall x, In x (rev v) \/ In x (b :: u) -> lexlt a x).
    { intros x [Hx|Hx]; [apply in_rev in Hx; apply (Mono 1 v b Ladj); right; auto|apply (Mono (-1) u b Uadj); auto]. }
    specialize (W a Hin'). unfold lexlt in W. lra.
  - apply (edges_adj (fun x y => hedge l x y)).
    rewrite <- app_assoc. change ((b :: u) ++ [a]) with (b :: u ++ [a]).
    rewrite app_comm_cons. apply adj_app.
    assert (Both : forall (P Q : rv -> rv -> Prop) m, adj P m -> adj Q m -> adj (fun x y => P x y /\ Q x y) m).
    { clear. intros P Q m. induction m as [|x [|y m] IH]; [simpl; auto..|]. rewrite !adj_cons2. tauto. }
    split.
    + change (adj (fun x y => hedge l x y) (([a] ++ rev v) ++ [b])).
      replace (([a] ++ rev v) ++ [b]) with (rev (b :: v ++ [a]))
        by (simpl; rewrite rev_app_distr; reflexivity).
      apply adj_rev. eapply adj_impl; [|exact (Both _ _ _ Ladj GL)].
      intros y x [(A & B & C & D) F]. unfold hedge. repeat split; auto.
      * intros [S1 S2]. unfold lexlt in A. lra.
      * intros q Hq. specialize (D q Hq). lra.
      * intros q Hq Z Bt. destruct Bt as [[B1 B2]|[B1 B2]]; [|unfold lexlt in *; lra].
        specialize (F q Hq B1 B2). lra.
    + eapply adj_impl; [|exact (Both _ _ _ Uadj GU)].
      intros y x [(A & B & C & D) F]. unfold hedge.
      assert (Sw : forall q, ccw y x q = - ccw x y q) by (intros; unfold ccw; ring).
      repeat split; auto.
      * intros [S1 S2]. unfold lexlt in A. lra.
      * intros q Hq. specialize (D q Hq). rewrite Sw. lra.
      * intros q Hq Z Bt. rewrite Sw in Z. destruct Bt as [[B1 B2]|[B1 B2]]; [unfold lexlt in *; lra|].
        specialize (F q Hq B1 B2). lra.
Qed.

(** ** there is only one such walk *)
Section Unique.
Variable Q : list rv.
Hypothesis Dist : forall a b, In a Q -> In b Q -> samexy a b -> a = b.
Hypothesis NL : exists a b c, In a Q /\ In b Q /\ In c Q /\ ccw a b c <> 0.
(* opposite supporting directions *)
Lemma opposite V W d : lexpos V -> lexpos W -> crossv V W = 0 -> 0 <= crossv V d -> crossv W d <= 0 -> crossv V d = 0.
Proof.
  destruct V as [a b], W as [c e], d as [x y]. unfold lexpos, crossv; simpl. intros Hv Hw C H1 H2.
  destruct Hv as [Hv|[-> Hv]].
  - assert (0 < c). { destruct Hw as [?|[-> Hw]]; auto. exfalso. assert (0 < a * e) by (apply Rmult_lt_0_compat; auto). lra. }
    assert (E : c * (a * y - b * x) = a * (c * y - e * x) + (a * e - b * c) * x) by ring. rewrite C in E.
    assert (0 <= a * - (c * y - e * x)) by (apply Rmult_le_pos; lra). assert (0 <= c * (a * y - b * x)) by (apply Rmult_le_pos; lra).
    assert (Z : c * (a * y - b * x) = 0) by lra. apply Rmult_integral in Z. lra.
  - assert (c = 0). { destruct Hw as [?|[-> ?]]; auto. assert (Z : b * c = 0) by lra. apply Rmult_integral in Z. lra. }
    subst c. destruct Hw as [?|[_ Hw]]; [lra|].
    destruct (Rle_lt_dec x 0) as [X|X].
    + destruct (Rle_lt_dec 0 x) as [X2|X2]; [assert (x = 0) by lra; subst; ring|]. exfalso.
      assert (0 < e * - x) by (apply Rmult_lt_0_compat; lra). lra.
    + exfalso. assert (0 < b * x) by (apply Rmult_lt_0_compat; lra). lra.
Qed.
Lemma not_all_zero u v : ~ samexy u v -> ~ (forall q, In q Q -> ccw u v q = 0).
Proof.
  intros NS H. destruct NL as (a & b & c & Ha & Hb & Hc & N). apply N.
  pose proof (H a Ha) as A. pose proof (H b Hb) as B. pose proof (H c Hc) as C.
  assert (E1 : (rx v - rx u) * ccw a b c = 0).
  { replace ((rx v - rx u) * ccw a b c) with ((rx b - rx a) * (ccw u v c - ccw u v a) - (rx c - rx a) * (ccw u v b - ccw u v a)) by (unfold ccw; ring).
    rewrite A, B, C. ring. }
  assert (E2 : (ry v - ry u) * ccw a b c = 0).
  { replace ((ry v - ry u) * ccw a b c) with ((ry b - ry a) * (ccw u v c - ccw u v a) - (ry c - ry a) * (ccw u v b - ccw u v a)) by (unfold ccw; ring).
    rewrite A, B, C. ring. }
  apply Rmult_integral in E1. apply Rmult_integral in E2. destruct E1 as [E1|]; auto. destruct E2 as [E2|]; auto.
  exfalso. apply NS. split; lra.
Qed.
Lemma lex_cases u v : ~ samexy u v -> lexlt u v \/ lexlt v u.
Proof. intros N. destruct (lex_total u v) as [?|?]; tauto. Qed.
Lemma hedge_fun u v w : hedge Q u v -> hedge Q u w -> v = w.
Proof.
  intros (Hu & Hv & Nuv & Lv & Bv) (_ & Hw & Nuw & Lw & Bw).
  assert (C : ccw u v w = 0).
  { pose proof (Lv w Hw). pose proof (Lw v Hv). assert (ccw u w v = - ccw u v w) by (unfold ccw; ring). lra. }
  assert (C' : ccw u w v = 0) by (replace (ccw u w v) with (- ccw u v w) by (unfold ccw; ring); lra).
  destruct (lex_total v w) as [S|T]; [apply Dist; auto|]. exfalso.
  destruct (lex_cases u v Nuv) as [Av|Av]; destruct (lex_cases u w Nuw) as [Aw|Aw].
  - destruct T as [T|T]; [apply (Bw v Hv C'); left; auto|apply (Bv w Hw C); left; auto].
  - apply (not_all_zero u v Nuv). intros q Hq.
    apply (opposite (vsub v u) (vsub u w) (vsub q u)); try (apply lexlt_pos; auto).
    + unfold ccw in C. unfold crossv, vsub; simpl. lra.
    + apply (Lv q Hq).
    + pose proof (Lw q Hq) as Z. unfold ccw in Z. unfold crossv, vsub; simpl. lra.
  - apply (not_all_zero u w Nuw). intros q Hq.
    apply (opposite (vsub w u) (vsub u v) (vsub q u)); try (apply lexlt_pos; auto).
    + unfold ccw in C. unfold crossv, vsub; simpl. lra.
    + apply (Lw q Hq).
    + pose proof (Lv q Hq) as Z. unfold ccw in Z. unfold crossv, vsub; simpl. lra.
  - destruct T as [T|T]; [apply (Bv w Hw C); right; auto|apply (Bw v Hv C'); right; auto].
Qed.
Lemma walk_eq a : forall l1 l2 x, (forall y z, In (y, z) (pairs (x :: l1 ++ [a])) -> hedge Q y z) ->
  (forall y z, In (y, z) (pairs (x :: l2 ++ [a])) -> hedge Q y z) -> ~ In a l1 -> ~ In a l2 -> l1 = l2.
Proof.
  induction l1 as [|y l1 IH]; intros [|z l2] x H1 H2 N1 N2; auto.
  - exfalso. apply N2. left. apply (hedge_fun x); [apply H2|apply H1]; left; auto.
  - exfalso. apply N1. left. apply (hedge_fun x); [apply H1|apply H2]; left; auto.
  - assert (y = z) as <-. { apply (hedge_fun x); [apply H1|apply H2]; left; auto. }
    f_equal. apply (IH l2 y).
    + intros; apply H1. right. auto.
    + intros; apply H2. right. auto.
    + intros W. apply N1. right; auto.
    + intros W. apply N2. right; auto.
Qed.
Theorem walk_unique a l1 l2 : ~ In a l1 -> ~ In a l2 ->
  (forall e, In e (polygon_edges (a :: l1)) -> hedge Q (fst e) (snd e)) -> (forall e, In e (polygon_edges (a :: l2)) -> hedge Q (fst e) (snd e)) -> l1 = l2.
Proof.
  intros N1 N2 H1 H2. apply (walk_eq a l1 l2 a); auto; intros y z H.
  - apply (H1 (y, z)). rewrite pe_pairs. auto.
  - apply (H2 (y, z)). rewrite pe_pairs. auto.
Qed.
(** it passes through the leftmost point *)
Lemma lexle_min (h : list rv) : h <> [] -> exists m, In m h /\ forall x, In x h -> samexy m x \/ lexlt m x.
Proof.
  induction h as [|a h IH]; intros N; [contradiction|]. destruct h as [|b h].
  - exists a. split; [left; auto|]. intros x [<-|[]]. left. split; auto.
  - destruct IH as (m & Hm & Le); [discriminate|]. destruct (lex_total a m) as [T|[T|T]].
    + exists m. split; [right; auto|]. intros x [<-|Hx]; auto. left. destruct T; split; auto.
    + exists a. split; [left; auto|]. intros x [<-|Hx]; [left; split; auto|]. destruct (Le x Hx) as [[S1 S2]|S]; right; unfold lexlt in *; lra.
    + exists m. split; [right; auto|]. intros x [<-|Hx]; auto.
Qed.
Theorem leftmost_in h a : h <> [] -> (forall e, In e (polygon_edges h) -> hedge Q (fst e) (snd e)) -> In a Q -> (forall q, In q Q -> leq a q) -> In a h.
Proof.
  intros NE HE Ia Min. destruct (lexle_min h NE) as (m & Hm & Le).
  destruct (pe_succ h m Hm) as (k & Ek). destruct (pe_pred h m Hm) as (p & Ep).
  destruct (HE _ Ek) as (Im & Ik & Nmk & Lk & _). destruct (HE _ Ep) as (Ip & _ & Npm & Lp & _). cbn [fst snd] in *.
  destruct (Min m Im) as [->|Lt]; auto. exfalso.
  destruct (pe_In _ _ _ Ek) as [_ Hk]. destruct (pe_In _ _ _ Ep) as [Hp _].
  assert (Mk : lexlt m k) by (destruct (Le k Hk); tauto).
  assert (Mp : lexlt m p). { destruct (Le p Hp) as [[S1 S2]|]; auto. exfalso. apply Npm. split; auto. }
  pose proof (Lk a Ia) as A1. pose proof (Lp a Ia) as A2. pose proof (Lp k Ik) as A3.
  assert (Ex : ccw p m k * (rx a - rx m) = (rx p - rx m) * ccw m k a + (rx k - rx m) * ccw p m a) by (unfold ccw; ring).
  assert (Ey : ccw p m k * (ry a - ry m) = (ry p - ry m) * ccw m k a + (ry k - ry m) * ccw p m a) by (unfold ccw; ring).
  destruct (Rle_lt_dec (ccw p m k) 0) as [C|C].
  - assert (C0 : ccw p m k = 0) by lra. apply (not_all_zero m k Nmk). intros q Hq.
    apply (opposite (vsub k m) (vsub p m) (vsub q m)); try (apply lexlt_pos; auto).
    + unfold ccw in C0. unfold crossv, vsub; simpl. lra.
    + apply (Lk q Hq).
    + pose proof (Lp q Hq) as Z. unfold ccw in Z. unfold crossv, vsub; simpl. lra.
  - assert (X1 : 0 <= (rx p - rx m) * ccw m k a) by (apply Rmult_le_pos; auto; unfold lexlt in Mp; lra).
    assert (X2 : 0 <= (rx k - rx m) * ccw p m a) by (apply Rmult_le_pos; auto; unfold lexlt in Mk; lra).
    destruct Lt as [Lt|[Lx Ly]].
    + assert (0 < ccw p m k * - (rx a - rx m)) by (apply Rmult_lt_0_compat; lra). lra.
    + assert (Y0 : 0 < ccw p m k * - (ry a - ry m)) by (apply Rmult_lt_0_compat; lra).
      rewrite Lx in Ex. replace (ccw p m k * (rx m - rx m)) with 0 in Ex by ring.
      assert (Z1 : (rx p - rx m) * ccw m k a = 0) by lra. assert (Z2 : (rx k - rx m) * ccw p m a = 0) by lra.
      assert (Y1 : 0 <= (ry p - ry m) * ccw m k a).
      { apply Rmult_integral in Z1. destruct Z1 as [Z1|Z1]; [|rewrite Z1; lra]. apply Rmult_le_pos; auto. unfold lexlt in Mp. lra. }
      assert (Y2 : 0 <= (ry k - ry m) * ccw p m a).
      { apply Rmult_integral in Z2. destruct Z2 as [Z2|Z2]; [|rewrite Z2; lra]. apply Rmult_le_pos; auto. unfold lexlt in Mk. lra. }
      lra.
Qed.
Theorem same_walk h a l : NoDup h -> h <> [] -> (forall e, In e (polygon_edges h) -> hedge Q (fst e) (snd e)) ->
  ~ In a l -> In a Q -> (forall q, In q Q -> leq a q) -> (forall e, In e (polygon_edges (a :: l)) -> hedge Q (fst e) (snd e)) ->
  exists h1 h2, h = h1 ++ h2 /\ a :: l = h2 ++ h1.
Proof.
  intros ND NE HE Na Ia Min HL. pose proof (leftmost_in h a NE HE Ia Min) as Hin. apply in_split in Hin. destruct Hin as (h1 & h2 & ->).
  exists h1, (a :: h2). split; auto. cbn [app]. f_equal. apply (walk_unique a).
  - auto.
  - apply NoDup_remove_2 in ND. intros W. apply ND. apply in_app_or in W. apply in_or_app. tauto.
  - auto.
  - intros e He. apply HE. apply (Permutation_in _ (pe_rot (a :: h2) h1)). auto.
Qed.
End Unique.
