(** Which points ConvexHull returns: exactly those that lie on a supporting line of the input. *)
From Coq Require Import ZArith Lia List Bool Reals Lra Permutation Sorted.
From Verif Require Import Base Arith M_r3 M_tri2 Spec_r3 Spec_plane Spec_hull XRvec P_tri2 P_polygon P_hull P_ring P_hullsame.
Import ListNotations.
Open Scope R_scope.

Lemma sorted_total l : StronglySorted lexlt l -> forall a c, In a l -> In c l -> a = c \/ lexlt a c \/ lexlt c a.
Proof.
  intros Hs. induction Hs as [|x l Hs IH Hf]; [intros ? ? []|]. rewrite Forall_forall in Hf. intros a c [<-|Ha] [<-|Hc]; auto.
Qed.
Lemma chain_between s l : StronglySorted lexlt l -> forall m c q, incl (c :: m) l -> adj (gap s l) (c :: m) -> In q l -> leq (last m c) q -> leq q c ->
  In q (c :: m) \/ exists x y, In x l /\ In y l /\ lexlt x q /\ lexlt q y /\ 0 < s * ccw x y q.
Proof.
  intros Hs. induction m as [|d m IH]; intros c q Hi Ha Hq L1 L2.
  - left. left. apply leq_antisym; auto.
  - rewrite last_cons in L1. apply adj_cons2 in Ha. destruct Ha as [G Ha]. assert (Hd : In d l) by (apply Hi; right; left; auto).
    destruct L2 as [->|L2]; [left; left; auto|].
    assert (T : leq q d \/ lexlt d q). { unfold leq. destruct (sorted_total l Hs q d Hq Hd) as [?|[?|?]]; auto. }
    destruct T as [T|T].
    + destruct (IH d q) as [H|H]; auto; [intros y Hy; apply Hi; right; auto|left; right; auto].
    + right. exists d, c. repeat split; auto. apply Hi. left; auto.
Qed.
(** a point strictly above a chord and strictly below another is not on the boundary *)
Lemma squeezed vs v x y x' y' : In x vs -> In y vs -> In x' vs -> In y' vs -> lexlt x v -> lexlt v y -> 0 < ccw x y v ->
  lexlt x' v -> lexlt v y' -> ccw x' y' v < 0 -> ~ on_boundary vs v.
Proof.
  intros Ix Iy Ix' Iy' Lx Ly Cl Lx' Ly' Cu (n & k & N & S).
  pose proof (S x Ix) as S1. pose proof (S y Iy) as S2. pose proof (S x' Ix') as S3. pose proof (S y' Iy') as S4. clear S.
  unfold ccw, lexlt in *. destruct x as [ax ay ?], y as [bx bY ?], x' as [cx cy ?], y' as [dx dy ?], v as [p q ?]. cbn [rx ry] in *.
  assert (Wl : ax < bx). { destruct (Rle_lt_dec bx ax); auto. assert (ax = p) by lra. assert (bx = p) by lra. subst. lra. }
  assert (Wu : cx < dx). { destruct (Rle_lt_dec dx cx); auto. assert (cx = p) by lra. assert (dx = p) by lra. subst. lra. }
  (* k >= 0 from the lower chord, k <= 0 from the upper one *)
  assert (K1 : 0 <= k).
  { assert (E : k * ((bx - ax) * (q - ay) - (bY - ay) * (p - ax)) =
       (bx - p) * ((n * p + k * q) - (n * ax + k * ay)) + (p - ax) * ((n * p + k * q) - (n * bx + k * bY))) by ring.
    assert (0 <= (bx - p) * ((n * p + k * q) - (n * ax + k * ay))) by (apply Rmult_le_pos; lra).
    assert (0 <= (p - ax) * ((n * p + k * q) - (n * bx + k * bY))) by (apply Rmult_le_pos; lra).
    destruct (Rle_lt_dec 0 k) as [|K]; auto. exfalso.
    assert (0 < - k * ((bx - ax) * (q - ay) - (bY - ay) * (p - ax))) by (apply Rmult_lt_0_compat; lra). lra. }
  assert (K2 : k <= 0).
  { assert (E : k * ((dx - cx) * (q - cy) - (dy - cy) * (p - cx)) =
       (dx - p) * ((n * p + k * q) - (n * cx + k * cy)) + (p - cx) * ((n * p + k * q) - (n * dx + k * dy))) by ring.
    assert (0 <= (dx - p) * ((n * p + k * q) - (n * cx + k * cy))) by (apply Rmult_le_pos; lra).
    assert (0 <= (p - cx) * ((n * p + k * q) - (n * dx + k * dy))) by (apply Rmult_le_pos; lra).
    destruct (Rle_lt_dec k 0) as [|K]; auto. exfalso.
    assert (0 < k * - ((dx - cx) * (q - cy) - (dy - cy) * (p - cx))) by (apply Rmult_lt_0_compat; lra). lra. }
  assert (k = 0) by lra. subst k. destruct N as [N|N]; [|lra].
  destruct (Rtotal_order n 0) as [T|[T|T]]; [|lra|].
  - assert (cx = p). { destruct (Rle_lt_dec p cx); [lra|]. exfalso. assert (0 < - n * (p - cx)) by (apply Rmult_lt_0_compat; lra). lra. }
    subst cx. assert (cy < q) by lra. assert (0 < (dx - p) * (q - cy)) by (apply Rmult_lt_0_compat; lra). lra.
  - assert (bx = p). { destruct (Rle_lt_dec bx p); [lra|]. exfalso. assert (0 < n * (bx - p)) by (apply Rmult_lt_0_compat; lra). lra. }
    subst bx. assert (q < bY) by lra. assert (0 < (p - ax) * (bY - q)) by (apply Rmult_lt_0_compat; lra). lra.
Qed.

Lemma in_removelast {T} (x d : T) l : In x l -> x = last l d \/ In x (removelast l).
Proof.
  intros H. assert (N : l <> []) by (intros ->; destruct H). rewrite (app_removelast_last d N) in H. apply in_app_or in H.
  destruct H as [H|[H|[]]]; auto.
Qed.
Lemma hullR_members l q : StronglySorted lexlt l -> (2 <= length l)%nat -> In q l -> (on_boundary l q <-> In q (hullR l)).
Proof.
  intros Hs Hlen Hq. split.
  - intros OB. assert (Hne : l <> []) by (intros ->; destruct Hq).
    destruct (hullR_edges l Hs Hlen) as (a & h & Eh & Na & Min & Ia & He).
    destruct (chains_gap l Hne Hs) as (U & L & E & (bu & U' & -> & Hbu & Umax & Umin & Uadj) & (bl & L' & -> & Hbl & Lmax & Lmin & Ladj) & GU & GL).
    assert (bl = bu) by (apply leq_antisym; auto). subst bl. rename bu into b.
    assert (Hin : forall s m c, In c l -> adj (edge s l) (c :: m) -> incl (c :: m) l).
    { induction m as [|d m IH]; intros c Hc Ha y [<-|Hy]; [auto|destruct Hy|auto|].
      apply adj_cons2 in Ha. destruct Ha as [(_ & Hd & _) Ha]. apply (IH d Hd Ha). exact Hy. }
    assert (HinU := Hin _ _ _ Hbu Uadj). assert (HinL := Hin _ _ _ Hbl Ladj).
    assert (Hlastin : forall m c, incl (c :: m) l -> In (last m c) l).
    { induction m as [|d m IH]; intros c Hc; [apply Hc; left; reflexivity|]. rewrite last_cons. apply IH. intros y Hy. apply Hc. right; auto. }
    assert (La : last L' b = a) by (apply leq_antisym; [apply Lmin; auto|apply Min; auto]).
    assert (Ua : last U' b = a) by (apply leq_antisym; [apply Umin; auto|apply Min; auto]).
    assert (Mem : forall x, x = a \/ x = b \/ In x L' \/ In x U' -> In x (hullR l)).
    { assert (Ain : In a (hullR l)) by (rewrite Eh; left; auto).
      assert (Uin : forall x, In x (b :: U') -> In x (hullR l)).
      { intros x Hx. destruct (in_removelast x a (b :: U') Hx) as [->|R].
        - rewrite last_cons, Ua. auto.
        - unfold hullR. rewrite E. apply in_or_app. right. auto. }
      intros x [->|[->|[Hx|Hx]]]; auto; [apply Uin; left; auto| |apply Uin; right; auto].
      unfold hullR. rewrite E. apply in_or_app. left. cbn [tl]. apply in_rev. rewrite rev_involutive. auto. }
    destruct (chain_between 1 l Hs L' b q) as [I1|(x & y & Ix & Iy & Lx & Ly & C)]; auto.
    { apply Mem. destruct I1; auto. }
    destruct (chain_between (-1) l Hs U' b q) as [I1|(x' & y' & Ix' & Iy' & Lx' & Ly' & C')]; auto.
    { apply Mem. destruct I1; auto. }
    exfalso. refine (squeezed l q x y x' y' _ _ _ _ _ _ _ _ _ _ OB); auto; lra.
  - intros Hh. destruct (hullR_edges l Hs Hlen) as (a & h & Eh & Na & Min & Ia & He). rewrite Eh in Hh.
    destruct (pe_succ _ _ Hh) as (w & Hw). destruct (He _ Hw) as (_ & _ & NS & Left & _). cbn [fst snd] in *.
    exists (ry w - ry q), (- (rx w - rx q)). split.
    + destruct (Req_dec (ry w - ry q) 0); [|auto]. right. intros ?. apply NS. split; lra.
    + intros z Hz. specialize (Left z Hz). unfold ccw in Left. lra.
Qed.

(** ** the run on separated points, in one statement *)
Lemma hull_run srt vs : sorts lessXY (map fv vs) (srt (map fv vs)) -> separated vs -> (exists p q, In p vs /\ In q vs /\ p <> q) ->
  exists a t, ConvexHull srt (map fv vs) = Ok (map fv (a :: t)) /\ ~ In a t /\ In a vs /\ (forall q, In q vs -> leq a q) /\
    (forall e, In e (polygon_edges (a :: t)) -> hedge vs (fst e) (snd e)) /\
    forall v, In v (a :: t) <-> In v vs /\ on_boundary vs v.
Proof.
  intros Hsort Hsep (p & q & Hp & Hq & Hpq).
  destruct (sorts_fv _ _ Hsort) as (ss & Hss & Hperm & Hsorted).
  assert (Hsep' : separated ss).
  { intros a b Ha Hb. apply Hsep; (eapply Permutation_in; [apply Permutation_sym, Hperm|auto]). }
  destruct (farR_sorted ss Hsep' Hsorted) as [S1 S2]. set (l := farR None ss) in *.
  assert (Hin : forall x, In x l <-> In x vs).
  { intros x. rewrite S2. split; intros W; [apply (Permutation_in _ (Permutation_sym Hperm) W)|apply (Permutation_in _ Hperm W)]. }
  assert (Hlen : (2 <= length l)%nat).
  { apply Hin in Hp. apply Hin in Hq. destruct l as [|x [|y l']]; simpl in *; try lia; intuition congruence. }
  destruct (hullR_edges l S1 Hlen) as (a & t & Eh & Na & Min & Ia & Ed).
  exists a, t. split; [rewrite <- Eh; apply ConvexHull_fv; exact Hss|]. split; [auto|]. split; [apply Hin; auto|].
  split; [intros z Hz; apply Min, Hin; auto|]. split.
  - intros e He. destruct (Ed e He) as (A & B & C & D & F). unfold hedge.
    split; [apply Hin; auto|]. split; [apply Hin; auto|]. split; [auto|]. split; intros z Hz; [apply D|apply F]; apply Hin; auto.
  - assert (OB : forall v, on_boundary l v <-> on_boundary vs v).
    { intros v. split; intros (n & k & N & H); exists n, k; (split; [auto|]); intros z Hz; apply H, Hin; auto. }
    intros v. rewrite <- Eh. split.
    + intros Hv. assert (Hl : In v l). { rewrite Eh in Hv. destruct (pe_succ _ _ Hv) as (w & Hw). exact (proj1 (Ed _ Hw)). }
      split; [apply Hin; auto|]. apply OB, hullR_members; auto.
    + intros [Hv Hb]. apply hullR_members; auto; [apply Hin; auto|apply OB; auto].
Qed.

Lemma sep_dist vs : separated vs -> forall a b, In a vs -> In b vs -> samexy a b -> a = b.
Proof. intros S a b Ha Hb E. destruct (rv_eq_dec a b) as [|N]; auto. exfalso. destruct (S a b Ha Hb N) as [Q _]; auto. Qed.
Lemma line2 vs : not_on_line vs -> exists p q, In p vs /\ In q vs /\ p <> q.
Proof. intros (a & b & c & Ha & Hb & Hc & N). exists a, b. repeat split; auto. intros ->. apply N. unfold ccw. ring. Qed.

(** no vertex twice *)
Lemma walk_nodup Q a t : (forall x y, In x Q -> In y Q -> samexy x y -> x = y) -> not_on_line Q -> ~ In a t ->
  (forall e, In e (polygon_edges (a :: t)) -> hedge Q (fst e) (snd e)) -> NoDup (a :: t).
Proof.
  intros D NL Na H. constructor; auto. 
  assert (G : forall t1 t2, t = t1 ++ t2 -> NoDup t2).
  { intros t1 t2. revert t1. induction t2 as [|x t2 IH]; intros t1 E; constructor; [|apply (IH (t1 ++ [x])); rewrite <- app_assoc; auto].
    intros Hx. apply in_split in Hx. destruct Hx as (m1 & m2 & ->).
    assert (X : m1 ++ x :: m2 = m2).
    { assert (P : forall y z, In (y, z) (pairs (x :: (m1 ++ x :: m2) ++ [a])) -> hedge Q y z).
      { intros y z Hp. apply (H (y, z)). rewrite pe_pairs, E. rewrite <- app_assoc. cbn [app].
        change (a :: t1 ++ x :: (m1 ++ x :: m2) ++ [a]) with ((a :: t1) ++ x :: (m1 ++ x :: m2) ++ [a]). rewrite pairs_app. apply in_or_app. auto. }
      apply (walk_eq Q D NL a _ _ x); auto.
      - intros y z Hp. apply P. rewrite <- app_assoc. cbn [app].
        change (x :: m1 ++ x :: m2 ++ [a]) with ((x :: m1) ++ x :: m2 ++ [a]). rewrite pairs_app. apply in_or_app. auto.
      - intros X. apply Na. rewrite E. apply in_or_app. right. right. auto.
      - intros X. apply Na. rewrite E. apply in_or_app. right. right. apply in_or_app. right. right. auto. }
    apply (f_equal (@length _)) in X. rewrite app_length in X. simpl in X. lia. }
  apply (G [] t). reflexivity.
Qed.

Lemma edge_turn Q h u v w : (forall e, In e (polygon_edges h) -> hedge Q (fst e) (snd e)) -> In (u, v) (polygon_edges h) -> In (v, w) (polygon_edges h) -> 0 <= ccw u v w.
Proof. intros H E1 E2. destruct (H _ E1) as (_ & _ & _ & L & _). destruct (H _ E2) as (_ & Iw & _). apply L. exact Iw. Qed.

(** the points off the boundary do not matter *)
Lemma hull_between srt srt' vs ws h : sorts lessXY (map fv vs) (srt (map fv vs)) -> sorts lessXY (map fv ws) (srt' (map fv ws)) ->
  separated vs -> not_on_line vs -> ConvexHull srt (map fv vs) = Ok (map fv h) -> incl h ws -> incl ws vs ->
  ConvexHull srt' (map fv ws) = Ok (map fv h).
Proof.
  intros So So' Sep NL E I1 I2. destruct (hull_run srt vs So Sep (line2 _ NL)) as (a & t & E1 & Na & Ia & Min & He & Mem).
  assert (h = a :: t) as ->.
  { assert (X : map fv h = map fv (a :: t)) by congruence. clear -X. revert X. generalize (a :: t). revert h.
    induction h as [|x h IH]; intros [|y m] X; try discriminate; auto. injection X as A B C D. f_equal; [apply rv_ext; auto|auto]. }
  assert (Sep' : separated ws) by (intros x y Hx Hy; apply Sep; auto).
  assert (He' : forall e, In e (polygon_edges (a :: t)) -> hedge ws (fst e) (snd e)).
  { intros [u v] Huv. destruct (pe_In _ _ _ Huv) as [Hu Hv]. destruct (He _ Huv) as (A & B & C & D & F). unfold hedge. cbn [fst snd] in *.
    split; [auto|]. split; [auto|]. split; [auto|]. split; intros z Hz; [apply D|apply F]; auto. }
  assert (NL' : not_on_line ws).
  { (* an edge and a point off it *)
    destruct (pe_head a t) as (b & Hb & _). destruct (He _ Hb) as (_ & _ & NS & Lf & _). cbn [fst snd] in *.
    destruct (pe_In _ _ _ Hb) as [_ Ib].
    (* if every vertex were on that edge's line, the walk along the line could not close up *)
    assert (X : exists c, In c (a :: t) /\ ccw a b c <> 0).
    { destruct (Exists_dec (fun c => ccw a b c <> 0) (a :: t)) as [Y|Y].
      - intros x. destruct (Req_EM_T (ccw a b x) 0); [right; auto|left; auto].
      - apply Exists_exists in Y. exact Y.
      - exfalso. assert (Z : forall x, In x (a :: t) -> ccw a b x = 0).
        { intros x Hx. destruct (Req_EM_T (ccw a b x) 0); auto. exfalso. apply Y. apply Exists_exists. exists x. auto. }
        (* the predecessor of a *)
        destruct (pe_pred (a :: t) a (or_introl eq_refl)) as (p & Hp). destruct (He _ Hp) as (Ip & _ & NSp & Lp & Bp). cbn [fst snd] in *.
        destruct (pe_In _ _ _ Hp) as [Hp' _].
        apply (not_all_zero vs NL a b NS). intros q Hq.
        assert (Lab : lexlt a b). { destruct (Min b (I2 b (I1 b Ib))) as [->|]; auto. exfalso. apply NS. split; auto. }
        assert (Lap : lexlt a p). { destruct (Min p Ip) as [->|]; auto. exfalso. apply NSp. split; auto. }
        apply (opposite (vsub b a) (vsub p a) (vsub q a)); [apply lexlt_pos; auto|apply lexlt_pos; auto| | |].
        + pose proof (Z p Hp') as K. unfold crossv, vsub, ccw in *. cbn [fst snd]. lra.
        + pose proof (Lf q Hq) as K. unfold crossv, vsub, ccw in *. cbn [fst snd]. lra.
        + pose proof (Lp q Hq) as K. unfold crossv, vsub, ccw in *. cbn [fst snd]. lra. }
    destruct X as (d & Hd & N). exists a, b, d. repeat split; auto. apply I1; left; auto. }
  destruct (hull_run srt' ws So' Sep' (line2 _ NL')) as (a' & t' & E1' & Na' & Ia' & Min' & He'' & _).
  assert (a' = a) as ->. { apply leq_antisym; [apply Min', I1; left; auto|apply Min, I2; auto]. }
  rewrite E1'. do 2 f_equal. f_equal. apply (walk_unique ws (sep_dist _ Sep') NL' a); auto.
Qed.
