(** Proofs about the number of geometric tests (property C176). *)
From Coq Require Import Reals Lra Lia ZArith List Bool.
From Verif Require Import Base Arith M_r3 M_tri2 M_triangulator M_cost Spec_cost.
Import ListNotations.
Open Scope res_scope.

(** * Forgetting the counter *)
Section Erase.
Context {A : Arith}.
Variable vs : list (vec A).
Ltac step1 := match goal with
  | |- context [rbind (rbind ?m _) _] => destruct m as [?| |]; cbn [rbind]; try reflexivity
  | |- context [rbind ?m _] => lazymatch m with context [legalizeN] => fail | context [walkForwardN] => fail | context [walkBackwardN] => fail | context [insertPointN] => fail | context [insertAllN] => fail | Ok _ => fail | _ => idtac end;
      destruct m as [?| |]; cbn [rbind]; try reflexivity
  end.
Ltac stepA s t := match goal with |- context [rbind (addTriangle ?a ?b ?c ?d ?e ?f ?g) _] => destruct (addTriangle a b c d e f g) as [(s, t)| |]; cbn [rbind]; try reflexivity end.
Ltac stepR s t := match goal with |- context [rbind (remove ?a ?b) _] => destruct (remove a b) as [(s, t)| |]; cbn [rbind]; try reflexivity end.
Lemma legalize_erase fuel : forall s a, legalize vs fuel s a = (let! (s, r, _) := legalizeN vs fuel s a in Ok (s, r)).
Proof.
  induction fuel as [|fuel IH]; intros s a; [reflexivity|]. cbn [legalize legalizeN].
  destruct (zget (halfedges s) a) as [b| |]; cbn [rbind]; try reflexivity. cbv zeta.
  destruct (b <? 0)%Z; [reflexivity|].
  do 8 (match goal with |- context [rbind (zget ?l ?i) _] => destruct (zget l i) as [?| |]; cbn [rbind]; try reflexivity end).
  destruct (inCircle _ _ _ _); [|reflexivity].
  do 3 step1. match goal with |- context [rbind (if ?c then ?x else ?y) _] => set (FX := if c then x else y) end. 
  destruct FX as [s1| |]; cbn [rbind]; try reflexivity.
  do 5 step1. rewrite IH. destruct (legalizeN vs fuel _ a) as [((s2, r2), c2)| |]; cbn [rbind]; try reflexivity.
  rewrite IH. destruct (legalizeN vs fuel s2 _) as [((s3, r3), c3)| |]; reflexivity.
Qed.
Lemma walkForward_erase fuel : forall s p i q, walkForward vs fuel s p i q = (let! (s, _) := walkForwardN vs fuel s p i q in Ok s).
Proof.
  induction fuel as [|fuel IH]; intros s p i q; [reflexivity|]. cbn [walkForward walkForwardN].
  do 2 step1. destruct (flt _ _ _); [|reflexivity]. do 4 step1. stepA s1 t.
  rewrite legalize_erase. destruct (legalizeN vs _ s1 _) as [((s2, r2), c2)| |]; cbn [rbind]; try reflexivity.
  step1. stepR s3 pr. cbv zeta. step1. rewrite IH. destruct (walkForwardN _ _ _ _ _ _) as [(s4, c4)| |]; reflexivity.
Qed.
Lemma walkBackward_erase fuel : forall s p i q, walkBackward vs fuel s p i q = (let! (s, _) := walkBackwardN vs fuel s p i q in Ok s).
Proof.
  induction fuel as [|fuel IH]; intros s p i q; [reflexivity|]. cbn [walkBackward walkBackwardN].
  do 2 step1. destruct (flt _ _ _); [|reflexivity]. do 2 step1. stepA s1 t.
  rewrite legalize_erase. destruct (legalizeN vs _ s1 _) as [((s2, r2), c2)| |]; cbn [rbind]; try reflexivity.
  do 2 step1. stepR s3 pr. cbv zeta. step1. rewrite IH. destruct (walkBackwardN _ _ _ _ _ _) as [(s4, c4)| |]; reflexivity.
Qed.
Lemma insertPoint_erase center s i p : insertPoint vs center s i p = (let! (s, _) := insertPointN vs center s i p in Ok s).
Proof.
  unfold insertPoint, insertPointN. cbv zeta. do 4 step1. destruct a2 as [e|]; [|reflexivity].
  do 3 step1. stepA s1 t. do 2 step1.
  rewrite legalize_erase. destruct (legalizeN vs _ _ _) as [((s2, r2), c2)| |]; cbn [rbind]; try reflexivity.
  do 2 step1. rewrite walkForward_erase. destruct (walkForwardN _ _ _ _ _ _) as [(s4, c4)| |]; cbn [rbind]; try reflexivity.
  destruct (_ =? _)%Z; cbn [rbind].
  - step1. rewrite walkBackward_erase. destruct (walkBackwardN _ _ _ _ _ _) as [(s5, c5)| |]; cbn [rbind]; try reflexivity.
    do 2 step1. destruct (hashEdge _ _ _ _); reflexivity.
  - do 2 step1. destruct (hashEdge _ _ _ _); reflexivity.
Qed.
Lemma insertAll_erase center i0 i1 i2 ids : forall pp s,
  insertAll vs center i0 i1 i2 ids pp s = (let! (s, _) := insertAllN vs center i0 i1 i2 ids pp s in Ok s).
Proof.
  induction ids as [|i ids IH]; intros pp s; [reflexivity|]. cbn [insertAll insertAllN]. step1.
  destruct (flt _ _ _); [apply IH|]. destruct (_ || _); [apply IH|]. rewrite insertPoint_erase.
  destruct (insertPointN _ _ _ _ _) as [(s1, c1)| |]; cbn [rbind]; try reflexivity. rewrite IH.
  destruct (insertAllN _ _ _ _ _ _ _ _) as [(s2, c2)| |]; reflexivity.
Qed.
End Erase.
Lemma triangulate_erase {A : Arith} srt (vs : list (vec A)) : triangulate srt vs = (let! (s, e, _) := triangulateN srt vs in Ok (s, e)).
Proof.
  destruct vs as [|v l]; [reflexivity|]. unfold triangulate, triangulateN. cbv zeta. set (vs := v :: l).
  destruct (bounds vs) as [(((x0, y0), x1), y1)| |]; cbn [rbind]; try reflexivity.
  destruct (zget vs (seed0 _ _)) as [v0| |]; cbn [rbind]; try reflexivity.
  destruct (zget vs (seed1 _ _ _)) as [v1| |]; cbn [rbind]; try reflexivity.
  destruct (seed2 _ _ _ _ _) as (i2, r). destruct (feq _ _ _); [reflexivity|].
  destruct (zget vs i2) as [v2| |]; cbn [rbind]; try reflexivity.
  match goal with |- context [if ?c then (?x, ?y) else (?z, ?t)] => destruct (if c then (x, y) else (z, t)) as (j1, j2) end.
  destruct (zget vs j1) as [w1| |]; cbn [rbind]; try reflexivity. destruct (zget vs j2) as [w2| |]; cbn [rbind]; try reflexivity.
  destruct (initTri _ _ _ _ _) as [s| |]; cbn [rbind]; try reflexivity. rewrite insertAll_erase.
  destruct (insertAllN _ _ _ _ _ _ _ _) as [(s2, c2)| |]; reflexivity.
Qed.
Lemma popWhile_erase {A : Arith} test (p : vec A) s : fst (popWhileN test p s) = popWhile test p s.
Proof.
  induction s as [|b s IH]; [reflexivity|]. cbn [popWhile popWhileN]. destruct s as [|a s]; [reflexivity|].
  destruct (test a b p); [|reflexivity]. rewrite <- IH. destruct (popWhileN test p (a :: s)); reflexivity.
Qed.
Lemma ConvexHull_erase {A : Arith} srt (vs : list (vec A)) : ConvexHull srt vs = (let! (h, _) := ConvexHullN srt vs in Ok h).
Proof.
  unfold ConvexHull, ConvexHullN. destruct (filterNear _) as [ds| |]; cbn [rbind]; try reflexivity.
  assert (H : forall (l U L : list (vec A)) c, fold_left hullStep l (U, L) = fst (fold_left hullStepN l (U, L, c))) .
  { induction l as [|p l IH]; intros U L c; [reflexivity|]. cbn [fold_left hullStep hullStepN].
    pose proof (popWhile_erase testU p U) as EU. pose proof (popWhile_erase testL p L) as EL.
    destruct (popWhileN testU p U) as (U', cu). destruct (popWhileN testL p L) as (L', cl). cbn [fst] in EU, EL. rewrite <- EU, <- EL. apply IH. }
  rewrite (H ds [] [] 0%nat). destruct (fold_left hullStepN ds _) as ((U, L), c). reflexivity.
Qed.
(** amortised cost of the two stacks *)
Lemma popWhile_cost {A : Arith} test (p : vec A) s r c : popWhileN test p s = (r, c) -> (c + length r <= length s + 1)%nat /\ (s <> [] -> r <> [] /\ (c + length r <= length s + 1)%nat).
Proof.
  revert r c. induction s as [|b s IH]; intros r c; cbn [popWhileN].
  - intros [= <- <-]. simpl. split; [lia|]. intros []; reflexivity.
  - destruct s as [|a s]; [intros [= <- <-]; simpl; split; [lia|]; intros _; split; [discriminate|lia]|].
    destruct (test a b p).
    + destruct (popWhileN test p (a :: s)) as (r', c') eqn:E. intros [= <- <-]. destruct (IH _ _ eq_refl) as (_ & H). destruct (H ltac:(discriminate)) as (H1 & H2).
      cbn [length] in *. split; [lia|]. intros _. split; [exact H1|lia].
    + intros [= <- <-]. cbn [length]. split; [lia|]. intros _. split; [discriminate|lia].
Qed.
Lemma ConvexHull_cost {A : Arith} srt (vs : list (vec A)) ds h c : filterNear (srt vs) = Ok ds -> ConvexHullN srt vs = Ok (h, c) ->
  (c <= 4 * length ds)%nat.
Proof.
  intros E. unfold ConvexHullN. rewrite E. cbn [rbind].
  assert (H : forall (l U L : list (vec A)) k U' L' k', fold_left hullStepN l (U, L, k) = (U', L', k') -> (k' + length U' + length L' <= k + length U + length L + 4 * length l)%nat).
  { induction l as [|p l IH]; intros U L k U' L' k'; cbn [fold_left]; [intros [= <- <- <-]; simpl; lia|]. cbn [hullStepN].
    destruct (popWhileN testU p U) as (U1, cu) eqn:EU. destruct (popWhileN testL p L) as (L1, cl) eqn:EL. intros Q. apply IH in Q.
    destruct (popWhile_cost _ _ _ _ _ EU) as (B1 & _). destruct (popWhile_cost _ _ _ _ _ EL) as (B2 & _). cbn [length] in *. lia. }
  destruct (fold_left hullStepN ds _) as ((U, L), k) eqn:F. specialize (H _ _ _ _ _ _ _ F). cbn [length] in H. intros [= _ <-]. lia.
Qed.

(** ** findSpan halves the interval *)
From Verif Require Import M_nurbs Spec_nurbs P_nurbs.
Section Span.
Local Open Scope R_scope.
Context {A : Arith}.
Variable U : list Z.
Variable u : A.
Variable ur : R.
Hypothesis Hlt : forall k, In k U -> flt A u (fofZ A k) = Rltb ur (IZR k).
Hypothesis Hle : forall k, In k U -> fle A (fofZ A k) u = Rleb (IZR k) ur.
Hypothesis Heq : forall k, In k U -> feq A u (fofZ A k) = Reqb ur (IZR k).
Lemma findSpanLoop_log : forall k low high, (high - low <= 2 ^ Z.of_nat k)%Z ->
  (0 <= low < high)%Z -> (high < Z.of_nat (length U))%Z -> knot U low <= ur -> ur < knot U high ->
  exists i, findSpanLoop (S k) u U low high (Z.quot (low + high) 2) = Ok i /\
    (low <= i < high)%Z /\ knot U i <= ur < knot U (i + 1).
Proof.
  induction k as [|k IH]; intros low high Hf Hlh Hlen H1 H2.
  - assert (E : high = (low + 1)%Z) by (change (2 ^ Z.of_nat 0)%Z with 1%Z in Hf; lia). subst high.
    rewrite Z.quot_div_nonneg by lia. assert (Em : ((low + (low + 1)) / 2 = low)%Z) by (symmetry; apply (Z.div_unique _ _ _ 1); lia).
    rewrite Em. cbn [findSpanLoop]. destruct (knot_get U low) as (a & Ea & Ia & Ka); [lia|]. rewrite Ea. cbn [rbind].
    rewrite (Hlt a Ia), Ka. destruct (Rltb_spec ur (knot U low)) as [B|B]; [lra|]. 
    destruct (knot_get U (low + 1)) as (b & Eb & Ib & Kb); [lia|]. rewrite Eb. cbn [rbind].
    rewrite (Hle b Ib), Kb. destruct (Rleb_spec (knot U (low + 1)) ur) as [C|C]; [lra|].
    exists low. split; [reflexivity|]. split; [lia|]. lra.
  - rewrite Z.quot_div_nonneg by lia.
    assert (Hm : (low <= (low + high) / 2 < high)%Z).
    { split; [apply Z.div_le_lower_bound; lia|apply Z.div_lt_upper_bound; lia]. }
    assert (Hh : ((low + high) / 2 - low <= 2 ^ Z.of_nat k /\ high - (low + high) / 2 <= 2 ^ Z.of_nat k)%Z).
    { rewrite Nat2Z.inj_succ, Z.pow_succ_r in Hf by lia. pose proof (Z.div_mod (low + high) 2). pose proof (Z.mod_pos_bound (low + high) 2). lia. }
    set (mid := ((low + high) / 2)%Z) in *. cbn [findSpanLoop].
    destruct (knot_get U mid) as (a & Ea & Ia & Ka); [lia|]. rewrite Ea. cbn [rbind].
    rewrite (Hlt a Ia), Ka. destruct (Rltb_spec ur (knot U mid)) as [B|B]; cbn [rbind].
    + assert (low < mid)%Z by (destruct (Z.eq_dec low mid) as [E|]; [rewrite E in H1; lra|lia]).
      destruct (IH low mid) as (i & Ei & Hi & Ki); try lia; try assumption.
      exists i. split; [exact Ei|]. split; [lia|exact Ki].
    + destruct (knot_get U (mid + 1)) as (b & Eb & Ib & Kb); [lia|]. rewrite Eb. cbn [rbind].
      rewrite (Hle b Ib), Kb. destruct (Rleb_spec (knot U (mid + 1)) ur) as [C|C].
      * destruct (IH mid high) as (i & Ei & Hi & Ki); try lia; try lra.
        exists i. split; [exact Ei|]. split; [lia|exact Ki].
      * exists mid. split; [reflexivity|]. split; [lia|]. lra.
Qed.
Lemma findSpan_log n p : (0 <= p <= n)%Z -> (n + 1 < Z.of_nat (length U))%Z ->
  knot U p <= ur <= knot U (n + 1) ->
  exists i, findSpan (S (Z.to_nat (Z.log2_up (n + 1 - p)))) n p u U = Ok i /\ (p <= i <= n)%Z /\
    (ur = knot U (n + 1) -> i = n) /\
    (ur <> knot U (n + 1) -> knot U i <= ur < knot U (i + 1)).
Proof.
  intros Hp Hn Hu. unfold findSpan.
  destruct (knot_get U (n + 1)) as (b & Eb & Ib & Kb); [lia|]. rewrite Eb. cbn [rbind].
  rewrite (Heq b Ib), Kb. destruct (Reqb_spec ur (knot U (n + 1))) as [E|E].
  - exists n. split; [reflexivity|]. split; [lia|]. split; [reflexivity|]. intros H; contradiction.
  - destruct (findSpanLoop_log (Z.to_nat (Z.log2_up (n + 1 - p))) p (n + 1)) as (i & Ei & Hi & Ki); try lia; try lra.
    { rewrite Z2Nat.id by apply Z.log2_up_nonneg. destruct (Z.eq_dec (n + 1 - p) 1) as [->|]; [reflexivity|]. apply Z.log2_up_spec. lia. }
    exists i. split; [exact Ei|]. split; [lia|]. split; [intros H; contradiction|auto].
Qed.
End Span.
Lemma zset_keeps {X} (l l' : list X) i v : zset l i v = Ok l' -> length l' = length l.
Proof.
  unfold zset. destruct (i <? 0)%Z; try discriminate. intros H.
  match type of H with (if ?c then _ else _) = _ => destruct c; try discriminate end. injection H as <-. apply list_upd_length.
Qed.
Lemma filterNear_length {A : Arith} (l ds : list (vec A)) : filterNear l = Ok ds -> (length ds <= length l)%nat.
Proof.
  unfold filterNear.
  assert (H : forall fuel i arr k r m, filterNear_loop (A := A) fuel i arr k = Ok (r, m) -> length r = length arr).
  { induction fuel as [|fuel IH]; intros i arr k r m; cbn [filterNear_loop]; [intros E; inversion E; reflexivity|].
    destruct (zget arr i) as [p| |]; cbn [rbind]; try discriminate.
    match goal with |- rbind ?x _ = _ -> _ => destruct x as [[|]| |]; cbn [rbind]; try discriminate end; [apply IH|].
    destruct (zset arr k p) as [arr'| |] eqn:E; cbn [rbind]; try discriminate. intros Q. apply IH in Q. apply zset_keeps in E. congruence. }
  destruct (filterNear_loop _ _ _ _) as [(r, m)| |] eqn:E; cbn [rbind fst snd]; try discriminate.
  intros Q. assert (ds = firstn (Z.to_nat m) r) as -> by congruence. apply H in E. rewrite firstn_length. lia.
Qed.

(** ** the counters are not too small *)
Lemma popWhile_exact {A : Arith} test (p : vec A) s r c : popWhileN test p s = (r, c) ->
  (c + length r = length s + (if 2 <=? length r then 1 else 0))%nat.
Proof.
  revert r c. induction s as [|b s IH]; intros r c; cbn [popWhileN]; [intros [= <- <-]; reflexivity|].
  destruct s as [|a s]; [intros [= <- <-]; reflexivity|]. destruct (test a b p).
  - destruct (popWhileN test p (a :: s)) as (r', c') eqn:E. intros [= <- <-]. specialize (IH _ _ eq_refl). cbn [length] in *. lia.
  - intros [= <- <-]. cbn [length Nat.leb]. lia.
Qed.
Lemma differ_refl l : differ l l = 0%nat.
Proof. unfold differ. induction l as [|x l IH]; [reflexivity|]. cbn [combine filter fst snd]. rewrite Z.eqb_refl. exact IH. Qed.
Lemma differ_trans : forall l m k, length l = length m -> length m = length k -> (differ l k <= differ l m + differ m k)%nat.
Proof.
  unfold differ. induction l as [|x l IH]; intros [|y m] [|z k] E1 E2; try discriminate; [simpl; lia|].
  injection E1 as E1. injection E2 as E2. specialize (IH m k E1 E2). cbn [combine filter fst snd].
  destruct (Z.eqb_spec x y), (Z.eqb_spec y z), (Z.eqb_spec x z); cbn [negb length]; try lia; congruence.
Qed.
Lemma differ_upd : forall l k v, (differ l (list_upd l k v) <= 1)%nat.
Proof.
  induction l as [|x l IH]; intros k v; [destruct k; simpl; auto|]. destruct k as [|k]; cbn [list_upd].
  - unfold differ. cbn [combine filter fst snd]. fold (differ l l). pose proof (differ_refl l) as H. unfold differ in H.
    destruct (x =? v)%Z; cbn [negb length]; lia.
  - unfold differ. cbn [combine filter fst snd]. rewrite Z.eqb_refl. cbn [negb]. apply IH.
Qed.
Lemma differ_zset l i v l' : zset l i v = Ok l' -> (differ l l' <= 1)%nat.
Proof.
  unfold zset. destruct (i <? 0)%Z; try discriminate. intros H.
  match type of H with (if ?c then _ else _) = _ => destruct c; try discriminate end. injection H as <-. apply differ_upd.
Qed.
Lemma link_tris s a b s' : link s a b = Ok s' -> triangles s' = triangles s.
Proof.
  unfold link. destruct (zset _ _ _); cbn [rbind]; try discriminate. destruct (0 <=? b)%Z.
  - destruct (zset _ _ _); cbn [rbind]; try discriminate. intros [= <-]. reflexivity.
  - intros [= <-]. reflexivity.
Qed.
Lemma updN_tris s k f s' : updN s k f = Ok s' -> triangles s' = triangles s.
Proof.
  unfold updN. destruct (zget _ _); cbn [rbind]; try discriminate. destruct (zset _ _ _); cbn [rbind]; try discriminate.
  intros [= <-]. reflexivity.
Qed.
Lemma fixHull_tris : forall fuel s h e bl a s', fixHull fuel s h e bl a = Ok s' -> triangles s' = triangles s.
Proof.
  induction fuel as [|fuel IH]; intros s h e bl a s'; cbn [fixHull]; [discriminate|].
  destruct (getN s e) as [nd| |]; cbn [rbind]; try discriminate. destruct (_ =? _)%Z; [apply updN_tris|].
  destruct (deref _) as [x| |]; cbn [rbind]; try discriminate. destruct (_ =? _)%Z; [intros [= <-]; reflexivity|apply IH].
Qed.
Lemma legalize_differ {A : Arith} (vs : list (vec A)) fuel : forall s a s' r c, legalizeN vs fuel s a = Ok (s', r, c) ->
  length (triangles s') = length (triangles s) /\ (differ (triangles s) (triangles s') <= 2 * c)%nat.
Proof.
  induction fuel as [|fuel IH]; intros s a s' r c; cbn [legalizeN]; [discriminate|].
  destruct (zget (halfedges s) a) as [b| |]; cbn [rbind]; try discriminate. cbv zeta.
  destruct (b <? 0)%Z; [intros [= <- _ <-]; rewrite differ_refl; auto|].
  intros E. repeat match type of E with rbind (zget ?l ?i) _ = _ => destruct (zget l i); cbn [rbind] in E; try discriminate end.
  destruct (inCircle _ _ _ _); [|injection E as <- _ <-; rewrite differ_refl; split; [reflexivity|lia]].
  destruct (zset (triangles s) a _) as [t1| |] eqn:Z1; cbn [rbind] in E; try discriminate.
  destruct (zset t1 b _) as [t2| |] eqn:Z2; cbn [rbind] in E; try discriminate.
  set (s1 := withTriangles t2 s) in *. destruct (zget (halfedges s1) _) as [hbl| |]; cbn [rbind] in E; try discriminate.
  match type of E with rbind ?m _ = _ => destruct m as [s2| |] eqn:E2; cbn [rbind] in E; try discriminate end.
  assert (T2 : triangles s2 = t2).
  { destruct (hbl =? -1)%Z; [|injection E2 as <-; reflexivity]. destruct (deref _) as [h| |]; cbn [rbind] in E2; try discriminate.
    apply fixHull_tris in E2. exact E2. }
  destruct (zget (halfedges s2) _); cbn [rbind] in E; try discriminate.
  match type of E with rbind ?m _ = _ => destruct m as [s3| |] eqn:E3; cbn [rbind] in E; try discriminate end. apply link_tris in E3.
  destruct (zget (halfedges s3) _); cbn [rbind] in E; try discriminate.
  match type of E with rbind ?m _ = _ => destruct m as [s4| |] eqn:E4; cbn [rbind] in E; try discriminate end. apply link_tris in E4.
  match type of E with rbind ?m _ = _ => destruct m as [s5| |] eqn:E5; cbn [rbind] in E; try discriminate end. apply link_tris in E5.
  destruct (legalizeN vs fuel s5 _) as [((s6, r6), c6)| |] eqn:E6; cbn [rbind] in E; try discriminate.
  destruct (legalizeN vs fuel s6 _) as [((s7, r7), c7)| |] eqn:E7; cbn [rbind] in E; try discriminate. injection E as <- _ <-.
  apply IH in E6. apply IH in E7. destruct E6 as (L6 & D6). destruct E7 as (L7 & D7).
  pose proof (zset_keeps _ _ _ _ Z1). pose proof (zset_keeps _ _ _ _ Z2). apply differ_zset in Z1. apply differ_zset in Z2.
  assert (T5 : triangles s5 = t2) by congruence. rewrite T5 in L6, D6. split; [congruence|].
  pose proof (differ_trans (triangles s) t1 t2 ltac:(congruence) ltac:(congruence)).
  pose proof (differ_trans (triangles s) t2 (triangles s6) ltac:(congruence) ltac:(congruence)).
  pose proof (differ_trans (triangles s) (triangles s6) (triangles s7) ltac:(congruence) ltac:(congruence)). lia.
Qed.

Lemma popWhile_shorter {A : Arith} test (p : vec A) s r c : popWhileN test p s = (r, c) -> (length r <= length s)%nat.
Proof.
  revert r c. induction s as [|b s IH]; intros r c; cbn [popWhileN]; [intros [= <- _]; simpl; lia|].
  destruct s as [|a s]; [intros [= <- _]; simpl; lia|]. destruct (test a b p); [|intros [= <- _]; simpl; lia].
  destruct (popWhileN test p (a :: s)) as (r', c') eqn:E. intros [= <- _]. specialize (IH _ _ eq_refl). cbn [length] in *. lia.
Qed.
Lemma popWhile_least {A : Arith} test (p : vec A) s r c : popWhileN test p s = (r, c) -> (2 <= length s)%nat -> (1 <= c)%nat /\ (1 <= length r)%nat.
Proof.
  intros E L. pose proof (popWhile_shorter _ _ _ _ _ E) as Sh. pose proof (popWhile_exact _ _ _ _ _ E) as X. destruct (popWhile_cost _ _ _ _ _ E) as (_ & H).
  destruct H as (H & _); [intros ->; simpl in L; lia|]. destruct r as [|x r]; [contradiction|]. cbn [length] in *.
  revert X. destruct (Nat.leb_spec 2 (S (length r))); intros; lia.
Qed.
Lemma ConvexHull_least {A : Arith} srt (vs : list (vec A)) ds h c : filterNear (srt vs) = Ok ds -> ConvexHullN srt vs = Ok (h, c) ->
  (2 * (length ds - 2) <= c)%nat.
Proof.
  intros E. unfold ConvexHullN. rewrite E. cbn [rbind].
  assert (H : forall (l U L : list (vec A)) k U' L' k', (2 <= length U)%nat -> (2 <= length L)%nat -> fold_left hullStepN l (U, L, k) = (U', L', k') -> (k + 2 * length l <= k')%nat).
  { induction l as [|p l IH]; intros U L k U' L' k' HU HL; cbn [fold_left]; [intros [= _ _ <-]; simpl; lia|]. cbn [hullStepN].
    destruct (popWhileN testU p U) as (U1, cu) eqn:EU. destruct (popWhileN testL p L) as (L1, cl) eqn:EL. intros Q.
    destruct (popWhile_least _ _ _ _ _ EU HU). destruct (popWhile_least _ _ _ _ _ EL HL). apply IH in Q; cbn [length] in *; lia. }
  destruct ds as [|a [|b ds]]; try (intros; simpl; lia).
  destruct (fold_left hullStepN (a :: b :: ds) _) as ((U, L), k) eqn:F. cbn [fold_left hullStepN popWhileN] in F. apply H in F; [|simpl; lia..].
  intros [= _ <-]. cbn [length] in *. lia.
Qed.
