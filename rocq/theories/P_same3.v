(** Two runs of bowyerWatson, or of ConvexHull, whose tests agree do the same. *)
From Coq Require Import ZArith Lia List Bool.
From Verif Require Import Base Arith GoMap M_r3 M_tri2 M_predicates M_meshing P_same.
Import ListNotations.

Section Hull.
Context {A : Arith}.
Variable P : vec A -> vec A -> Prop.
Hypothesis HU : forall a a' b b' c c', P a a' -> P b b' -> P c c' -> testU a b c = testU a' b' c'.
Hypothesis HL : forall a a' b b' c c', P a a' -> P b b' -> P c c' -> testL a b c = testL a' b' c'.
Hypothesis HN : forall a a' b b', P a a' -> P b b' -> flt A (SquaredDistance a b) eps = flt A (SquaredDistance a' b') eps.
Lemma pop_same test p p' l l' : (forall a a' b b' c c', P a a' -> P b b' -> P c c' -> test a b c = test a' b' c') -> P p p' -> Forall2 P l l' ->
  Forall2 P (popWhile test p l) (popWhile test p' l').
Proof.
  intros Ht Hp. induction 1 as [|b b' l l' Hb H IH]; [constructor|]. cbn [popWhile]. inversion H; subst; [constructor; assumption|].
  rewrite <- (Ht x y b b' p p') by assumption. destruct (test x b p); [exact IH|]. constructor; assumption.
Qed.
Lemma steps_same l l' : Forall2 P l l' -> forall U U' L L', Forall2 P U U' -> Forall2 P L L' ->
  Forall2 P (fst (fold_left hullStep l (U, L))) (fst (fold_left hullStep l' (U', L'))) /\ Forall2 P (snd (fold_left hullStep l (U, L))) (snd (fold_left hullStep l' (U', L'))).
Proof.
  induction 1 as [|p p' l l' Hp H IH]; intros U U' L L' Hu Hl; [split; assumption|]. cbn [fold_left hullStep]. apply IH; constructor; auto; apply pop_same; auto.
Qed.
Lemma zset_same (l l' : list (vec A)) n v v' : Forall2 P l l' -> P v v' ->
  (exists m m', zset l n v = Ok m /\ zset l' n v' = Ok m' /\ Forall2 P m m') \/ (zset l n v = Panic /\ zset l' n v' = Panic).
Proof.
  intros H Hv. unfold zset. destruct (n <? 0)%Z; [right; split; reflexivity|]. rewrite <- (length_F2 _ _ _ H). destruct (Z.to_nat n <? length l)%nat; [|right; split; reflexivity].
  left. eexists. eexists. split; [reflexivity|]. split; [reflexivity|]. generalize (Z.to_nat n) as k. induction H as [|x y l l' Hx H IH]; intros k; [destruct k; constructor|]. destruct k; cbn; constructor; auto.
Qed.
Lemma near_same fuel : forall i arr arr' n, Forall2 P arr arr' ->
  (exists m m' k, filterNear_loop fuel i arr n = Ok (m, k) /\ filterNear_loop fuel i arr' n = Ok (m', k) /\ Forall2 P m m') \/
  (filterNear_loop fuel i arr n = Panic /\ filterNear_loop fuel i arr' n = Panic).
Proof.
  induction fuel as [|f IH]; intros i arr arr' n H; cbn [filterNear_loop]; [left; exists arr, arr', n; auto|].
  destruct (zget_F2 P arr arr' i H) as [(p & p' & -> & -> & Hp)|(-> & ->)]; cbn [rbind]; [|right; split; reflexivity].
  assert (G : forall b : bool, (exists m m' k, (if b then filterNear_loop f (i + 1) arr n else let! a := zset arr n p in filterNear_loop f (i + 1) a (n + 1)%Z)%res = Ok (m, k) /\
      (if b then filterNear_loop f (i + 1) arr' n else let! a := zset arr' n p' in filterNear_loop f (i + 1) a (n + 1)%Z)%res = Ok (m', k) /\ Forall2 P m m') \/
    ((if b then filterNear_loop f (i + 1) arr n else let! a := zset arr n p in filterNear_loop f (i + 1) a (n + 1)%Z)%res = Panic /\
     (if b then filterNear_loop f (i + 1) arr' n else let! a := zset arr' n p' in filterNear_loop f (i + 1) a (n + 1)%Z)%res = Panic)).
  { intros [|]; [apply IH; exact H|]. destruct (zset_same arr arr' n p p' H Hp) as [(m & m' & -> & -> & Hm)|(-> & ->)]; cbn [rbind]; [apply IH; exact Hm|right; split; reflexivity]. }
  destruct (0 <? i)%Z; cbn [rbind]; [|apply (G false)].
  destruct (zget_F2 P arr arr' (i - 1) H) as [(q & q' & -> & -> & Hq)|(-> & ->)]; cbn [rbind]; [|right; split; reflexivity].
  rewrite <- (HN p p' q q' Hp Hq). apply G.
Qed.
Lemma F2_firstn (l l' : list (vec A)) k : Forall2 P l l' -> Forall2 P (firstn k l) (firstn k l').
Proof. intros H. revert k. induction H; intros [|k]; cbn; constructor; auto. Qed.
Lemma F2_tl (l l' : list (vec A)) : Forall2 P l l' -> Forall2 P (tl l) (tl l'). Proof. intros []; [constructor|assumption]. Qed.
Lemma F2_rev (l l' : list (vec A)) : Forall2 P l l' -> Forall2 P (rev l) (rev l').
Proof. induction 1; cbn; [constructor|]. apply Forall2_app; [assumption|]. constructor; [assumption|constructor]. Qed.
Lemma F2_removelast (l l' : list (vec A)) : Forall2 P l l' -> Forall2 P (removelast l) (removelast l').
Proof. induction 1 as [|x y l l' Hx H IH]; [constructor|]. cbn [removelast]. inversion H; subst; [constructor|]. constructor; assumption. Qed.
Lemma ConvexHull_same srt srt' vs vs' : Forall2 P (srt vs) (srt' vs') ->
  match ConvexHull srt vs, ConvexHull srt' vs' with Ok h, Ok h' => Forall2 P h h' | Panic, Panic => True | _, _ => False end.
Proof.
  intros H. unfold ConvexHull, filterNear. rewrite <- (length_F2 _ _ _ H).
  destruct (near_same (length (srt vs)) 0 _ _ 0 H) as [(m & m' & k & -> & -> & Hm)|(-> & ->)]; cbn [rbind]; [|exact I]. cbn [fst snd].
  destruct (steps_same _ _ (F2_firstn _ _ (Z.to_nat k) Hm) [] [] [] [] (Forall2_nil _) (Forall2_nil _)) as (HUU & HLL).
  destruct (fold_left hullStep (firstn (Z.to_nat k) m) ([], [])) as (U, L), (fold_left hullStep (firstn (Z.to_nat k) m') ([], [])) as (U', L'). cbn [fst snd] in *.
  apply Forall2_app; [apply F2_rev, F2_tl, HLL|apply F2_removelast, HUU].
Qed.
End Hull.

Section Mesh.
Context {A : Arith}.
(** relations between coordinates, one for each axis; [C'] is the one for the points of the initial tetrahedron *)
Variable C C' : nat -> A -> A -> Prop.
Definition V (C : nat -> A -> A -> Prop) (v v' : vec A) : Prop := C 0%nat (vx v) (vx v') /\ C 1%nat (vy v) (vy v') /\ C 2%nat (vz v) (vz v').
Hypothesis Hweak : forall i x x', C i x x' -> C' i x x'.
Hypothesis Hlt : forall i x x' y y', C i x x' -> C i y y' -> flt A x y = flt A x' y'.
Hypothesis Hmin : forall i x x', C i x x' -> C i (updMin MaxFloat64 x) (updMin MaxFloat64 x').
Hypothesis Hmax : forall i x x', C i x x' -> C i (updMax negMaxFloat64 x) (updMax negMaxFloat64 x').
Hypothesis Htet : forall i lo lo' hi hi', C i lo lo' -> C i hi hi' ->
  C' i (fadd A lo (fmul A (fofZ A 3) (fsub A hi lo))) (fadd A lo' (fmul A (fofZ A 3) (fsub A hi' lo'))).
Hypothesis Hin : forall a a' b b' c c' d d' e e', V C' a a' -> V C' b b' -> V C' c c' -> V C' d d' -> V C e e' ->
  fle A (fofZ A 0) (InSphereFast a b c d e) = fle A (fofZ A 0) (InSphereFast a' b' c' d' e').

Lemma V_weak v v' : V C v v' -> V C' v v'. Proof. intros (X & Y & Z). repeat split; apply Hweak; assumption. Qed.
Definition H2 (h h' : helper A) : Prop := V C (hmin h) (hmin h') /\ V C (hmax h) (hmax h').
Lemma upd_same i m m' x x' : C i m m' -> C i x x' -> C i (updMin m x) (updMin m' x') /\ C i (updMax m x) (updMax m' x').
Proof.
  intros Hm Hx. unfold updMin, updMax. rewrite <- (Hlt i m m' x x' Hm Hx), <- (Hlt i x x' m m' Hx Hm). split; [destruct (flt A x m)|destruct (flt A m x)]; assumption.
Qed.
Lemma extrema_same l l' : Forall2 (V C) l l' -> forall h h', H2 h h' -> H2 (fold_left extremaStep l h) (fold_left extremaStep l' h').
Proof.
  induction 1 as [|p p' l l' (X & Y & Z) H IH]; intros h h' Hh; [exact Hh|]. cbn [fold_left]. apply IH. destruct Hh as ((A1 & A2 & A3) & (B1 & B2 & B3)). unfold extremaStep, H2, V. cbn [hmin hmax vx vy vz].
  split; (split; [|split]); apply upd_same; assumption.
Qed.
Lemma englobe_same l l' : l <> [] -> Forall2 (V C) l l' -> fst (englobe l) = fst (englobe l') /\ Forall2 (V C') (snd (englobe l)) (snd (englobe l')).
Proof.
  intros N H. assert (Hh : H2 (findExtremas l) (findExtremas l')).
  { destruct H as [|p p' l l' (X & Y & Z) H]; [congruence|]. unfold findExtremas. cbn [fold_left]. apply extrema_same; [exact H|].
    unfold extremaStep, H2, V. cbn [hmin hmax vx vy vz]. split; (split; [|split]); apply Hmin || apply Hmax; assumption. }
  destruct Hh as ((A1 & A2 & A3) & (B1 & B2 & B3)). unfold englobe, computerInitialTetraPoints. cbv zeta. cbn [fst snd]. split; [reflexivity|]. cbn [app].
  repeat apply Forall2_cons; try (split; [|split]; cbn [vx vy vz]; auto).
  clear - H Hweak. induction H; constructor; auto using V_weak.
Qed.
Lemma findBad_same l l' p p' t : Forall2 (V C') l l' -> V C p p' -> findBad l p t = findBad l' p' t.
Proof.
  intros F Hp. induction t as [|[k v] t IH]; [reflexivity|]. cbn [findBad].
  destruct (zget_F2 _ l l' (ia v) F) as [(a & a' & -> & -> & Ha)|[-> ->]]; cbn [rbind]; [|reflexivity].
  destruct (zget_F2 _ l l' (ib v) F) as [(b & b' & -> & -> & Hb)|[-> ->]]; cbn [rbind]; [|reflexivity].
  destruct (zget_F2 _ l l' (ic v) F) as [(c & c' & -> & -> & Hc)|[-> ->]]; cbn [rbind]; [|reflexivity].
  destruct (zget_F2 _ l l' (M_meshing.id v) F) as [(d & d' & -> & -> & Hd)|[-> ->]]; cbn [rbind]; [|reflexivity].
  rewrite IH. destruct (findBad l' p' t); cbn [rbind]; auto. rewrite (Hin a a' b b' c c' d d' p p' Ha Hb Hc Hd Hp). reflexivity.
Qed.
Lemma insertAll3_same ordT ordF all all' l l' : Forall2 (V C') all all' -> Forall2 (V C) l l' -> forall k t,
  insertAll ordT ordF all k l t = insertAll ordT ordF all' k l' t.
Proof.
  intros FA F. induction F as [|p p' l l' H F IH]; intros k t; [reflexivity|]. cbn [insertAll].
  unfold insertPoint. rewrite (findBad_same all all' p p' _ FA H). match goal with |- rbind ?a _ = _ => destruct a; cbn [rbind]; auto end.
Qed.
Theorem bowyerWatson_same ordT ordF ordE l l' : Forall2 (V C) l l' -> bowyerWatson ordT ordF ordE l = bowyerWatson ordT ordF ordE l'.
Proof.
  intros F. destruct l as [|p0 l0] eqn:El; [inversion F; reflexivity|]. rewrite <- El in *. assert (N : l <> []) by congruence.
  destruct (englobe_same l l' N F) as [E1 E2]. unfold bowyerWatson. destruct (englobe l) as [t all], (englobe l') as [t' all']. cbn [fst snd] in *. subst t'.
  rewrite (insertAll3_same ordT ordF all all' l l' E2 F). reflexivity.
Qed.
End Mesh.
