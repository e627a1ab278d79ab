(** Two runs of the triangulator whose predicates agree do the same: the run depends on the points only through
    the outcomes of comparisons. *)
From Coq Require Import ZArith List Bool Lia.
From Verif Require Import Base Arith GoLoop M_r3 M_tri2 M_triangulator.
Import ListNotations.
Local Open Scope res_scope.

Lemma zget_F2 {X Y} (P : X -> Y -> Prop) l l' i : Forall2 P l l' ->
  (exists a b, zget l i = Ok a /\ zget l' i = Ok b /\ P a b) \/ (zget l i = Panic /\ zget l' i = Panic).
Proof.
  intros H. unfold zget. destruct (i <? 0)%Z; [right; split; reflexivity|].
  generalize (Z.to_nat i). induction H as [|a b l l' Hab H IH]; intros [|k]; cbn [nth_error].
  - right. split; reflexivity.
  - right. split; reflexivity.
  - left. exists a, b. split; [reflexivity|]. split; [reflexivity|exact Hab].
  - apply IH.
Qed.
Lemma length_F2 {X Y} (P : X -> Y -> Prop) l l' : Forall2 P l l' -> length l = length l'.
Proof. induction 1; cbn [length]; congruence. Qed.
Lemma nth_F2 {X Y} (P : X -> Y -> Prop) l l' k d d' : Forall2 P l l' -> (k < length l)%nat -> P (nth k l d) (nth k l' d').
Proof.
  intros H. revert k. induction H as [|a b l l' Hab H IH]; intros k Hk; cbn [length] in Hk; [lia|]. destruct k; cbn [nth]; [exact Hab|apply IH; lia].
Qed.

Section Same.
Context {A B : Arith}.
Variable P : vec A -> vec B -> Prop.
Variables (vs : list (vec A)) (vs' : list (vec B)).
Hypothesis Hvs : Forall2 P vs vs'.
Hypothesis HinC : forall a a' b b' c c' d d', P a a' -> P b b' -> P c c' -> P d d' -> inCircle a b c d = inCircle a' b' c' d'.
Hypothesis Hlt : forall a a' b b' c c', P a a' -> P b b' -> P c c' ->
  flt A (area a b c) (fofZ A 0) = flt B (area a' b' c') (fofZ B 0).
Hypothesis Hle : forall a a' b b' c c', P a a' -> P b b' -> P c c' ->
  fle A (fofZ A 0) (area a b c) = fle B (fofZ B 0) (area a' b' c').

Ltac one := match goal with
  | |- @rbind (vec A) _ (zget vs ?i) _ = _ =>
      let a := fresh "v" in let b := fresh "v'" in let H := fresh "Hv" in let E := fresh "E" in let E' := fresh "E'" in
      destruct (zget_F2 P vs vs' i Hvs) as [(a & b & E & E' & H)|(E & E')]; rewrite E, E'; cbn [rbind]; [|reflexivity]
  | |- rbind ?m _ = rbind ?m _ => destruct m as [?| |]; cbn [rbind]; [|reflexivity|reflexivity]
  | |- (let '(_, _) := ?p in _) = _ => destruct p as [? ?]
  end.

Lemma legalize_same fuel : forall s a, legalize vs fuel s a = legalize vs' fuel s a.
Proof.
  induction fuel as [|fuel IH]; intros s a; [reflexivity|]. cbn [legalize]. one.
  match goal with |- (if ?b then _ else _) = _ => destruct b; [reflexivity|] end.
  do 8 one. erewrite HinC by eassumption.
  match goal with |- (if ?b then _ else _) = _ => destruct b; [|reflexivity] end.
  repeat (rewrite <- ?IH; one). apply IH.
Qed.
Lemma findVisible_same p p' fuel : P p p' -> forall s start e, findVisible vs fuel s p start e = findVisible vs' fuel s p' start e.
Proof.
  intros Hp. induction fuel as [|fuel IH]; intros s start e; [reflexivity|]. cbn [findVisible]. one. unfold areaN.
  destruct (getN s e) as [na| |]; cbn [rbind]; try reflexivity.
  destruct (zget_F2 P vs vs' (nI na) Hvs) as [(a1 & b1 & E1 & E1' & H1)|(E1 & E1')]; rewrite E1, E1'; cbn [rbind]; [|reflexivity].
  match goal with |- context [getN s ?z] => destruct (getN s z) as [nb| |]; cbn [rbind]; try reflexivity end.
  destruct (zget_F2 P vs vs' (nI nb) Hvs) as [(a2 & b2 & E2 & E2' & H2)|(E2 & E2')]; rewrite E2, E2'; cbn [rbind]; [|reflexivity].
  erewrite Hle by eassumption. match goal with |- (if ?b then _ else _) = _ => destruct b; [|reflexivity] end. rewrite IH. reflexivity.
Qed.
Lemma walkForward_same p p' fuel : P p p' -> forall s i q, walkForward vs fuel s p i q = walkForward vs' fuel s p' i q.
Proof.
  intros Hp. induction fuel as [|fuel IH]; intros s i q; [reflexivity|]. cbn [walkForward]. one. unfold areaN.
  destruct (getN s q) as [na| |]; cbn [rbind]; try reflexivity.
  destruct (zget_F2 P vs vs' (nI na) Hvs) as [(a1 & b1 & E1 & E1' & H1)|(E1 & E1')]; rewrite E1, E1'; cbn [rbind]; [|reflexivity].
  match goal with |- context [getN s ?z] => destruct (getN s z) as [nb| |]; cbn [rbind]; try reflexivity end.
  destruct (zget_F2 P vs vs' (nI nb) Hvs) as [(a2 & b2 & E2 & E2' & H2)|(E2 & E2')]; rewrite E2, E2'; cbn [rbind]; [|reflexivity].
  erewrite Hlt by eassumption. match goal with |- (if ?b then _ else _) = _ => destruct b; [|reflexivity] end.
  repeat (rewrite <- ?legalize_same; one). apply IH.
Qed.
Lemma walkBackward_same p p' fuel : P p p' -> forall s i q, walkBackward vs fuel s p i q = walkBackward vs' fuel s p' i q.
Proof.
  intros Hp. induction fuel as [|fuel IH]; intros s i q; [reflexivity|]. cbn [walkBackward]. one. unfold areaN.
  match goal with |- context [getN s ?z] => destruct (getN s z) as [na| |]; cbn [rbind]; try reflexivity end.
  destruct (zget_F2 P vs vs' (nI na) Hvs) as [(a1 & b1 & E1 & E1' & H1)|(E1 & E1')]; rewrite E1, E1'; cbn [rbind]; [|reflexivity].
  match goal with |- context [getN s ?z] => destruct (getN s z) as [nb| |]; cbn [rbind]; try reflexivity end.
  destruct (zget_F2 P vs vs' (nI nb) Hvs) as [(a2 & b2 & E2 & E2' & H2)|(E2 & E2')]; rewrite E2, E2'; cbn [rbind]; [|reflexivity].
  erewrite Hlt by eassumption. match goal with |- (if ?b then _ else _) = _ => destruct b; [|reflexivity] end.
  repeat (rewrite <- ?legalize_same; one). apply IH.
Qed.

Section Center.
Variables (c : vec A) (c' : vec B).
Hypothesis Hkey : forall n p p', P p p' -> hashKey c n p = hashKey c' n p'.
Lemma hashEdge_same s e : hashEdge vs c s e = hashEdge vs' c' s e.
Proof. unfold hashEdge. do 2 one. erewrite Hkey by eassumption. reflexivity. Qed.
Lemma insertPoint_same s i p p' : P p p' -> insertPoint vs c s i p = insertPoint vs' c' s i p'.
Proof.
  intros Hp. unfold insertPoint. rewrite (Hkey _ p p' Hp). do 3 one. rewrite (findVisible_same p p' _ Hp). one.
  match goal with |- match ?o with _ => _ end = _ => destruct o as [e|]; [|reflexivity] end. do 3 one. one. one. one. one.
  rewrite <- legalize_same. do 4 one. rewrite <- (walkForward_same p p' _ Hp). one.
  match goal with |- (let! s := (if ?b then ?x else _) in _) = (let! s' := (if _ then ?y else _) in _) => assert (X : x = y) end.
  { one. apply walkBackward_same. exact Hp. }
  rewrite <- X. one. rewrite <- hashEdge_same. do 2 one. apply hashEdge_same.
Qed.

Hypothesis Hnear : forall p p' q q', P p p' -> P q q' -> flt A (SquaredDistance p q) eps = flt B (SquaredDistance p' q') eps.
Hypothesis Hnear0 : forall p p', P p p' ->
  flt A (SquaredDistance p (mkvec infinity infinity (fofZ A 0))) eps = flt B (SquaredDistance p' (mkvec infinity infinity (fofZ B 0))) eps.
Lemma insertAll_same i0 i1 i2 ids : forall pp pp' s,
  (forall p p', P p p' -> flt A (SquaredDistance p pp) eps = flt B (SquaredDistance p' pp') eps) ->
  insertAll vs c i0 i1 i2 ids pp s = insertAll vs' c' i0 i1 i2 ids pp' s.
Proof.
  induction ids as [|i ids IH]; intros pp pp' s Hpp; [reflexivity|]. cbn [insertAll]. one. rewrite (Hpp _ _ Hv).
  match goal with |- (if ?b then _ else _) = _ => destruct b; [apply IH; exact Hpp|] end.
  assert (N : forall p p', P p p' -> flt A (SquaredDistance p v) eps = flt B (SquaredDistance p' v') eps) by (intros; apply Hnear; assumption).
  match goal with |- (if ?b then _ else _) = _ => destruct b; [apply IH; exact N|] end.
  rewrite (insertPoint_same s i v v' Hv). one. apply IH. exact N.
Qed.
Hypothesis Hsize : forall n, ftoZ A (fceil A (fsqrt A (fofZ A n))) = ftoZ B (fceil B (fsqrt B (fofZ B n))).
Lemma initTri_same i0 i1 i2 : initTri vs c i0 i1 i2 = initTri vs' c' i0 i1 i2.
Proof.
  assert (L : length vs = length vs') by (eapply length_F2; exact Hvs).
  unfold initTri. rewrite Hsize, L. repeat (rewrite <- ?hashEdge_same; one). reflexivity.
Qed.
Variable Q : A -> B -> Prop.
Hypothesis Hd : forall p p', P p p' -> Q (SquaredDistance p c) (SquaredDistance p' c').
Hypothesis Qlt : forall d d' e e', Q d d' -> Q e e' -> flt A d e = flt B d' e'.
Hypothesis Qeq : forall d d' e e', Q d d' -> Q e e' -> feq A d e = feq B d' e'.
Hypothesis Xlt : forall p p' q q', P p p' -> P q q' -> flt A (vx p) (vx q) = flt B (vx p') (vx q').
Hypothesis Xeq : forall p p' q q', P p p' -> P q q' -> feq A (vx p) (vx q) = feq B (vx p') (vx q').
Hypothesis Ylt : forall p p' q q', P p p' -> P q q' -> flt A (vy p) (vy q) = flt B (vy p') (vy q').
Lemma lessId_same a b : (Z.to_nat a < length vs)%nat -> (Z.to_nat b < length vs)%nat ->
  lessId vs (map (fun p => SquaredDistance p c) vs) a b = lessId vs' (map (fun p => SquaredDistance p c') vs') a b.
Proof.
  intros Ha Hb.
  assert (HQ : Forall2 Q (map (fun p => SquaredDistance p c) vs) (map (fun p => SquaredDistance p c') vs')).
  { clear - Hd Hvs. induction Hvs as [|x y l l' Hxy H IH]; cbn [map]; [constructor|]. constructor; [apply Hd; exact Hxy|exact (IH H)]. }
  unfold lessId. set (z := mkvec (fofZ A 0) (fofZ A 0) (fofZ A 0)). set (z' := mkvec (fofZ B 0) (fofZ B 0) (fofZ B 0)).
  pose proof (nth_F2 P vs vs' (Z.to_nat a) z z' Hvs Ha) as A1. pose proof (nth_F2 P vs vs' (Z.to_nat b) z z' Hvs Hb) as B1.
  pose proof (nth_F2 Q _ _ (Z.to_nat a) (fofZ A 0) (fofZ B 0) HQ ltac:(rewrite map_length; exact Ha)) as A2.
  pose proof (nth_F2 Q _ _ (Z.to_nat b) (fofZ A 0) (fofZ B 0) HQ ltac:(rewrite map_length; exact Hb)) as B2.
  rewrite (Qeq _ _ _ _ A2 B2), (Qlt _ _ _ _ A2 B2), (Xeq _ _ _ _ A1 B1), (Xlt _ _ _ _ A1 B1), (Ylt _ _ _ _ A1 B1). reflexivity.
Qed.
End Center.

Lemma argmin_same (Q : A -> B -> Prop) skip f f' ok ok' :
  (forall p p', P p p' -> Q (f p) (f' p')) -> (forall d d', Q d d' -> ok d = ok' d') ->
  (forall d d' e e', Q d d' -> Q e e' -> flt A d e = flt B d' e') ->
  forall l l', Forall2 P l l' -> forall i best m m', Q m m' ->
  fst (argmin skip f ok i l best m) = fst (argmin skip f' ok' i l' best m') /\
  Q (snd (argmin skip f ok i l best m)) (snd (argmin skip f' ok' i l' best m')).
Proof.
  intros Hf Hok Hq l l' H. induction H as [|p p' l l' Hp H IH]; intros i best m m' Hm; cbn [argmin]; [split; [reflexivity|exact Hm]|].
  destruct (skip i); [apply IH; exact Hm|]. rewrite (Hok _ _ (Hf p p' Hp)), (Hq _ _ _ _ (Hf p p' Hp) Hm).
  match goal with |- context [if ?b then _ else _] => destruct b end; apply IH; [apply Hf; exact Hp|exact Hm].
Qed.
Lemma hullLoop_same h fuel : forall s e acc acc', Forall2 P acc acc' ->
  match hullLoop vs fuel s h e acc, hullLoop vs' fuel s h e acc' with
  | Ok l, Ok l' => Forall2 P l l' | Panic, Panic => True | Diverge, Diverge => True | _, _ => False end.
Proof.
  induction fuel as [|fuel IH]; intros s e acc acc' Ha; cbn [hullLoop]; [exact I|].
  destruct (getN s e) as [n| |]; cbn [rbind]; try exact I.
  destruct (zget_F2 P vs vs' (nI n) Hvs) as [(a1 & b1 & E1 & E1' & H1)|(E1 & E1')]; rewrite E1, E1'; cbn [rbind]; [|exact I].
  assert (F : Forall2 P (acc ++ [a1]) (acc' ++ [b1])) by (apply Forall2_app; [exact Ha|constructor; [exact H1|constructor]]).
  destruct (nPrev n) as [e'|]; [|exact F]. destruct (e' =? h)%Z; [exact F|]. apply IH. exact F.
Qed.
Lemma convexHull_same s :
  match convexHull vs s, convexHull vs' s with
  | Ok l, Ok l' => Forall2 P l l' | Panic, Panic => True | Diverge, Diverge => True | _, _ => False end.
Proof. unfold convexHull. destruct (hull s); [|constructor]. apply hullLoop_same. constructor. Qed.
End Same.

Section Whole.
Context {A B : Arith}.
Variable P : vec A -> vec B -> Prop.
Variables (vs : list (vec A)) (vs' : list (vec B)).
Hypothesis Hvs : Forall2 P vs vs'.
Hypothesis HinC : forall a a' b b' c c' d d', P a a' -> P b b' -> P c c' -> P d d' -> inCircle a b c d = inCircle a' b' c' d'.
Hypothesis Hlt : forall a a' b b' c c', P a a' -> P b b' -> P c c' ->
  flt A (area a b c) (fofZ A 0) = flt B (area a' b' c') (fofZ B 0).
Hypothesis Hle : forall a a' b b' c c', P a a' -> P b b' -> P c c' ->
  fle A (fofZ A 0) (area a b c) = fle B (fofZ B 0) (area a' b' c').
Hypothesis Hnear : forall p p' q q', P p p' -> P q q' -> flt A (SquaredDistance p q) eps = flt B (SquaredDistance p' q') eps.
Hypothesis Hnear0 : forall p p', P p p' ->
  flt A (SquaredDistance p (mkvec infinity infinity (fofZ A 0))) eps = flt B (SquaredDistance p' (mkvec infinity infinity (fofZ B 0))) eps.
Hypothesis Hsize : forall n, ftoZ A (fceil A (fsqrt A (fofZ A n))) = ftoZ B (fceil B (fsqrt B (fofZ B n))).
Hypothesis Xlt : forall p p' q q', P p p' -> P q q' -> flt A (vx p) (vx q) = flt B (vx p') (vx q').
Hypothesis Xeq : forall p p' q q', P p p' -> P q q' -> feq A (vx p) (vx q) = feq B (vx p') (vx q').
Hypothesis Ylt : forall p p' q q', P p p' -> P q q' -> flt A (vy p) (vy q) = flt B (vy p') (vy q').
Variable Q : A -> B -> Prop.
Hypothesis Qlt : forall d d' e e', Q d d' -> Q e e' -> flt A d e = flt B d' e'.
Hypothesis Qeq : forall d d' e e', Q d d' -> Q e e' -> feq A d e = feq B d' e'.
Hypothesis Qinf : Q infinity infinity.
Hypothesis Qpos : forall d d', Q d d' -> flt A (fofZ A 0) d = flt B (fofZ B 0) d'.
Hypothesis Hsq : forall p p' q q', P p p' -> P q q' -> Q (SquaredDistance p q) (SquaredDistance p' q').
Hypothesis Hrad : forall a a' b b' c c', P a a' -> P b b' -> P c c' -> Q (circumradius a b c) (circumradius a' b' c').
Definition mid2 {A : Arith} (b : A * A * A * A) : vec A :=
  let '(x0, y0, x1, y1) := b in mkvec (fdiv A (fadd A x0 x1) (fofZ A 2)) (fdiv A (fadd A y0 y1) (fofZ A 2)) (fofZ A 0).
Hypothesis Hb : (exists b b', bounds vs = Ok b /\ bounds vs' = Ok b' /\ forall p p', P p p' -> Q (SquaredDistance p (mid2 b)) (SquaredDistance p' (mid2 b'))) \/
  (bounds vs = Panic /\ bounds vs' = Panic).
Definition center_ok (c : vec A) (c' : vec B) : Prop :=
  (forall n p p', P p p' -> hashKey c n p = hashKey c' n p') /\ (forall p p', P p p' -> Q (SquaredDistance p c) (SquaredDistance p' c')).
Hypothesis Hcc : forall a a' b b' c c', P a a' -> P b b' -> P c c' ->
  feq A (circumradius a b c) infinity = false ->
  center_ok (circumcenter a b c) (circumcenter a' b' c') /\ center_ok (circumcenter a c b) (circumcenter a' c' b').
Hypothesis Hii : feq A infinity infinity = true.

Lemma seed2_radius v0 v1 i0 i1 i2 r : seed2 vs i0 i1 v0 v1 = (i2, r) -> r = infinity \/ exists w, zget vs i2 = Ok w /\ r = circumradius v0 v1 w.
Proof.
  unfold seed2.
  assert (G : forall l pre best m0, vs = pre ++ l ->
     (m0 = infinity \/ exists w, zget vs best = Ok w /\ m0 = circumradius v0 v1 w) ->
     argmin (fun i => (i =? i0)%Z || (i =? i1)%Z) (fun p => circumradius v0 v1 p) (fun _ => true) (Z.of_nat (length pre)) l best m0 = (i2, r) ->
     r = infinity \/ exists w, zget vs i2 = Ok w /\ r = circumradius v0 v1 w).
  { induction l as [|w l IH]; intros pre best m0 Hp Hm H; cbn [argmin] in H.
    - assert (best = i2) by congruence. assert (m0 = r) by congruence. subst. exact Hm.
    - assert (Hz : zget vs (Z.of_nat (length pre)) = Ok w).
      { rewrite zget_nat, Hp, nth_error_app2, Nat.sub_diag by lia. reflexivity. }
      assert (Hn : vs = (pre ++ [w]) ++ l) by (rewrite <- app_assoc; exact Hp).
      replace (Z.of_nat (length pre) + 1)%Z with (Z.of_nat (length (pre ++ [w]))) in H by (rewrite app_length; cbn [length]; lia).
      destruct ((Z.of_nat (length pre) =? i0)%Z || (Z.of_nat (length pre) =? i1)%Z); [apply (IH _ _ _ Hn Hm H)|].
      match type of H with (if ?c then _ else _) = _ => destruct c end; [|apply (IH _ _ _ Hn Hm H)].
      apply (IH _ _ _ Hn) in H; [exact H|]. right. exists w. split; [exact Hz|reflexivity]. }
  intros H. apply (G vs [] 0%Z infinity eq_refl (or_introl eq_refl) H).
Qed.
Theorem triangulate_same sort :
  (forall less less' l, (forall a b, In a l -> In b l -> less a b = less' a b) -> sort less l = sort less' l) ->
  triangulate sort vs = triangulate sort vs'.
Proof.
  intros Hsort. unfold triangulate. pose proof (length_F2 _ _ _ Hvs) as HL.
  case_eq vs; [intros Ev|intros w0 wl Ev]; (case_eq vs'; [intros Eu|intros u0 ul Eu]);
    [reflexivity|rewrite Ev, Eu in HL; discriminate HL|rewrite Ev, Eu in HL; discriminate HL|]. rewrite <- Ev, <- Eu. clear Ev Eu HL w0 wl u0 ul.
  destruct Hb as [(b & b' & -> & -> & Hm)|(-> & ->)]; cbn [rbind]; [|reflexivity].
  destruct b as [[[x0 y0] x1] y1]. destruct b' as [[[x0' y0'] x1'] y1']. cbn [mid2] in Hm.
  set (m := mkvec (fdiv A (fadd A x0 x1) (fofZ A 2)) (fdiv A (fadd A y0 y1) (fofZ A 2)) (fofZ A 0)) in *.
  set (m' := mkvec (fdiv B (fadd B x0' x1') (fofZ B 2)) (fdiv B (fadd B y0' y1') (fofZ B 2)) (fofZ B 0)) in *. clearbody m m'.
  assert (E0 : seed0 vs m = seed0 vs' m') by (unfold seed0; apply (argmin_same P Q); auto).
  rewrite <- E0. set (i0 := seed0 vs m). clearbody i0. clear E0.
  destruct (zget_F2 P vs vs' i0 Hvs) as [(v0 & v0' & E & E' & P0)|(E & E')]; rewrite E, E'; cbn [rbind]; [|reflexivity].
  assert (E1 : seed1 vs i0 v0 = seed1 vs' i0 v0') by (unfold seed1; apply (argmin_same P Q); auto).
  rewrite <- E1. set (i1 := seed1 vs i0 v0). clearbody i1. clear E1.
  destruct (zget_F2 P vs vs' i1 Hvs) as [(v1 & v1' & F1 & F1' & P1)|(F1 & F1')]; rewrite F1, F1'; cbn [rbind]; [|reflexivity].
  assert (E2 : fst (seed2 vs i0 i1 v0 v1) = fst (seed2 vs' i0 i1 v0' v1') /\ Q (snd (seed2 vs i0 i1 v0 v1)) (snd (seed2 vs' i0 i1 v0' v1')))
    by (unfold seed2; apply (argmin_same P Q); auto).
  pose proof (seed2_radius v0 v1 i0 i1) as Fr. 
  destruct (seed2 vs i0 i1 v0 v1) as [i2 r]. destruct (seed2 vs' i0 i1 v0' v1') as [i2' r']. cbn [fst snd] in E2.
  destruct E2 as (<- & Hr). rewrite <- (Qeq _ _ _ _ Hr Qinf). destruct (feq A r infinity) eqn:Er; [reflexivity|].
  destruct (zget_F2 P vs vs' i2 Hvs) as [(v2 & v2' & F2 & F2' & P2)|(F2 & F2')]; rewrite F2, F2'; cbn [rbind]; [|reflexivity].
  assert (Cs : center_ok (circumcenter v0 v1 v2) (circumcenter v0' v1' v2') /\ center_ok (circumcenter v0 v2 v1) (circumcenter v0' v2' v1')).
  { destruct (Fr i2 r eq_refl) as [Z|(w & Hw & Z)].
    - subst r. congruence.
    - rewrite F2 in Hw. assert (w = v2) by congruence. subst w r. apply Hcc; auto. }
  rewrite <- (Hlt _ _ _ _ _ _ P0 P1 P2).
  assert (Fin2 : forall j1 j2 u1 u2 u1' u2', zget vs j1 = Ok u1 -> zget vs' j1 = Ok u1' -> zget vs j2 = Ok u2 -> zget vs' j2 = Ok u2' ->
    center_ok (circumcenter v0 u1 u2) (circumcenter v0' u1' u2') ->
    (let! v1 := zget vs j1 in let! v2 := zget vs j2 in
     let center := circumcenter v0 v1 v2 in
     let sq := map (fun p => SquaredDistance p center) vs in
     let ids := sort (lessId vs sq) (allIds (length vs)) in
     let! s := initTri vs center i0 j1 j2 in
     let! s := insertAll vs center i0 j1 j2 ids (mkvec infinity infinity (fofZ A 0)) s in
     let L := Z.to_nat (trianglesLen s) in
     Ok (withHalfedges (firstn L (halfedges s)) (withTriangles (firstn L (triangles s)) s), false))%res =
    (let! v1 := zget vs' j1 in let! v2 := zget vs' j2 in
     let center := circumcenter v0' v1 v2 in
     let sq := map (fun p => SquaredDistance p center) vs' in
     let ids := sort (lessId vs' sq) (allIds (length vs')) in
     let! s := initTri vs' center i0 j1 j2 in
     let! s := insertAll vs' center i0 j1 j2 ids (mkvec infinity infinity (fofZ B 0)) s in
     let L := Z.to_nat (trianglesLen s) in
     Ok (withHalfedges (firstn L (halfedges s)) (withTriangles (firstn L (triangles s)) s), false))%res).
  { intros j1 j2 u1 u2 u1' u2' G1 G1' G2 G2' (HK & HD). rewrite G1, G1', G2, G2'. cbn [rbind]. cbv zeta.
    set (c := circumcenter v0 u1 u2) in *. set (c' := circumcenter v0' u1' u2') in *. clearbody c c'.
    assert (HS : sort (lessId vs (map (fun p => SquaredDistance p c) vs)) (allIds (length vs)) =
                 sort (lessId vs' (map (fun p => SquaredDistance p c') vs')) (allIds (length vs'))).
    { rewrite <- (length_F2 _ _ _ Hvs). apply Hsort. intros a b Ia Ib.
      assert (Ri : forall z, In z (allIds (length vs)) -> (Z.to_nat z < length vs)%nat).
      { intros z Hz. apply in_map_iff in Hz. destruct Hz as (n & <- & Hn). apply in_seq in Hn. rewrite Nat2Z.id. lia. }
      apply (lessId_same P vs vs' Hvs c c' Q); auto. }
    rewrite <- HS. rewrite <- (initTri_same P vs vs' Hvs c c' HK Hsize).
    destruct (initTri vs c i0 j1 j2) as [s| |]; cbn [rbind]; try reflexivity.
    rewrite <- (insertAll_same P vs vs' Hvs HinC Hlt Hle c c' HK Hnear i0 j1 j2 _ (mkvec infinity infinity (fofZ A 0)) (mkvec infinity infinity (fofZ B 0)) s Hnear0).
    reflexivity. }
  destruct (flt A (area v0 v1 v2) (fofZ A 0)).
  - apply (Fin2 i2 i1 v2 v1 v2' v1' F2 F2' F1 F1'). apply Cs.
  - apply (Fin2 i1 i2 v1 v2 v1' v2' F1 F1' F2 F2'). apply Cs.
Qed.
End Whole.
