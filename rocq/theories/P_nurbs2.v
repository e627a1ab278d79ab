(** More about dersBasisFuns: the first-derivative row and the final scaling. *)
From Coq Require Import Reals Lra Lia ZArith Bool List.
From Verif Require Import Base Arith GoLoop M_r3 M_nurbs Spec_r3 Spec_nurbs XRvec P_nurbs.
Import ListNotations.
Open Scope R_scope.

(** p (p-1) ... (p-k+1) *)
Fixpoint falling (p : Z) (k : nat) : Z := match k with O => 1%Z | S k' => (falling p k' * (p - Z.of_nat k'))%Z end.

Section Scale.
Variable p : Z.
Hypothesis Hp : (0 <= p)%Z.
(** one round of the scaling loop *)
Lemma dersScale_exact k (ders : list (list XR)) r : (1 <= k <= p)%Z -> shaped p ders ->
  exists ders', dersScale p k (ders, r) = Ok (ders', (r * (p - k))%Z) /\ shaped p ders' /\
    (forall a b, (a <> k \/ b < 0 \/ p < b)%Z -> get2 ders' a b = get2 ders a b) /\
    (forall j x, (0 <= j <= p)%Z -> get2 ders k j = Ok x -> get2 ders' k j = Ok (fmul XR x (fofZ XR r))).
Proof.
  intros Hk Sd. unfold dersScale.
  match goal with |- context [forTo 0 p ders ?body] =>
    destruct (forTo_inv (fun j d => shaped p d /\
       (forall a b, (a <> k \/ b < 0 \/ j <= b)%Z -> get2 d a b = get2 ders a b) /\
       (forall q x, (0 <= q < j)%Z -> get2 ders k q = Ok x -> get2 d k q = Ok (fmul XR x (fofZ XR r)))) body 0 p ders)
      as (d2 & -> & Sd2 & F2 & V2) end.
  - lia.
  - split; [exact Sd|]. split; [auto|]. intros; lia.
  - intros j d Hj (Sd1 & F & V). destruct (get2_ok p d k j Sd1 ltac:(lia) ltac:(lia)) as (x & Ex). rewrite Ex. cbn [rbind].
    destruct (set2_ok p d k j (fmul XR x (fofZ XR r)) Sd1 ltac:(lia) ltac:(lia)) as (d2 & -> & Sd2 & G & O).
    eexists. split; [reflexivity|]. split; [exact Sd2|]. split.
    + intros a b Hab. rewrite O by lia. apply F. lia.
    + intros q y Hq Ey. destruct (Z.eq_dec q j) as [->|N].
      * rewrite G. rewrite F in Ex by lia. congruence.
      * rewrite O by lia. apply V; [lia|exact Ey].
  - cbn [rbind]. eexists. split; [reflexivity|]. split; [exact Sd2|]. split; [intros a b Hab; apply F2; lia|].
    intros j x Hj. apply V2. lia.
Qed.
Lemma scale_loop n (ders : list (list XR)) : (0 <= n <= p)%Z -> shaped p ders ->
  exists ders' r, forTo 1 n (ders, p) (dersScale p) = Ok (ders', r) /\ shaped p ders' /\
    (forall a b, (a < 1 \/ n < a)%Z -> get2 ders' a b = get2 ders a b) /\
    (forall k j x, (1 <= k <= n)%Z -> (0 <= j <= p)%Z -> get2 ders k j = Ok (Fin x : XR) ->
       get2 ders' k j = Ok (Fin (x * IZR (falling p (Z.to_nat k))) : XR)).
Proof.
  intros Hn Sd.
  destruct (forTo_inv (fun k (s : list (list XR) * Z) => shaped p (fst s) /\ (1 <= k -> snd s = falling p (Z.to_nat k))%Z /\
     (forall a b, (a < 1 \/ k <= a)%Z -> get2 (fst s) a b = get2 ders a b) /\
     (forall q j x, (1 <= q < k)%Z -> (0 <= j <= p)%Z -> get2 ders q j = Ok (Fin x : XR) ->
       get2 (fst s) q j = Ok (Fin (x * IZR (falling p (Z.to_nat q))) : XR)))
    (dersScale p) 1 n (ders, p)) as ([d r] & -> & Sd' & _ & F & V).
  - lia.
  - cbn [fst snd]. split; [exact Sd|]. split; [intros _; change (Z.to_nat 1) with 1%nat; cbn [falling]; lia|]. split; [auto|intros; lia].
  - intros k [d r] Hk (Sd1 & R1 & F & V). cbn [fst snd] in *. rewrite (R1 ltac:(lia)) in *.
    destruct (dersScale_exact k d (falling p (Z.to_nat k)) ltac:(lia) Sd1) as (d' & -> & Sd2 & F2 & V2).
    eexists. split; [reflexivity|]. cbn [fst snd]. split; [exact Sd2|]. split; [|split].
    + intros _. replace (Z.to_nat (k + 1)) with (S (Z.to_nat k)) by lia. cbn [falling]. rewrite Z2Nat.id by lia. reflexivity.
    + intros a b Hab. rewrite F2 by lia. apply F. lia.
    + intros q j x Hq Hj E. destruct (Z.eq_dec q k) as [->|N].
      * rewrite <- F in E by lia. rewrite (V2 j (Fin x) Hj E). reflexivity.
      * rewrite F2 by lia. apply V; auto. lia.
  - cbn [fst snd] in *. exists d, r. split; [reflexivity|]. split; [exact Sd'|]. split; [intros a b Hab; apply F; lia|].
    intros k j x Hk. apply V. lia.
Qed.
End Scale.

Section First.
Variable U : list Z.
Variable i u p : Z.
Hypothesis Hp : (0 <= p)%Z.
Hypothesis Hlo : (0 <= i + 1 - p)%Z.
Hypothesis Hi0 : (0 <= i)%Z.
Hypothesis Hhi : (i + 1 < Z.of_nat (length U))%Z.
Hypothesis Mono : nondecreasing U.
Hypothesis Hspan : (nth (Z.to_nat i) U 0 < nth (Z.to_nat (i + 1)) U 0)%Z.
Notation K j := (nth (Z.to_nat j) U 0%Z).
Definition upz (s : list (list XR)) : Prop := forall a b x, (0 <= a <= b)%Z -> get2 s a b = Ok x -> x = Fin 0.
(** rows up to j (column up to r in row j) of the lower triangle are filled with non-zero numbers *)
Definition low (s : list (list XR)) (j r : Z) : Prop :=
  forall a b, (0 <= b < a)%Z -> (a < j \/ (a = j /\ b < r))%Z -> exists d, get2 s a b = Ok (Fin d : XR) /\ d <> 0.
Lemma inner_low (lft rgt : list XR) j : (1 <= j <= p)%Z ->
  (forall k, (1 <= k <= j)%Z -> zget lft k = Ok (Fin (IZR (u - K (i + 1 - k))) : XR)) ->
  (forall k, (1 <= k <= j)%Z -> zget rgt k = Ok (Fin (IZR (K (i + 1) - u)) : XR)) ->
  forall ndu, shaped p ndu -> upz ndu -> low ndu j 0 ->
  exists ndu', forTo 0 (j - 1) (ndu, fofZ XR 0) (dersInner lft rgt j) = Ok (ndu', (Fin 0 : XR)) /\
    shaped p ndu' /\ upz ndu' /\ low ndu' j j.
Proof.
  intros Hj HL HR ndu Sh Up Lw.
  destruct (forTo_inv (fun r (s : list (list XR) * XR) => shaped p (fst s) /\ upz (fst s) /\ snd s = Fin 0 /\ low (fst s) j r)
     (dersInner lft rgt j) 0 (j - 1) (ndu, fofZ XR 0)) as ([ndu' sv] & E & S' & U' & Z' & L').
  - lia.
  - cbn [fst snd]. auto.
  - intros r [s0 sv] Hr (Sh0 & Up0 & Z0 & L0). cbn [fst snd] in *. subst sv. unfold dersInner.
    rewrite HR by lia. cbn [rbind]. rewrite HL by lia. cbn [rbind].
    set (dd := (K (i + 1) - u + (u - K (i + 1 - (j - r))))%Z).
    assert (HK : (0 < dd)%Z).
    { pose proof (Mono (i + 1 - (j - r))%Z i ltac:(lia) ltac:(lia)) as M. unfold knot in M. apply le_IZR in M. unfold dd. lia. }
    assert (Esum : fadd XR (Fin (IZR (K (i + 1) - u)) : XR) (Fin (IZR (u - K (i + 1 - (j - r))))) = (Fin (IZR dd) : XR)).
    { cbn [fadd XR xadd]. f_equal. unfold dd. rewrite <- plus_IZR. reflexivity. }
    rewrite Esum.
    destruct (set2_ok p s0 j r (Fin (IZR dd) : XR) Sh0 ltac:(lia) ltac:(lia)) as (s1 & E1 & Sh1 & G1 & O1).
    rewrite E1. cbn [rbind].
    destruct (get2_ok p s1 r (j - 1) Sh1 ltac:(lia) ltac:(lia)) as (x & Ex). rewrite Ex. cbn [rbind].
    rewrite G1. cbn [rbind].
    assert (Zx : x = Fin 0) by (rewrite O1 in Ex by lia; apply (Up0 r (j - 1)%Z x); [lia|exact Ex]). subst x.
    assert (Zt : fdiv XR (Fin 0 : XR) (Fin (IZR dd) : XR) = (Fin 0 : XR)).
    { cbn [fdiv XR xdiv]. destruct (Reqb_spec (IZR dd) 0) as [Q|Q]; [apply eq_IZR in Q; lia|]. f_equal. field. exact Q. }
    rewrite !Zt.
    assert (Zm : forall a, fmul XR (Fin a : XR) (Fin 0 : XR) = (Fin 0 : XR)) by (intros a; cbn [fmul XR xmul]; f_equal; ring).
    rewrite !Zm. assert (Za : fadd XR (Fin 0 : XR) (Fin 0 : XR) = (Fin 0 : XR)) by (cbn [fadd XR xadd]; f_equal; ring). rewrite Za.
    destruct (set2_ok p s1 r j (Fin 0 : XR) Sh1 ltac:(lia) ltac:(lia)) as (s2 & E2 & Sh2 & G2 & O2).
    rewrite E2. cbn [rbind]. eexists. split; [reflexivity|]. cbn [fst snd]. split; [exact Sh2|]. split; [|split; [reflexivity|]].
    + intros a b y Hab Ey. destruct (Z.eq_dec a r) as [->|Na].
      * destruct (Z.eq_dec b j) as [->|Nb].
        -- rewrite G2 in Ey. injection Ey as <-. reflexivity.
        -- rewrite O2 in Ey by lia. rewrite O1 in Ey by lia. apply (Up0 r b); assumption.
      * rewrite O2 in Ey by lia. rewrite O1 in Ey by lia. apply (Up0 a b); assumption.
    + intros a b Hab HH. rewrite O2 by lia. destruct (Z.eq_dec a j) as [->|Na]; [destruct (Z.eq_dec b r) as [->|Nb]|].
      * exists (IZR dd). split; [exact G1|]. intros Q. apply eq_IZR in Q. lia.
      * rewrite O1 by lia. apply L0; lia.
      * rewrite O1 by lia. apply L0; lia.
  - cbn [fst snd] in *. subst sv. exists ndu'. split; [exact E|]. split; [exact S'|]. split; [exact U'|].
    replace (j - 1 + 1)%Z with j in L' by lia. exact L'.
Qed.
Lemma first_low : exists ndu lft rgt,
  forTo 1 p (repeat (repeat (fofZ XR 0) (Z.to_nat (p + 1))) (Z.to_nat (p + 1)),
             repeat (fofZ XR 0) (Z.to_nat (p + 1)), repeat (fofZ XR 0) (Z.to_nat (p + 1))) (dersOuter i u U)
  = Ok (ndu, lft, rgt) /\ shaped p ndu /\ upz ndu /\ low ndu (p + 1) 0.
Proof.
  destruct (forTo_inv (fun j (s : list (list XR) * list XR * list XR) => let '(ndu, lft, rgt) := s in
      shaped p ndu /\ upz ndu /\ low ndu j 0 /\ Z.of_nat (length lft) = (p + 1)%Z /\ Z.of_nat (length rgt) = (p + 1)%Z /\
      (forall k, (1 <= k < j)%Z -> zget lft k = Ok (Fin (IZR (u - K (i + 1 - k))) : XR)) /\
      (forall k, (1 <= k < j)%Z -> zget rgt k = Ok (Fin (IZR (K (i + 1) - u)) : XR)))
    (dersOuter i u U) 1 p (repeat (repeat (fofZ XR 0) (Z.to_nat (p + 1))) (Z.to_nat (p + 1)),
             repeat (fofZ XR 0) (Z.to_nat (p + 1)), repeat (fofZ XR 0) (Z.to_nat (p + 1))))
    as ([[ndu lft] rgt] & E & S' & U' & L' & _).
  - lia.
  - rewrite repeat_length. split; [now apply shaped_repeat|]. split; [|split; [intros a b ? ?; lia|split; [lia|split; [lia|split; intros; lia]]]].
    intros a b x Hab E. unfold get2 in E. destruct (zget _ a) as [row| |] eqn:Er; cbn [rbind] in E; try discriminate.
    pose proof (zget_lt _ _ _ Er) as L. rewrite repeat_length in L. rewrite zget_repeat in Er by lia.
    injection Er as <-. pose proof (zget_lt _ _ _ E) as L'. rewrite repeat_length in L'.
    rewrite zget_repeat in E by lia. injection E as <-. reflexivity.
  - intros j [[ndu lft] rgt] Hj (Sh & Up & Lw & LL & LR & HL & HR). unfold dersOuter.
    rewrite (zget_nth U _ 0%Z) by lia. cbn [rbind]. rewrite zset_in_range by lia. cbn [rbind].
    rewrite (zget_nth U _ 0%Z) by lia. cbn [rbind]. rewrite zset_in_range by lia. cbn [rbind].
    set (l1 := list_upd lft _ _). set (r1 := list_upd rgt _ _).
    assert (HL1 : forall k, (1 <= k < j + 1)%Z -> zget l1 k = Ok (Fin (IZR (u - K (i + 1 - k))) : XR)).
    { intros k Hk. unfold l1. rewrite zget_upd by lia. destruct (Z.eq_dec j k) as [<-|]; [reflexivity|apply HL; lia]. }
    assert (HR1 : forall k, (1 <= k < j + 1)%Z -> zget r1 k = Ok (Fin (IZR (K (i + 1) - u)) : XR)).
    { intros k Hk. unfold r1. rewrite zget_upd by lia. destruct (Z.eq_dec j k) as [<-|]; [reflexivity|apply HR; lia]. }
    destruct (inner_low l1 r1 j Hj ltac:(intros; apply HL1; lia) ltac:(intros; apply HR1; lia) ndu Sh Up Lw)
      as (ndu' & E & Sh' & Up' & Lw').
    rewrite E. cbn [rbind].
    destruct (set2_ok p ndu' j j (Fin 0 : XR) Sh' ltac:(lia) ltac:(lia)) as (s2 & E2 & Sh2 & G2 & O2). rewrite E2. cbn [rbind].
    eexists. split; [reflexivity|]. cbv beta iota. split; [exact Sh2|]. split; [|split].
    + intros a b y Hab Ey. destruct (Z.eq_dec a j) as [->|Na]; [destruct (Z.eq_dec b j) as [->|Nb]|].
      * rewrite G2 in Ey. injection Ey as <-. reflexivity.
      * rewrite O2 in Ey by lia. apply (Up' j b); assumption.
      * rewrite O2 in Ey by lia. apply (Up' a b); assumption.
    + intros a b Hab HH. rewrite O2 by lia. apply Lw'; lia.
    + unfold l1, r1 at 1. rewrite !list_upd_length. auto.
  - exists ndu, lft, rgt. auto.
Qed.

Variable ndu : list (list XR).
Hypothesis Shn : shaped p ndu.
Hypothesis Upn : upz ndu.
Hypothesis Lwn : low ndu (p + 1) 0.
Variable n : Z.
Hypothesis Hn : (1 <= n <= p)%Z.
(** the first derivative: every term is a multiple of an entry of the (zero) upper triangle *)
Lemma dersK_first r (a ders : list (list XR)) : (0 <= r <= p)%Z -> shaped p a -> shaped p ders -> get2 a 0 0 = Ok (Fin 1 : XR) ->
  exists a' ders', dersK ndu p r 1 (a, ders, 0%Z, 1%Z) = Ok (a', ders', 1%Z, 0%Z) /\ shaped p a' /\ set2 ders 1 r (Fin 0 : XR) = Ok ders'.
Proof.
  intros Hr Sa Sd A0. unfold dersK.
  assert (UZ : forall x y, (0 <= x <= y)%Z -> (y <= p)%Z -> get2 ndu x y = Ok (Fin 0 : XR)).
  { intros x y Hx Hy. destruct (get2_ok p ndu x y Shn ltac:(lia) ltac:(lia)) as (z & E). rewrite E. f_equal. apply (Upn x y); auto. }
  assert (Zm : forall q, fmul XR (Fin q : XR) (Fin 0 : XR) = (Fin 0 : XR)) by (intros q; cbn [fmul XR xmul]; f_equal; ring).
  assert (Za : fadd XR (Fin 0 : XR) (Fin 0 : XR) = (Fin 0 : XR)) by (cbn [fadd XR xadd]; f_equal; ring).
  assert (X1 : exists a1, (if (1 <=? r)%Z then
       (let! x := get2 a 0 0 in
       let! y := get2 ndu (p - 1 + 1) (r - 1) in
       let! a := set2 a 1 0 (fdiv XR x y) in
       let! x := get2 a 1 0 in
       let! y := get2 ndu (r - 1) (p - 1) in
       Ok (a, fmul XR x y))%res
     else Ok (a, fofZ XR 0)) = Ok (a1, (Fin 0 : XR)) /\ shaped p a1 /\ get2 a1 0 0 = Ok (Fin 1 : XR)).
  { destruct (Z.leb_spec 1 r).
    - rewrite A0. cbn [rbind]. destruct (Lwn (p - 1 + 1)%Z (r - 1)%Z ltac:(lia) ltac:(lia)) as (d & -> & Nd). cbn [rbind].
      assert (Ed : fdiv XR (Fin 1 : XR) (Fin d : XR) = (Fin (1 / d) : XR)).
      { cbn [fdiv XR xdiv]. destruct (Reqb_spec d 0); [contradiction|reflexivity]. }
      rewrite Ed. destruct (set2_ok p a 1 0 (Fin (1 / d) : XR) Sa ltac:(lia) ltac:(lia)) as (a1 & -> & Sa1 & G & O). cbn [rbind].
      rewrite G. cbn [rbind]. rewrite UZ by lia. cbn [rbind]. rewrite Zm. exists a1. split; [reflexivity|]. split; [exact Sa1|]. rewrite O by lia. exact A0.
    - exists a. split; [reflexivity|]. auto. }
  destruct X1 as (a1 & E1 & Sa1 & A1). rewrite E1. cbn [rbind].
  match goal with |- context [forTo ?j1 ?j2 ?c ?d] => assert (E : forTo j1 j2 c d = Ok c) end.
  { unfold forTo. match goal with |- for_ (Z.to_nat ?x) _ _ _ = _ => assert (Hx : (x <= 0)%Z) end.
    { destruct (Z.leb_spec (-1) (r - 1)), (Z.leb_spec (r - 1) (p - 1)); lia. }
    match goal with |- for_ ?k _ _ _ = _ => replace k with O by lia end. reflexivity. }
  rewrite E. cbn [rbind].
  assert (X3 : exists a3, (if (r <=? p - 1)%Z then
       (let! x := get2 a1 0 (1 - 1) in
       let! y := get2 ndu (p - 1 + 1) r in
       let! a := set2 a1 1 1 (fdiv XR (fneg XR x) y) in
       let! x := get2 a 1 1 in
       let! y := get2 ndu r (p - 1) in
       Ok (a, fadd XR (Fin 0 : XR) (fmul XR x y)))%res
     else Ok (a1, (Fin 0 : XR))) = Ok (a3, (Fin 0 : XR)) /\ shaped p a3).
  { destruct (Z.leb_spec r (p - 1)).
    - change (1 - 1)%Z with 0%Z. rewrite A1. cbn [rbind]. destruct (Lwn (p - 1 + 1)%Z r ltac:(lia) ltac:(lia)) as (d & -> & Nd). cbn [rbind].
      assert (Ed : fdiv XR (fneg XR (Fin 1 : XR)) (Fin d : XR) = (Fin (- 1 / d) : XR)).
      { cbn [fdiv fneg XR xdiv xneg]. destruct (Reqb_spec d 0); [contradiction|reflexivity]. }
      rewrite Ed. destruct (set2_ok p a1 1 1 (Fin (- 1 / d) : XR) Sa1 ltac:(lia) ltac:(lia)) as (a3 & -> & Sa3 & G & O). cbn [rbind].
      rewrite G. cbn [rbind]. rewrite UZ by lia. cbn [rbind]. rewrite Zm, Za. eauto.
    - eauto. }
  destruct X3 as (a3 & E3 & Sa3). rewrite E3. cbn [rbind].
  destruct (set2_ok p ders 1 r (Fin 0 : XR) Sd ltac:(lia) ltac:(lia)) as (ds & Es & _). rewrite Es. cbn [rbind]. eauto.
Qed.
Lemma dersK_frame r k (a ders : list (list XR)) s1 s2 a' ders' s1' s2' :
  dersK ndu p r k (a, ders, s1, s2) = Ok (a', ders', s1', s2') -> exists d, set2 ders k r d = Ok ders'.
Proof.
  unfold dersK. intros E.
  match type of E with rbind ?m _ = _ => destruct m as [[a1 d1]| |]; cbn [rbind] in E; try discriminate end.
  match type of E with rbind ?m _ = _ => destruct m as [[a2 d2]| |]; cbn [rbind] in E; try discriminate end.
  match type of E with rbind ?m _ = _ => destruct m as [[a3 d3]| |]; cbn [rbind] in E; try discriminate end.
  destruct (set2 ders k r d3) as [ds| |] eqn:Es; cbn [rbind] in E; try discriminate. injection E as _ <- _ _. eauto.
Qed.
Lemma dersR_first r (a ders : list (list XR)) : (0 <= r <= p)%Z -> shaped p a -> shaped p ders ->
  exists a' ders', dersR ndu p n r (a, ders) = Ok (a', ders') /\ shaped p a' /\ shaped p ders' /\
    get2 ders' 1 r = Ok (Fin 0 : XR) /\ (forall b, b <> r -> get2 ders' 1 b = get2 ders 1 b).
Proof.
  intros Hr Sa Sd. unfold dersR.
  destruct (set2_ok p a 0 0 (fofZ XR 1) Sa ltac:(lia) ltac:(lia)) as (a1 & -> & Sa1 & G1 & _). cbn [rbind].
  unfold forTo. replace (Z.to_nat (n - 1 + 1)) with (1 + Z.to_nat (n - 1))%nat by lia. rewrite for_app. cbn [for_].
  destruct (dersK_first r a1 ders Hr Sa1 Sd G1) as (a2 & d2 & -> & Sa2 & Es). cbn [rbind].
  destruct (set2_ok p ders 1 r (Fin 0 : XR) Sd ltac:(lia) ltac:(lia)) as (d2' & E' & Sd2 & G2 & O2). rewrite Es in E'. injection E' as <-.
  replace (Z.to_nat (n - 1)) with (Z.to_nat (n - 2 + 1)) by lia. change (1 + Z.of_nat 1)%Z with 2%Z.
  fold (forTo 2 n (a2, d2, 1%Z, 0%Z) (dersK ndu p r)).
  destruct (forTo_keep (fun s : list (list XR) * list (list XR) * Z * Z => let '(a, ders, s1, s2) := s in
      shaped p a /\ shaped p ders /\ (forall b, get2 ders 1 b = get2 d2 1 b) /\
      ((s1 = 0 /\ s2 = 1) \/ (s1 = 1 /\ s2 = 0))%Z) (dersK ndu p r) 2 n (a2, d2, 1%Z, 0%Z))
    as ([[[a4 d4] s1] s2] & Ef & Sa4 & Sd4 & Hd4 & _).
  - repeat (split; [assumption || reflexivity|]). right; auto.
  - intros k [[[a3 d3] s1] s2] Hk (Sa3 & Sd3 & Hd3 & Hs).
    destruct (dersK_ok p n ltac:(lia) ndu Shn r k (fun j => get2 d3 0 j) a3 d3 s1 s2) as (a4 & d4 & E & Sa4 & Sd4 & _); auto; try lia.
    eexists. split; [exact E|]. cbv beta iota. repeat (split; [assumption|]). split; [|lia].
    destruct (dersK_frame _ _ _ _ _ _ _ _ _ _ E) as (d & Es2).
    destruct (set2_ok p d3 k r d Sd3 ltac:(lia) ltac:(lia)) as (d4' & E4 & _ & _ & O4). rewrite Es2 in E4. injection E4 as <-.
    intros b. rewrite O4 by lia. apply Hd3.
  - rewrite Ef. cbn [rbind]. exists a4, d4. split; [reflexivity|]. split; [exact Sa4|]. split; [exact Sd4|].
    rewrite Hd4. split; [exact G2|]. intros b Hb. rewrite Hd4. apply O2. lia.
Qed.
End First.

Lemma ders_first_row_zero (U : list Z) i u p n : (1 <= n <= p)%Z -> (0 <= i)%Z -> (0 <= i + 1 - p)%Z ->
  (i + 1 < Z.of_nat (length U))%Z -> nondecreasing U ->
  (nth (Z.to_nat i) U 0 < nth (Z.to_nat (i + 1)) U 0)%Z ->
  exists ders, dersBasisFuns (A := XR) i u p n U = Ok ders /\
    forall j, (0 <= j <= p)%Z -> get2 ders 1 j = Ok (Fin 0 : XR).
Proof.
  intros Hn Hi Hlo Hhi Mono Hspan. unfold dersBasisFuns. rewrite !make_ok by lia. cbn [rbind].
  rewrite !make_ok by lia. cbn [rbind].
  destruct (first_low U i u p ltac:(lia) Hlo Hi Hhi Mono Hspan) as (ndu & lft & rgt & -> & Sh & Up & Lw). cbn [rbind].
  match goal with |- context [forTo 0 p ?d ?b] =>
    destruct (forTo_keep (fun ders => shaped p ders) b 0 p d) as (d0 & -> & Sd) end.
  - apply shaped_repeat. lia.
  - intros j d Hj Sd. destruct (get2_ok p ndu j p Sh ltac:(lia) ltac:(lia)) as (x & ->). cbn [rbind].
    destruct (set2_ok p d 0 j x Sd ltac:(lia) ltac:(lia)) as (d' & -> & Sd' & _). eauto.
  - cbn [rbind].
    match goal with |- context [forTo 0 p ?d ?b] =>
      destruct (forTo_inv (fun r (s : list (list XR) * list (list XR)) => shaped p (fst s) /\ shaped p (snd s) /\
        forall q, (0 <= q < r)%Z -> get2 (snd s) 1 q = Ok (Fin 0 : XR)) b 0 p d) as ([a1 d1] & -> & Sa1 & Sd1 & Hd1) end.
    + lia.
    + cbn [fst snd]. split; [apply shaped_repeat; lia|]. split; [exact Sd|]. intros; lia.
    + intros r [a d] Hr (Sa & Sd' & Hd'). cbn [fst snd] in *.
      destruct (dersR_first U p ltac:(lia) ndu Sh Up Lw n Hn r a d ltac:(lia) Sa Sd') as (a' & d' & -> & H1 & H2 & H3 & H4).
      eexists. split; [reflexivity|]. cbn [fst snd]. split; [exact H1|]. split; [exact H2|].
      intros q Hq. destruct (Z.eq_dec q r) as [->|N]; [exact H3|]. rewrite H4 by exact N. apply Hd'. lia.
    + cbn [rbind fst snd] in *. destruct (scale_loop p ltac:(lia) n d1 ltac:(lia) Sd1) as (d2 & rr & -> & _ & _ & V).
      cbn [rbind]. exists d2. split; [reflexivity|]. intros j Hj. rewrite (V 1%Z j 0 ltac:(lia) Hj (Hd1 j ltac:(lia))). do 2 f_equal. ring.
Qed.

(** the first basis function of a span is a power *)
Lemma piece_first t i p : (forall a b, (i + 1 - Z.of_nat p <= a <= b)%Z -> (b <= i + Z.of_nat p)%Z -> t a <= t b) -> t i < t (i + 1)%Z ->
  forall j, (j <= p)%nat -> exists c, 0 < c /\ forall x, bpiece t i j (i - Z.of_nat j)%Z x = c * (t (i + 1)%Z - x) ^ j.
Proof.
  intros M Hi. induction j as [|j IH]; intros Hj.
  - exists 1. split; [lra|]. intros x. unfold bpiece. simpl. destruct (Z.eq_dec (i - 0) i); [ring|lia].
  - destruct (IH ltac:(lia)) as (c & Hc & E). pose proof (denom_pos t i p M Hi (S j) 0 ltac:(lia) Hj) as D.
    exists (c / denom t i (S j) 0). split; [apply Rdiv_lt_0_compat; auto|]. intros x.
    pose proof (piece_split t i p M Hi x j 0 Hj ltac:(lia)) as P. rewrite Z.add_0_r in P. rewrite P. unfold lterm, rterm.
    destruct (Z.eq_dec 0 0); [|lia]. destruct (Z.eq_dec 0 (Z.of_nat (S j))); [lia|].
    replace (i - Z.of_nat (S j) + 0 + 1)%Z with (i - Z.of_nat j)%Z by lia. rewrite E. rewrite Z.add_0_r. simpl. field. lra.
Qed.
Lemma piece_first_slope t i p u : (1 <= p)%nat ->
  (forall a b, (i + 1 - Z.of_nat p <= a <= b)%Z -> (b <= i + Z.of_nat p)%Z -> t a <= t b) -> t i < t (i + 1)%Z -> u < t (i + 1)%Z ->
  exists l, derivable_pt_lim (fun x => bpiece t i p (i - Z.of_nat p)%Z x) u l /\ l < 0.
Proof.
  intros Hp M Hi Hu. destruct (piece_first t i p M Hi p ltac:(lia)) as (c & Hc & E). set (T := t (i + 1)%Z) in *.
  exists (c * (INR p * (T - u) ^ pred p * (0 - 1))). split.
  - assert (D : derivable_pt_lim (fun x => c * (T - x) ^ p) u (c * (INR p * (T - u) ^ pred p * (0 - 1)))).
    { apply (derivable_pt_lim_scal (fun x => (T - x) ^ p) c u).
      apply (derivable_pt_lim_comp (fun x => T - x) (fun y => y ^ p) u (0 - 1)).
      - apply (derivable_pt_lim_minus (fun _ => T) (fun x => x) u 0 1); [apply derivable_pt_lim_const|apply derivable_pt_lim_id].
      - apply derivable_pt_lim_pow. }
    intros eps He. destruct (D eps He) as (d & Hd). exists d. intros h Hh Hh2. rewrite !E. apply Hd; auto.
  - assert (0 < c * (INR p * (T - u) ^ pred p)).
    { apply Rmult_lt_0_compat; auto. apply Rmult_lt_0_compat; [apply lt_0_INR; lia|apply pow_lt; lra]. }
    lra.
Qed.
