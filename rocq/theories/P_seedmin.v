(** What bounds and the three search loops of triangulate return, in any arithmetic with an order. *)
From Coq Require Import Reals Lra Lia ZArith QArith Bool List.
From Verif Require Import Base Arith M_r3 M_tri2 M_triangulator P_b64laws.
Import ListNotations.

Section Ord.
Context {A : Arith} {ok : A -> Prop} (O : ordered A ok).
Definition least (l : list A) (x : A) : Prop := In x l /\ forall y, In y l -> fle A x y = true.
Definition greatest (l : list A) (x : A) : Prop := In x l /\ forall y, In y l -> fle A y x = true.
Lemma nlt x y : ok x -> ok y -> flt A x y = false -> fle A y x = true.
Proof. intros Hx Hy L. rewrite (o_lt _ _ O) in L by auto. apply negb_false_iff in L. auto. Qed.
Lemma o_refl x : ok x -> fle A x x = true.
Proof. intros H. destruct (o_total _ _ O x x H H); auto. Qed.
Lemma lt_le x y : flt A x y = true -> fle A x y = true.
Proof.
  intros L. destruct (o_ok _ _ O _ _ L) as [Hx Hy]. rewrite (o_lt _ _ O) in L by auto. apply negb_true_iff in L.
  destruct (o_total _ _ O x y Hx Hy); congruence.
Qed.
(* the running minimum and maximum *)
Lemma min_fold l : forall x, ok x -> (forall y, In y l -> ok y) ->
  let m := fold_left (fun m p => if flt A p m then p else m) l x in
  ok m /\ (m = x \/ In m l) /\ fle A m x = true /\ forall y, In y l -> fle A m y = true.
Proof.
  induction l as [|a l IH]; simpl; intros x Hx Hl.
  - split; [|split; [|split]]; auto; try easy. apply o_refl; auto.
  - assert (Ha : ok a) by auto. destruct (flt A a x) eqn:E.
    + destruct (IH a Ha ltac:(auto)) as (H1 & H2 & H3 & H4). repeat split; auto.
      * right. destruct H2; auto.
      * apply (o_trans _ _ O) with a; auto. apply lt_le; auto.
      * intros y [<-|Hy]; auto.
    + destruct (IH x Hx ltac:(auto)) as (H1 & H2 & H3 & H4). repeat split; auto.
      * destruct H2; auto.
      * intros y [<-|Hy]; auto. apply (o_trans _ _ O) with x; auto. apply nlt; auto.
Qed.
Lemma max_fold l : forall x, ok x -> (forall y, In y l -> ok y) ->
  let m := fold_left (fun m p => if flt A m p then p else m) l x in
  ok m /\ (m = x \/ In m l) /\ fle A x m = true /\ forall y, In y l -> fle A y m = true.
Proof.
  induction l as [|a l IH]; simpl; intros x Hx Hl.
  - split; [|split; [|split]]; auto; try easy. apply o_refl; auto.
  - assert (Ha : ok a) by auto. destruct (flt A x a) eqn:E.
    + destruct (IH a Ha ltac:(auto)) as (H1 & H2 & H3 & H4). repeat split; auto.
      * right. destruct H2; auto.
      * apply (o_trans _ _ O) with a; auto. apply lt_le; auto.
      * intros y [<-|Hy]; auto.
    + destruct (IH x Hx ltac:(auto)) as (H1 & H2 & H3 & H4). repeat split; auto.
      * destruct H2; auto.
      * intros y [<-|Hy]; auto. apply (o_trans _ _ O) with x; auto. apply nlt; auto.
Qed.
Lemma bounds_fold (vs : list (vec A)) : forall x0 y0 x1 y1,
  fold_left (fun '(x0, y0, x1, y1) p =>
        (if flt A (vx p) x0 then vx p else x0, if flt A (vy p) y0 then vy p else y0,
         if flt A x1 (vx p) then vx p else x1, if flt A y1 (vy p) then vy p else y1)) vs (x0, y0, x1, y1)
  = (fold_left (fun m p => if flt A p m then p else m) (map vx vs) x0,
     fold_left (fun m p => if flt A p m then p else m) (map vy vs) y0,
     fold_left (fun m p => if flt A m p then p else m) (map vx vs) x1,
     fold_left (fun m p => if flt A m p then p else m) (map vy vs) y1).
Proof. induction vs as [|v vs IH]; intros; simpl; auto. Qed.
Lemma bounds_spec (vs : list (vec A)) : (2 <= length vs)%nat -> (forall v, In v vs -> ok (vx v) /\ ok (vy v)) ->
  exists x0 y0 x1 y1, bounds vs = Ok (x0, y0, x1, y1) /\
    least (map vx vs) x0 /\ least (map vy vs) y0 /\ greatest (map vx vs) x1 /\ greatest (map vy vs) y1.
Proof.
  intros L H. destruct vs as [|v0 [|v1 vs]]; simpl in L; try lia.
  unfold bounds. change (zget (v0 :: v1 :: vs) 0) with (Ok v0). change (zget (v0 :: v1 :: vs) 1) with (Ok v1). cbn [rbind].
  rewrite bounds_fold. do 4 eexists. split; [reflexivity|].
  set (l := v0 :: v1 :: vs) in *.
  assert (I0 : In v0 l) by (left; auto). assert (I1 : In v1 l) by (right; left; auto). clearbody l.
  assert (X : forall y, In y (map vx l) -> ok y) by (intros y Hy; apply in_map_iff in Hy as (v & <- & Hv); apply H; auto).
  assert (Y : forall y, In y (map vy l) -> ok y) by (intros y Hy; apply in_map_iff in Hy as (v & <- & Hv); apply H; auto).
  assert (I0x := in_map vx _ _ I0). assert (I0y := in_map vy _ _ I0). assert (I1x := in_map vx _ _ I1). assert (I1y := in_map vy _ _ I1).
  destruct (min_fold (map vx l) (vx v0) (X _ I0x) X) as (_ & [E1|E1] & _ & M1), (min_fold (map vy l) (vy v0) (Y _ I0y) Y) as (_ & [E2|E2] & _ & M2),
    (max_fold (map vx l) (vx v1) (X _ I1x) X) as (_ & [E3|E3] & _ & M3), (max_fold (map vy l) (vy v1) (Y _ I1y) Y) as (_ & [E4|E4] & _ & M4);
  repeat split; auto; (try rewrite E1); (try rewrite E2); (try rewrite E3); (try rewrite E4); auto.
Qed.

(** the loops *)
Section Arg.
Variables (skip : Z -> bool) (f : vec A -> A) (okd : A -> bool).
(* the point of index j is looked at and its value may be chosen *)
Definition cand (vs : list (vec A)) (j : Z) (d : A) : Prop :=
  skip j = false /\ exists p, zget vs j = Ok p /\ d = f p /\ okd d = true.
Lemma zget_cons (v : vec A) vs j : (0 < j)%Z -> zget (v :: vs) j = zget vs (j - 1).
Proof.
  intros L. unfold zget. destruct (Z.ltb_spec j 0), (Z.ltb_spec (j - 1) 0); try lia.
  replace (Z.to_nat j) with (Datatypes.S (Z.to_nat (j - 1))) by lia. reflexivity.
Qed.
Lemma argmin_gen vs0 vs : forall i best m bi bm, ok m -> argmin skip f okd i vs best m = (bi, bm) ->
  (forall j p, zget vs j = Ok p -> zget vs0 (i + j) = Ok p) ->
  ok bm /\ fle A bm m = true /\
  ((bi = best /\ bm = m) \/ (flt A bm m = true /\ cand vs0 bi bm)) /\
  (forall j p, zget vs j = Ok p -> skip (i + j)%Z = false -> okd (f p) = true -> ok (f p) -> fle A bm (f p) = true).
Proof.
  induction vs as [|p vs IH]; simpl; intros i best m bi bm Hm E Sub.
  - injection E as <- <-. repeat split; auto. apply o_refl; auto. intros j p Z. unfold zget in Z. destruct (j <? 0)%Z; [discriminate|]. destruct (Z.to_nat j); discriminate.
  - assert (Sub' : forall j q, zget vs j = Ok q -> zget vs0 (i + 1 + j) = Ok q).
    { intros j q Z. replace (i + 1 + j)%Z with (i + (j + 1))%Z by ring. apply Sub.
      assert (0 <= j)%Z by (unfold zget in Z; destruct (Z.ltb_spec j 0); [discriminate|lia]).
      rewrite zget_cons by lia. rewrite Z.add_simpl_r. auto. }
    assert (P0 : zget vs0 i = Ok p) by (rewrite <- (Z.add_0_r i); apply Sub; reflexivity).
    assert (Step : forall best' m', ok m' -> argmin skip f okd (i + 1) vs best' m' = (bi, bm) -> fle A m' m = true ->
       ((best' = best /\ m' = m) \/ (flt A m' m = true /\ cand vs0 best' m')) ->
       (skip i = false -> okd (f p) = true -> ok (f p) -> fle A m' (f p) = true) ->
       ok bm /\ fle A bm m = true /\ ((bi = best /\ bm = m) \/ (flt A bm m = true /\ cand vs0 bi bm)) /\
       (forall j q, zget (p :: vs) j = Ok q -> skip (i + j)%Z = false -> okd (f q) = true -> ok (f q) -> fle A bm (f q) = true)).
    { intros best' m' Hm' E' Lm C0 L0. destruct (IH _ _ _ _ _ Hm' E' Sub') as (H1 & H2 & H3 & H4).
      assert (Lb : fle A bm m = true) by (apply (o_trans _ _ O) with m'; auto).
      repeat split; auto.
      - destruct H3 as [[-> ->]|[L3 C3]]; auto. right. split; auto.
        destruct C0 as [[-> ->]|[L' _]]; auto.
        rewrite (o_lt _ _ O) by auto. destruct (fle A m bm) eqn:Q; auto.
        assert (fle A m' bm = true) by (apply (o_trans _ _ O) with m; auto).
        rewrite (o_lt _ _ O) in L3 by auto. rewrite H in L3. discriminate.
      - intros j q Z Sk Od Oq. assert (0 <= j)%Z by (unfold zget in Z; destruct (Z.ltb_spec j 0); [discriminate|lia]).
        destruct (Z.eq_dec j 0) as [->|Nj].
        + cbn in Z. injection Z as <-. rewrite Z.add_0_r in Sk. apply (o_trans _ _ O) with m'; auto.
        + rewrite zget_cons in Z by lia. apply (H4 (j - 1)%Z); auto. replace (i + 1 + (j - 1))%Z with (i + j)%Z by ring. auto. }
    destruct (skip i) eqn:Sk.
    + apply (Step best m); auto. apply o_refl; auto. discriminate.
    + destruct (okd (f p)) eqn:Od; [destruct (flt A (f p) m) eqn:L|].
      * simpl in E. destruct (o_ok _ _ O _ _ L) as [Of _]. apply (Step i (f p)); auto.
        -- apply lt_le; auto.
        -- right. split; auto. split; auto. exists p; auto.
        -- intros _ _ _. apply o_refl; auto.
      * simpl in E. apply (Step best m); auto. apply o_refl; auto. intros _ _ Of. apply nlt; auto.
      * simpl in E. apply (Step best m); auto. apply o_refl; auto. discriminate.
Qed.
Lemma argmin_spec vs best m bi bm : ok m -> argmin skip f okd 0 vs best m = (bi, bm) ->
  ((bi = best /\ bm = m) \/ (flt A bm m = true /\ cand vs bi bm)) /\
  (forall j d, cand vs j d -> ok d -> fle A bm d = true).
Proof.
  intros Hm E. destruct (argmin_gen vs vs 0 best m bi bm Hm E ltac:(auto)) as (_ & _ & H1 & H2).
  split; auto. intros j d (Sk & p & Z & -> & Od) Ok_. apply (H2 j p); auto.
Qed.
End Arg.

(** the three seeds *)
Hypothesis inf_ok : ok (finf A).
Hypothesis inf_top : forall x, ok x -> fle A x (finf A) = true.
Lemma In_zget {X} (l : list X) x : In x l -> exists j, zget l j = Ok x.
Proof. intros H. apply In_nth_error in H as [n E]. exists (Z.of_nat n). rewrite zget_nat, E. reflexivity. Qed.
Lemma seed0_spec (vs : list (vec A)) (m : vec A) : vs <> [] -> (forall v, In v vs -> ok (SquaredDistance v m)) ->
  exists v, zget vs (seed0 vs m) = Ok v /\ forall p, In p vs -> fle A (SquaredDistance v m) (SquaredDistance p m) = true.
Proof.
  intros N H. unfold seed0. destruct (argmin _ _ _ _ _ _ _) as [bi bm] eqn:E.
  destruct (argmin_spec _ _ _ _ _ _ _ _ inf_ok E) as [C M]. simpl fst.
  assert (M' : forall p, In p vs -> fle A bm (SquaredDistance p m) = true).
  { intros p Hp. destruct (In_zget _ _ Hp) as [j Ej]. apply (M j); auto. split; auto. exists p. auto. }
  destruct C as [[-> ->]|[_ (_ & p & Ep & -> & _)]].
  - destruct vs as [|v vs]; [easy|]. exists v. split; [reflexivity|]. intros p Hp. apply (o_trans _ _ O) with (finf A); auto. apply H. left; auto. apply inf_top, H. left; auto.
  - exists p. auto.
Qed.
Lemma seed1_spec (vs : list (vec A)) i0 (v0 : vec A) :
  (exists j p, j <> i0 /\ zget vs j = Ok p /\ flt A (fofZ A 0) (SquaredDistance p v0) = true /\ flt A (SquaredDistance p v0) (finf A) = true) ->
  seed1 vs i0 v0 <> i0 /\ exists v, zget vs (seed1 vs i0 v0) = Ok v /\ flt A (fofZ A 0) (SquaredDistance v v0) = true /\
    forall j p, j <> i0 -> zget vs j = Ok p -> flt A (fofZ A 0) (SquaredDistance p v0) = true -> fle A (SquaredDistance v v0) (SquaredDistance p v0) = true.
Proof.
  intros (j & p & Nj & Ej & Pj & Lj). unfold seed1. destruct (argmin _ _ _ _ _ _ _) as [bi bm] eqn:E.
  destruct (argmin_spec _ _ _ _ _ _ _ _ inf_ok E) as [C M]. simpl fst.
  destruct C as [[-> ->]|[_ (Sk & q & Eq & -> & Oq)]].
  - exfalso. assert (fle A (finf A) (SquaredDistance p v0) = true) as Q.
    { apply (M j); [|apply (o_ok _ _ O) in Lj; tauto]. split; [apply Z.eqb_neq; auto|]. exists p. auto. }
    destruct (o_ok _ _ O _ _ Lj). rewrite (o_lt _ _ O) in Lj by auto. rewrite Q in Lj. discriminate.
  - split; [apply Z.eqb_neq; auto|]. exists q. repeat split; auto. intros k r Nk Ek Pk. apply (M k); [|apply (o_ok _ _ O) in Pk; tauto].
    split; [apply Z.eqb_neq; auto|]. exists r. auto.
Qed.
Lemma seed2_spec (vs : list (vec A)) i0 i1 (v0 v1 : vec A) i2 r : seed2 vs i0 i1 v0 v1 = (i2, r) ->
  (r = finf A /\ forall j p, j <> i0 -> j <> i1 -> zget vs j = Ok p -> flt A (circumradius v0 v1 p) (finf A) = false) \/
  (flt A r (finf A) = true /\ i2 <> i0 /\ i2 <> i1 /\ (exists v, zget vs i2 = Ok v /\ r = circumradius v0 v1 v) /\
   forall j p, j <> i0 -> j <> i1 -> zget vs j = Ok p -> ok (circumradius v0 v1 p) -> fle A r (circumradius v0 v1 p) = true).
Proof.
  unfold seed2. intros E. destruct (argmin_spec _ _ _ _ _ _ _ _ inf_ok E) as [C M].
  assert (Cd : forall j p, j <> i0 -> j <> i1 -> zget vs j = Ok p -> cand (fun i => (i =? i0)%Z || (i =? i1)%Z) (fun p => circumradius v0 v1 p) (fun _ => true) vs j (circumradius v0 v1 p)).
  { intros j p N0 N1 Ej. split; [|exists p; auto]. apply orb_false_iff. split; apply Z.eqb_neq; auto. }
  destruct C as [[-> ->]|[L (Sk & q & Eq & -> & _)]].
  - left. split; auto. intros j p N0 N1 Ej. destruct (flt A (circumradius v0 v1 p) (finf A)) eqn:L; auto. exfalso.
    destruct (o_ok _ _ O _ _ L) as [Op _]. pose proof (M _ _ (Cd j p N0 N1 Ej) Op) as Q. rewrite (o_lt _ _ O) in L by auto. rewrite Q in L. discriminate.
  - right. apply orb_false_iff in Sk as [S0 S1]. apply Z.eqb_neq in S0, S1. repeat split; auto; [exists q; auto|].
    intros j p N0 N1 Ej Op. apply (M j); auto.
Qed.
End Ord.
