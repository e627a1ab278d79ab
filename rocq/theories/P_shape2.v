(** Orientation and boundary of the sphere and torus meshes. *)
From Coq Require Import Reals Lra Lia ZArith List Bool.
From Verif Require Import Base Arith M_r3 Spec_r3 XRvec GoLoop M_shape Spec_shape Spec_shape2 P_shape.
Import ListNotations.
Open Scope Z_scope.

Section Grid.
Variables sc st : Z.
Hypothesis Hsc : 1 <= sc.
Definition at_ (i j : Z) : Z := i * (sc + 1) + j.
Definition TA (i j : Z) : Z * Z * Z := (at_ i j, at_ (i + 1) j, at_ i (j + 1)).
Definition TB (i j : Z) : Z * Z * Z := (at_ i (j + 1), at_ (i + 1) j, at_ (i + 1) (j + 1)).
Lemma at_inj i j i' j' : 0 <= j <= sc -> 0 <= j' <= sc -> at_ i j = at_ i' j' -> i = i' /\ j = j'.
Proof.
  unfold at_. intros Hj Hj' E. assert (i = i').
  { destruct (Z_lt_le_dec i i'); [|destruct (Z_lt_le_dec i' i); [|lia]].
    - assert ((i + 1) * (sc + 1) <= i' * (sc + 1)) by (apply Z.mul_le_mono_nonneg_r; lia). lia.
    - assert ((i' + 1) * (sc + 1) <= i * (sc + 1)) by (apply Z.mul_le_mono_nonneg_r; lia). lia. }
  subst. lia.
Qed.
Lemma tris_kind t : 2 <= st -> In t (grid_tris sc st) <-> exists i j, 0 <= j < sc /\ ((t = TB i j /\ 0 <= i < st - 1) \/ (t = TA i j /\ 1 <= i < st - 1)).
Proof.
  intros Hst. destruct t as [[a b] c]. rewrite grid_tris_in. unfold TA, TB, at_. split.
  - intros (j & Hj & [E|(i & Hi & [E|E])]).
    + exists 0, j. split; [auto|]. left. split; [|lia]. rewrite E. eqz.
    + exists i, j. split; [auto|]. right. split; [|lia]. rewrite E. eqz.
    + exists i, j. split; [auto|]. left. split; [|lia]. rewrite E. eqz.
  - intros (i & j & Hj & [[E Hi]|[E Hi]]); exists j; (split; [auto|]).
    + destruct (Z.eq_dec i 0) as [->|N].
      * left. rewrite E. eqz.
      * right. exists i. split; [lia|]. right. rewrite E. eqz.
    + right. exists i. split; [lia|]. left. rewrite E. eqz.
Qed.
(** two triangles through a directed edge are the same *)
Lemma side_once t t' e : 2 <= st -> In t (grid_tris sc st) -> In t' (grid_tris sc st) -> In e (sides t) -> In e (sides t') -> t = t'.
Proof.
  intros Hst H H'. apply tris_kind in H; auto. apply tris_kind in H'; auto.
  destruct H as (i & j & Hj & H). destruct H' as (i' & j' & Hj' & H').
  assert (K : (t = TB i j \/ t = TA i j) /\ (t' = TB i' j' \/ t' = TA i' j')) by tauto. clear H H'.
  destruct K as [K K']. destruct e as [u v].
  assert (W : forall x y z w x' y' z' w', (at_ x y, at_ z w) = (u, v) -> (at_ x' y', at_ z' w') = (u, v) ->
     0 <= y <= sc -> 0 <= w <= sc -> 0 <= y' <= sc -> 0 <= w' <= sc -> x = x' /\ y = y' /\ z = z' /\ w = w').
  { intros x y z w x' y' z' w' E1 E2 ? ? ? ?. assert (F1 : at_ x y = at_ x' y') by congruence. assert (F2 : at_ z w = at_ z' w') by congruence.
    apply at_inj in F1; auto. apply at_inj in F2; auto. tauto. }
  destruct K as [->| ->], K' as [->| ->]; unfold TA, TB, sides; cbn [In]; intros D D';
    destruct D as [D|[D|[D|[]]]], D' as [D'|[D'|[D'|[]]]];
    pose proof (W _ _ _ _ _ _ _ _ D D') as F; destruct (F ltac:(lia) ltac:(lia) ltac:(lia) ltac:(lia)) as (? & ? & ? & ?); clear F;
    try lia; assert (i = i') by lia; assert (j = j') by lia; subst; reflexivity.
Qed.
Lemma side_ne t a b : 2 <= st -> In t (grid_tris sc st) -> In (a, b) (sides t) -> a <> b.
Proof.
  intros Hst H. apply tris_kind in H; auto. destruct H as (i & j & Hj & [[-> Hi]|[-> Hi]]); unfold TA, TB, sides; cbn [In]; intros D E; subst b;
  destruct D as [D|[D|[D|[]]]]; injection D as E1 E2; rewrite <- E2 in E1; apply at_inj in E1; lia.
Qed.
Lemma grid_oriented : 2 <= st -> oriented (grid_tris sc st).
Proof.
  intros Hst. split.
  - apply NoDup_flat_map.
    + apply grid_tris_NoDup. lia.
    + intros t Ht. assert (N := side_ne t). assert (O := fun a b => N a b Hst Ht). destruct t as [[a b] c]. unfold sides in *. cbn [In] in O.
      assert (a <> b) by (apply O; auto). assert (b <> c) by (apply O; auto). assert (c <> a) by (apply O; auto).
      repeat constructor; cbn [In]; intros D; decompose [or] D; try contradiction; congruence.
    + intros t t' e Ht Ht' He He'. apply (side_once t t' e); auto.
  - intros a b H. apply in_flat_map in H. destruct H as (t & Ht & H). apply (side_ne t); auto.
Qed.

(** ** which edges lie on two triangles *)
Variable P : Z -> Z -> rv.
Variable pos : Z -> rv.
Hypothesis Hsc2 : 2 <= sc.
Hypothesis Hst : 2 <= st.
Hypothesis Hpos : forall i j, 0 <= i < st -> 0 <= j <= sc -> pos (at_ i j) = P i j.
Hypothesis Hwrap : forall i, 0 <= i < st -> P i sc = P i 0.
Lemma TA_TB i j i' j' : 0 <= j < sc -> 0 <= j' < sc -> TA i j <> TB i' j'.
Proof. intros Hj Hj' E. unfold TA, TB in E. injection E as E1 E2 E3. apply at_inj in E1; [|lia|lia]. apply at_inj in E2; lia. Qed.
Lemma TB_inj i j i' j' : 0 <= j < sc -> 0 <= j' < sc -> TB i j = TB i' j' -> i = i' /\ j = j'.
Proof. intros Hj Hj' E. unfold TB in E. injection E as E1 E2 E3. apply at_inj in E2; lia. Qed.
Definition corners3 (t : Z * Z * Z) (X Y W : rv) : Prop := let '(a, b, c) := t in pos a = X /\ pos b = Y /\ pos c = W.
Lemma TA_corners i j : 0 <= i -> i + 1 < st -> 0 <= j < sc -> corners3 (TA i j) (P i j) (P (i + 1) j) (P i (j + 1)).
Proof. intros. unfold corners3, TA. rewrite !Hpos by lia. auto. Qed.
Lemma TB_corners i j : 0 <= i -> i + 1 < st -> 0 <= j < sc -> corners3 (TB i j) (P i (j + 1)) (P (i + 1) j) (P (i + 1) (j + 1)).
Proof. intros. unfold corners3, TB. rewrite !Hpos by lia. auto. Qed.
Lemma edge_pick t X Y W U V : corners3 t X Y W -> U <> V -> (U = X \/ U = Y \/ U = W) -> (V = X \/ V = Y \/ V = W) -> has_edge pos t U V.
Proof.
  destruct t as [[a b] c]. intros (A & B & C) N HU HV. split; [auto|]. unfold corner.
  split; [destruct HU as [->|[->| ->]]; [exists a|exists b|exists c]; auto|destruct HV as [->|[->| ->]]; [exists a|exists b|exists c]; auto].
Qed.
Lemma edge_of t X Y W U V : corners3 t X Y W -> has_edge pos t U V -> U <> V /\ (U = X \/ U = Y \/ U = W) /\ (V = X \/ V = Y \/ V = W).
Proof.
  destruct t as [[a b] c]. intros (A & B & C) (N & (k & Hk & <-) & (k' & Hk' & <-)). split; [auto|]. unfold corner in *.
  split; [destruct Hk as [->|[->| ->]]|destruct Hk' as [->|[->| ->]]]; auto.
Qed.
Lemma share a t t' U V : nth_error (grid_tris sc st) a = Some t -> In t' (grid_tris sc st) -> t' <> t -> has_edge pos t' U V -> shared pos (grid_tris sc st) a U V.
Proof.
  intros E Ht N H. apply In_nth_error in Ht. destruct Ht as (b & Eb). exists b, t'. split; [intros ->; congruence|]. auto.
Qed.
(** the edge (X, Y) of two triangles in unordered form *)
Definition uedge (U V X Y : rv) : Prop := (U = X /\ V = Y) \/ (U = Y /\ V = X).
Lemma u_cases U V X Y W : U <> V -> (U = X \/ U = Y \/ U = W) -> (V = X \/ V = Y \/ V = W) -> uedge U V X Y \/ uedge U V Y W \/ uedge U V X W.
Proof. unfold uedge. intros N [->|[->| ->]] [->|[->| ->]]; try contradiction; tauto. Qed.
Lemma u_pick t X Y W U V A B : corners3 t X Y W -> U <> V -> uedge U V A B -> (A = X \/ A = Y \/ A = W) -> (B = X \/ B = Y \/ B = W) -> has_edge pos t U V.
Proof. intros C N [[-> ->]|[-> ->]] HA HB; apply (edge_pick t X Y W); auto. Qed.

Lemma grid_shared a t U V : nth_error (grid_tris sc st) a = Some t -> has_edge pos t U V ->
  shared pos (grid_tris sc st) a U V \/ (exists j, 0 <= j < sc /\ uedge U V (P (st - 1) j) (P (st - 1) (j + 1))) \/
  (exists j, 0 <= j < sc /\ t = TB 0 j /\ (uedge U V (P 0 (j + 1)) (P 1 j) \/ uedge U V (P 0 (j + 1)) (P 1 (j + 1)))).
Proof.
  intros Ea He. pose proof (nth_error_In _ _ Ea) as Ht. apply tris_kind in Ht; [|auto].
  assert (InA : forall i j, 0 <= j < sc -> 1 <= i < st - 1 -> In (TA i j) (grid_tris sc st)) by (intros i j ? ?; apply tris_kind; auto; exists i, j; auto).
  assert (InB : forall i j, 0 <= j < sc -> 0 <= i < st - 1 -> In (TB i j) (grid_tris sc st)) by (intros i j ? ?; apply tris_kind; auto; exists i, j; auto).
  destruct Ht as (i & j & Hj & [[-> Hi]|[-> Hi]]).
  - destruct (edge_of _ _ _ _ U V (TB_corners i j ltac:(lia) ltac:(lia) Hj) He) as (N & HU & HV).
    destruct (u_cases _ _ _ _ _ N HU HV) as [C|[C|C]].
    + (* the diagonal *)
      destruct (Z.eq_dec i 0) as [->|Ni]; [right; right; exists j; auto|].
      left. apply (share a (TB i j) (TA i j)); auto; [apply InA; lia|apply TA_TB; lia|].
      apply (u_pick _ _ _ _ U V _ _ (TA_corners i j ltac:(lia) ltac:(lia) Hj) N C); auto.
    + (* the lower side *)
      destruct (Z.eq_dec (i + 1) (st - 1)) as [E|Ni]; [right; left; exists j; rewrite <- E; auto|].
      left. apply (share a (TB i j) (TA (i + 1) j)); auto; [apply InA; lia|apply TA_TB; lia|].
      apply (u_pick _ _ _ _ U V _ _ (TA_corners (i + 1) j ltac:(lia) ltac:(lia) Hj) N C); auto.
    + (* the right side *)
      destruct (Z.eq_dec i 0) as [->|Ni]; [right; right; exists j; auto|].
      left. destruct (Z.eq_dec (j + 1) sc) as [E|Nj].
      * apply (share a (TB i j) (TA i 0)); auto; [apply InA; lia|apply TA_TB; lia|].
        assert (Q := TA_corners i 0 ltac:(lia) ltac:(lia) ltac:(lia)). rewrite E, !Hwrap in C by lia.
        apply (u_pick _ _ _ _ U V _ _ Q N C); auto.
      * apply (share a (TB i j) (TA i (j + 1))); auto; [apply InA; lia|apply TA_TB; lia|].
        apply (u_pick _ _ _ _ U V _ _ (TA_corners i (j + 1) ltac:(lia) ltac:(lia) ltac:(lia)) N C); auto.
  - left. destruct (edge_of _ _ _ _ U V (TA_corners i j ltac:(lia) ltac:(lia) Hj) He) as (N & HU & HV).
    assert (NE : forall i' j', 0 <= j' < sc -> TB i' j' <> TA i j) by (intros i' j' ? Q; symmetry in Q; revert Q; apply TA_TB; lia).
    destruct (u_cases _ _ _ _ _ N HU HV) as [C|[C|C]].
    + destruct (Z.eq_dec j 0) as [->|Nj].
      * apply (share a (TA i 0) (TB i (sc - 1))); auto; [apply InB; lia|apply NE; lia|].
        assert (Q := TB_corners i (sc - 1) ltac:(lia) ltac:(lia) ltac:(lia)). replace (sc - 1 + 1) with sc in Q by lia. rewrite !Hwrap in Q by lia.
        apply (u_pick _ _ _ _ U V _ _ Q N C); auto.
      * apply (share a (TA i j) (TB i (j - 1))); auto; [apply InB; lia|apply NE; lia|].
        assert (Q := TB_corners i (j - 1) ltac:(lia) ltac:(lia) ltac:(lia)). replace (j - 1 + 1) with j in Q by lia.
        apply (u_pick _ _ _ _ U V _ _ Q N C); auto.
    + apply (share a (TA i j) (TB i j)); auto; [apply InB; lia|].
      apply (u_pick _ _ _ _ U V _ _ (TB_corners i j ltac:(lia) ltac:(lia) Hj) N C); auto.
    + apply (share a (TA i j) (TB (i - 1) j)); auto; [apply InB; lia|].
      assert (Q := TB_corners (i - 1) j ltac:(lia) ltac:(lia) Hj). replace (i - 1 + 1) with i in Q by lia.
      apply (u_pick _ _ _ _ U V _ _ Q N C); auto.
Qed.
(** when the first row is one point, its fan is closed *)
Lemma fan_shared a j U V : (forall j', 0 <= j' <= sc -> P 0 j' = P 0 0) -> nth_error (grid_tris sc st) a = Some (TB 0 j) -> 0 <= j < sc -> U <> V ->
  (uedge U V (P 0 (j + 1)) (P 1 j) \/ uedge U V (P 0 (j + 1)) (P 1 (j + 1))) -> shared pos (grid_tris sc st) a U V.
Proof.
  intros Pole Ea Hj N C.
  assert (InB : forall j, 0 <= j < sc -> In (TB 0 j) (grid_tris sc st)) by (intros k ?; apply tris_kind; auto; exists 0, k; split; [auto|left; split; [auto|lia]]).
  rewrite Pole in C by lia.
  assert (Nx : forall k, 0 <= k < sc -> k <> j -> TB 0 k <> TB 0 j) by (intros k Hk Nk E; apply TB_inj in E; lia).
  destruct C as [C|C].
  - destruct (Z.eq_dec j 0) as [->|Nj].
    + apply (share a (TB 0 0) (TB 0 (sc - 1))); auto; [apply InB; lia|apply Nx; lia|].
      assert (Q := TB_corners 0 (sc - 1) ltac:(lia) ltac:(lia) ltac:(lia)). replace (sc - 1 + 1) with sc in Q by lia. rewrite !Hwrap in Q by lia.
      apply (u_pick _ _ _ _ U V _ _ Q N C); auto.
    + apply (share a (TB 0 j) (TB 0 (j - 1))); auto; [apply InB; lia|apply Nx; lia|].
      assert (Q := TB_corners 0 (j - 1) ltac:(lia) ltac:(lia) ltac:(lia)). replace (j - 1 + 1) with j in Q by lia. rewrite Pole in Q by lia.
      apply (u_pick _ _ _ _ U V _ _ Q N C); auto.
  - destruct (Z.eq_dec (j + 1) sc) as [E|Nj].
    + apply (share a (TB 0 j) (TB 0 0)); auto; [apply InB; lia|apply Nx; lia|].
      assert (Q := TB_corners 0 0 ltac:(lia) ltac:(lia) ltac:(lia)). rewrite Pole in Q by lia. rewrite E, Hwrap in C by lia.
      apply (u_pick _ _ _ _ U V _ _ Q N C); auto.
    + apply (share a (TB 0 j) (TB 0 (j + 1))); auto; [apply InB; lia|apply Nx; lia|].
      assert (Q := TB_corners 0 (j + 1) ltac:(lia) ltac:(lia) ltac:(lia)). rewrite Pole in Q by lia.
      apply (u_pick _ _ _ _ U V _ _ Q N C); auto.
Qed.

(** ** edges on one triangle only *)
Definition ring (i : Z) (U : rv) : Prop := exists j, 0 <= j <= sc /\ U = P i j.
Lemma corner_ring t U V : In t (grid_tris sc st) -> has_edge pos t U V -> (exists i, 0 <= i < st /\ ring i U) /\ (exists i, 0 <= i < st /\ ring i V).
Proof.
  intros Ht He. apply tris_kind in Ht; [|auto]. unfold ring.
  destruct Ht as (i & j & Hj & [[-> Hi]|[-> Hi]]).
  - destruct (edge_of _ _ _ _ U V (TB_corners i j ltac:(lia) ltac:(lia) Hj) He) as (_ & HU & HV).
    split; [destruct HU as [->|[->| ->]]|destruct HV as [->|[->| ->]]];
      first [exists i; split; [lia|]; exists (j + 1); split; [lia|reflexivity] | exists (i + 1); split; [lia|]; exists j; split; [lia|reflexivity]
        | exists (i + 1); split; [lia|]; exists (j + 1); split; [lia|reflexivity]].
  - destruct (edge_of _ _ _ _ U V (TA_corners i j ltac:(lia) ltac:(lia) Hj) He) as (_ & HU & HV).
    split; [destruct HU as [->|[->| ->]]|destruct HV as [->|[->| ->]]];
      first [exists i; split; [lia|]; exists j; split; [lia|reflexivity] | exists i; split; [lia|]; exists (j + 1); split; [lia|reflexivity]
        | exists (i + 1); split; [lia|]; exists j; split; [lia|reflexivity]].
Qed.
Lemma nth_once a b t : nth_error (grid_tris sc st) a = Some t -> nth_error (grid_tris sc st) b = Some t -> b = a.
Proof.
  intros Ea Eb. pose proof (grid_tris_NoDup sc st ltac:(lia)) as ND. rewrite NoDup_nth_error in ND.
  symmetry. apply ND; [apply nth_error_Some; congruence|congruence].
Qed.
Section Bottom.
Hypothesis Hsc3 : 3 <= sc.
Hypothesis Hrow : forall i j j', 0 <= i < st -> 0 <= j <= sc -> 0 <= j' <= sc -> P i j = P (st - 1) j' -> i = st - 1.
Hypothesis Hcol : forall j j', 0 <= j <= sc -> 0 <= j' <= sc -> P (st - 1) j = P (st - 1) j' -> j = j' \/ Z.abs (j - j') = sc.
Lemma bottom_tri t U V : In t (grid_tris sc st) -> has_edge pos t U V -> ring (st - 1) U -> ring (st - 1) V ->
  exists j, 0 <= j < sc /\ t = TB (st - 2) j /\ uedge U V (P (st - 1) j) (P (st - 1) (j + 1)).
Proof.
  intros Ht He (x & Hx & EU) (y & Hy & EV). apply tris_kind in Ht; [|auto].
  assert (R : forall i j W, 0 <= i < st -> 0 <= j <= sc -> (W = U \/ W = V) -> W = P i j -> i = st - 1).
  { intros i j W Hi Hj [-> | ->] E; [apply (Hrow i j x)|apply (Hrow i j y)]; auto; congruence. }
  destruct Ht as (i & j & Hj & [[-> Hi]|[-> Hi]]).
  - destruct (edge_of _ _ _ _ U V (TB_corners i j ltac:(lia) ltac:(lia) Hj) He) as (N & HU & HV).
    exists j. split; [auto|].
    assert (i + 1 = st - 1).
    { destruct HU as [E|[E|E]]; [|apply (R (i + 1) j U); auto; lia|apply (R (i + 1) (j + 1) U); auto; lia].
      destruct HV as [E'|[E'|E']]; [congruence|apply (R (i + 1) j V); auto; lia|apply (R (i + 1) (j + 1) V); auto; lia]. }
    replace (st - 2) with i by lia. split; [auto|]. replace (st - 1) with (i + 1) by lia.
    assert (NU : U <> P i (j + 1)) by (intros E; assert (i = st - 1) by (apply (R i (j + 1) U); auto; lia); lia).
    assert (NV : V <> P i (j + 1)) by (intros E; assert (i = st - 1) by (apply (R i (j + 1) V); auto; lia); lia).
    unfold uedge. destruct HU as [E|[E|E]]; [contradiction| |]; destruct HV as [E'|[E'|E']]; try contradiction; auto; exfalso; congruence.
  - exfalso. destruct (edge_of _ _ _ _ U V (TA_corners i j ltac:(lia) ltac:(lia) Hj) He) as (N & HU & HV).
    assert (NU : U = P (i + 1) j).
    { destruct HU as [E|[E|E]]; auto; exfalso; [assert (i = st - 1) by (apply (R i j U); auto; lia); lia|assert (i = st - 1) by (apply (R i (j + 1) U); auto; lia); lia]. }
    assert (NV : V = P (i + 1) j).
    { destruct HV as [E|[E|E]]; auto; exfalso; [assert (i = st - 1) by (apply (R i j V); auto; lia); lia|assert (i = st - 1) by (apply (R i (j + 1) V); auto; lia); lia]. }
    congruence.
Qed.
Lemma bottom_unshared a t U V : nth_error (grid_tris sc st) a = Some t -> has_edge pos t U V -> ring (st - 1) U -> ring (st - 1) V ->
  ~ shared pos (grid_tris sc st) a U V.
Proof.
  intros Ea He RU RV_ (b & t' & Nb & Eb & He').
  destruct (bottom_tri t U V (nth_error_In _ _ Ea) He RU RV_) as (j & Hj & -> & C).
  destruct (bottom_tri t' U V (nth_error_In _ _ Eb) He' RU RV_) as (j' & Hj' & -> & C').
  assert (j = j').
  { destruct C as [[U1 V1]|[U1 V1]], C' as [[U2 V2]|[U2 V2]]; rewrite U1 in U2; rewrite V1 in V2; apply Hcol in U2; try lia; apply Hcol in V2; lia. }
  subst j'. apply Nb. apply (nth_once a b _ Ea Eb).
Qed.
End Bottom.
Section Top.
Hypothesis HrowT : forall i j j', 0 <= i < st -> 0 <= j <= sc -> 0 <= j' <= sc -> P i j = P 0 j' -> i = 0.
Hypothesis HcolT : forall j j', 0 <= j <= sc -> 0 <= j' <= sc -> P 0 j = P 0 j' -> j = j' \/ Z.abs (j - j') = sc.
Lemma top_tri t U V : In t (grid_tris sc st) -> has_edge pos t U V -> ring 0 U -> exists j, 0 <= j < sc /\ t = TB 0 j /\ U = P 0 (j + 1).
Proof.
  intros Ht He (x & Hx & EU). apply tris_kind in Ht; [|auto].
  assert (R : forall i j, 0 <= i < st -> 0 <= j <= sc -> U = P i j -> i = 0) by (intros i j Hi Hj E; apply (HrowT i j x); auto; congruence).
  destruct Ht as (i & j & Hj & [[-> Hi]|[-> Hi]]).
  - destruct (edge_of _ _ _ _ U V (TB_corners i j ltac:(lia) ltac:(lia) Hj) He) as (_ & HU & _). exists j. split; [auto|].
    destruct HU as [E|[E|E]].
    + assert (i = 0) by (apply (R i (j + 1)); auto; lia). subst i. auto.
    + assert (i + 1 = 0) by (apply (R (i + 1) j); auto; lia). lia.
    + assert (i + 1 = 0) by (apply (R (i + 1) (j + 1)); auto; lia). lia.
  - exfalso. destruct (edge_of _ _ _ _ U V (TA_corners i j ltac:(lia) ltac:(lia) Hj) He) as (_ & HU & _).
    destruct HU as [E|[E|E]].
    + assert (i = 0) by (apply (R i j); auto; lia). lia.
    + assert (i + 1 = 0) by (apply (R (i + 1) j); auto; lia). lia.
    + assert (i = 0) by (apply (R i (j + 1)); auto; lia). lia.
Qed.
Lemma top_unshared a t U V : nth_error (grid_tris sc st) a = Some t -> has_edge pos t U V -> ring 0 U -> ~ shared pos (grid_tris sc st) a U V.
Proof.
  intros Ea He RU (b & t' & Nb & Eb & He').
  destruct (top_tri t U V (nth_error_In _ _ Ea) He RU) as (j & Hj & -> & E).
  destruct (top_tri t' U V (nth_error_In _ _ Eb) He' RU) as (j' & Hj' & -> & E').
  assert (j = j') by (rewrite E in E'; apply HcolT in E'; lia). subst j'. apply Nb. apply (nth_once a b _ Ea Eb).
Qed.
End Top.
End Grid.
Lemma has_edge_sym pos t U V : has_edge pos t U V -> has_edge pos t V U.
Proof. intros (N & A & B). split; auto. Qed.
Lemma shared_sym pos tris a U V : shared pos tris a U V -> shared pos tris a V U.
Proof. intros (b & t & N & E & H). exists b, t. split; [auto|]. split; [auto|]. apply has_edge_sym, H. Qed.

(** * Geometry *)
Open Scope R_scope.
Definition svec (r u v : R) : rv := RV (r * cos u * cos v) (r * cos u * sin v) (r * sin u).
Definition tvec (R0 r u v : R) : rv := RV ((R0 + r * cos u) * cos v) ((R0 + r * cos u) * sin v) (r * sin u).
Definition vang (sc j : Z) : R := IZR j * (2 * PI / IZR sc).
Lemma sph_svec r sc st i j : sph_pos r sc st i j = svec r (sph_angle st i) (vang sc j).
Proof. reflexivity. Qed.
Lemma tor_tvec R0 r sc st i j : tor_pos R0 r sc st i j = tvec R0 r (tor_angle st i) (vang sc j).
Proof. reflexivity. Qed.
Lemma det_A r u1 u2 v1 v2 : det3 (svec r u1 v1) (svec r u2 v1) (svec r u1 v2) = r * r * r * (cos u1 * sin (v2 - v1) * sin (u1 - u2)).
Proof. rewrite !sin_minus. unfold det3, svec. cbn [rx ry rz]. ring. Qed.
Lemma det_B r u1 u2 v1 v2 : det3 (svec r u1 v2) (svec r u2 v1) (svec r u2 v2) = r * r * r * (cos u2 * sin (v2 - v1) * sin (u1 - u2)).
Proof. rewrite !sin_minus. unfold det3, svec. cbn [rx ry rz]. ring. Qed.
Lemma out_t R0 r u v : 0 < R0 + r * cos u -> torus_out R0 (tvec R0 r u v) = RV (r * cos u * cos v) (r * cos u * sin v) (r * sin u).
Proof.
  intros H. unfold torus_out, tvec. cbn [rx ry rz].
  assert (E : (R0 + r * cos u) * cos v * ((R0 + r * cos u) * cos v) + (R0 + r * cos u) * sin v * ((R0 + r * cos u) * sin v) = (R0 + r * cos u) * (R0 + r * cos u)).
  { pose proof (cs1 v) as C. transitivity ((R0 + r * cos u) * (R0 + r * cos u) * (cos v * cos v + sin v * sin v)); [ring|rewrite C; ring]. }
  rewrite E, sqrt_square by lra. f_equal; field; lra.
Qed.
Definition tout (r u v : R) : rv := RV (r * cos u * cos v) (r * cos u * sin v) (r * sin u).
Lemma tor_A R0 r u1 u2 v1 v2 :
  let n := tri_normal (tvec R0 r u1 v1) (tvec R0 r u2 v1) (tvec R0 r u1 v2) in
  let k := r * r * ((R0 + r * cos u1) * sin (v2 - v1) * sin (u1 - u2)) in
  rdot n (tout r u1 v1) = k /\ rdot n (tout r u2 v1) = k /\ rdot n (tout r u1 v2) = k.
Proof. cbv zeta. rewrite !sin_minus. unfold rdot, tri_normal, tvec, tout, rsub. cbn [rx ry rz]. repeat split; ring. Qed.
Lemma tor_B R0 r u1 u2 v1 v2 :
  let n := tri_normal (tvec R0 r u1 v2) (tvec R0 r u2 v1) (tvec R0 r u2 v2) in
  let k := r * r * ((R0 + r * cos u2) * sin (v2 - v1) * sin (u1 - u2)) in
  rdot n (tout r u1 v2) = k /\ rdot n (tout r u2 v1) = k /\ rdot n (tout r u2 v2) = k.
Proof. cbv zeta. rewrite !sin_minus. unfold rdot, tri_normal, tvec, tout, rsub. cbn [rx ry rz]. repeat split; ring. Qed.

Lemma sin_sector sc j : (3 <= sc)%Z -> 0 < sin (vang sc (j + 1) - vang sc j).
Proof.
  intros H. assert (3 <= IZR sc) by (apply (IZR_le 3); lia). pose proof PI_RGT_0.
  replace (vang sc (j + 1) - vang sc j) with (2 * PI / IZR sc) by (unfold vang; rewrite plus_IZR; ring).
  apply sin_gt_0; [apply Rdiv_lt_0_compat; lra|]. apply (Rmult_lt_reg_r (IZR sc)); [lra|]. unfold Rdiv. rewrite Rmult_assoc, Rinv_l by lra.
  pose proof (Rmult_le_compat_l PI 3 (IZR sc) ltac:(lra) ltac:(lra)). lra.
Qed.
Lemma sin_sph st i : (2 <= st)%Z -> 0 < sin (sph_angle st i - sph_angle st (i + 1)).
Proof.
  intros H. assert (2 <= IZR st) by (apply (IZR_le 2); lia). pose proof PI_RGT_0.
  replace (sph_angle st i - sph_angle st (i + 1)) with (PI / IZR st) by (unfold sph_angle; rewrite plus_IZR; ring).
  apply sin_gt_0; [apply Rdiv_lt_0_compat; lra|]. apply (Rmult_lt_reg_r (IZR st)); [lra|]. unfold Rdiv. rewrite Rmult_assoc, Rinv_l by lra.
  pose proof (Rmult_le_compat_l PI 2 (IZR st) ltac:(lra) ltac:(lra)). lra.
Qed.
Lemma sin_tor st i : (3 <= st)%Z -> 0 < sin (tor_angle st i - tor_angle st (i + 1)).
Proof.
  intros H. replace (tor_angle st i - tor_angle st (i + 1)) with (vang st (i + 1) - vang st i) by (unfold tor_angle, vang; ring).
  apply sin_sector. auto.
Qed.
Lemma cos_sph st i : (1 <= i < st)%Z -> 0 < cos (sph_angle st i).
Proof.
  intros H. unfold sph_angle. rewrite cos_shift. pose proof (frac_range i st ltac:(lia)) as F.
  apply sin_gt_0; [|lra]. pose proof PI_RGT_0. assert (0 < IZR st) by (apply IZR_lt; lia). assert (0 < IZR i) by (apply IZR_lt; lia).
  apply Rmult_lt_0_compat; [lra|]. apply Rmult_lt_0_compat; [lra|now apply Rinv_0_lt_compat].
Qed.
Lemma rho_pos R0 r u : 0 < r < R0 -> 0 < R0 + r * cos u.
Proof. intros H. pose proof (COS_bound u) as [B _]. pose proof (Rmult_le_compat_l r _ _ ltac:(lra) B). lra. Qed.
Lemma vang_wrap sc : (1 <= sc)%Z -> cos (vang sc sc) = 1 /\ sin (vang sc sc) = 0.
Proof.
  intros H. assert (0 < IZR sc) by (apply IZR_lt; lia). replace (vang sc sc) with (2 * PI) by (unfold vang; field; lra). split; [apply cos_2PI|apply sin_2PI].
Qed.
Lemma vang_0 sc : vang sc 0 = 0.
Proof. unfold vang. ring. Qed.
