(** Index validity of triangulate2, in every arithmetic and for every sort function: whatever Triangulate returns
    can be indexed, and Validate does not panic on it. *)
From Coq Require Import ZArith Lia List Bool.
From Verif Require Import Base Arith GoLoop M_r3 M_tri2 M_triangulator.
Import ListNotations.
Open Scope Z_scope.

Lemma bind_ok {X Y} (m : res X) (f : X -> res Y) y : rbind m f = Ok y -> exists x, m = Ok x /\ f x = Ok y.
Proof. destruct m; simpl; intros H; try discriminate. eauto. Qed.
Ltac bok H x E := apply bind_ok in H; destruct H as (x & E & H).

Lemma zget_rng {X} (l : list X) i x : zget l i = Ok x -> 0 <= i < Z.of_nat (length l) /\ In x l.
Proof.
  intros H. apply zget_ok in H. destruct H as [H1 H2]. split; [|eapply nth_error_In; eauto].
  assert (Z.to_nat i < length l)%nat by (apply nth_error_Some; congruence). lia.
Qed.
Lemma zget_P {X} (P : X -> Prop) l i x : zget l i = Ok x -> Forall P l -> P x.
Proof. intros H F. rewrite Forall_forall in F. apply F. apply (zget_rng _ _ _ H). Qed.
Lemma upd_P {X} (P : X -> Prop) l n x : Forall P l -> P x -> Forall P (list_upd l n x).
Proof. intros F Px. revert n. induction F as [|y l Hy F IH]; intros [|n]; simpl; constructor; auto. Qed.
Lemma zset_P {X} (P : X -> Prop) l i x l' : zset l i x = Ok l' -> P x -> Forall P l -> Forall P l' /\ length l' = length l /\ 0 <= i < Z.of_nat (length l).
Proof.
  unfold zset. destruct (Z.ltb_spec i 0); [discriminate|]. destruct (Nat.ltb_spec (Z.to_nat i) (length l)); [|discriminate].
  intros [= <-] Px F. split; [apply upd_P; auto|]. split; [apply list_upd_length|lia].
Qed.

(** ** the invariant: [n] points, [M] entries used *)
Record inv (n M : Z) (s : tri) : Prop := {
  iv_tri : Forall (fun k => 0 <= k < n) (triangles s);
  iv_he : Forall (fun k => -1 <= k < M) (halfedges s);
  iv_nT : Forall (fun v => 0 <= nT v < M) (nodes s);
  iv_len : length (halfedges s) = length (triangles s) }.
(** M is the number of used entries, a multiple of three *)
Definition full (n : Z) (s : tri) : Prop := inv n (trianglesLen s) s /\ (exists q, trianglesLen s = 3 * q /\ 1 <= q) /\ trianglesLen s <= Z.of_nat (length (triangles s)) /\ Z.of_nat (length (triangles s)) = (2 * n - 5) * 3.
(** what an operation on nodes leaves alone *)
Definition keeps (s s' : tri) : Prop := triangles s' = triangles s /\ halfedges s' = halfedges s /\ trianglesLen s' = trianglesLen s.

Lemma updN_inv n M s k f s' : updN s k f = Ok s' -> (forall v, 0 <= nT v < M -> 0 <= nT (f v) < M) -> inv n M s -> inv n M s' /\ keeps s s'.
Proof.
  intros H Hf [I1 I2 I3 I4]. unfold updN in H. bok H v E. bok H ns E'. injection H as <-.
  destruct (zset_P _ _ _ _ _ E' (Hf v (zget_P _ _ _ _ E I3)) I3) as [F _]. split; [constructor; auto|repeat split].
Qed.
Ltac nt := intros v Hv; destruct v; simpl in *; lia.
Lemma keeps_refl s : keeps s s. Proof. repeat split. Qed.
Lemma keeps_trans a b c : keeps a b -> keeps b c -> keeps a c.
Proof. intros (A1 & A2 & A3) (B1 & B2 & B3). repeat split; congruence. Qed.
Lemma newNode_inv n M s i pr s' : newNode s i pr = Ok s' -> inv n M s -> inv n M s' /\ keeps s s'.
Proof.
  intros H I. unfold newNode in H. bok H s1 E1. destruct (updN_inv n M _ _ _ _ E1 ltac:(nt) I) as [I1 K1]. destruct pr as [pr|].
  - bok H np E2. bok H s2 E3. destruct (updN_inv n M _ _ _ _ E3 ltac:(nt) I1) as [I2 K2]. bok H s3 E4.
    destruct (updN_inv n M _ _ _ _ E4 ltac:(nt) I2) as [I3 K3]. bok H nx E5. bok H s4 E6. destruct (updN_inv n M _ _ _ _ E6 ltac:(nt) I3) as [I4 K4].
    destruct (updN_inv n M _ _ _ _ H ltac:(nt) I4) as [I5 K5]. split; [exact I5|]. eauto using keeps_trans.
  - bok H s2 E2. destruct (updN_inv n M _ _ _ _ E2 ltac:(nt) I1) as [I2 K2]. destruct (updN_inv n M _ _ _ _ H ltac:(nt) I2) as [I3 K3].
    split; [exact I3|]. eauto using keeps_trans.
Qed.
Lemma remove_inv n M s k s' r : remove s k = Ok (s', r) -> inv n M s -> inv n M s' /\ keeps s s'.
Proof.
  intros H I. unfold remove in H. bok H nn E1. bok H pr E2. bok H s1 E3. destruct (updN_inv n M _ _ _ _ E3 ltac:(nt) I) as [I1 K1].
  bok H nn' E4. bok H nx E5. bok H s2 E6. destruct (updN_inv n M _ _ _ _ E6 ltac:(nt) I1) as [I2 K2].
  bok H s3 E7. destruct (updN_inv n M _ _ _ _ E7 ltac:(nt) I2) as [I3 K3]. bok H pr' E8. injection H as <- _. split; [exact I3|]. eauto using keeps_trans.
Qed.
Lemma fixHull_inv n M fuel : forall s h e bl a s', fixHull fuel s h e bl a = Ok s' -> 0 <= a < M -> inv n M s -> inv n M s' /\ keeps s s'.
Proof.
  induction fuel as [|fuel IH]; intros s h e bl a s' H Ha I; [discriminate|]. cbn [fixHull] in H. bok H v E. destruct (nT v =? bl).
  - apply (updN_inv n M) in H; auto.
  - bok H e' E'. destruct (e' =? h); [injection H as <-; split; [exact I|apply keeps_refl]|]. eapply IH; eauto.
Qed.

(** link and addTriangle *)
Definition keepsT (s s' : tri) : Prop := trianglesLen s' = trianglesLen s /\ length (triangles s') = length (triangles s).
Lemma keeps_T s s' : keeps s s' -> keepsT s s'. Proof. intros (H1 & _ & H3). split; congruence. Qed.
Lemma keepsT_trans a b c : keepsT a b -> keepsT b c -> keepsT a c. Proof. intros [H1 H2] [H3 H4]. split; congruence. Qed.
Lemma link_inv n M s a b s' : link s a b = Ok s' -> 0 <= a < M -> -1 <= b < M -> inv n M s -> inv n M s' /\ triangles s' = triangles s /\ trianglesLen s' = trianglesLen s.
Proof.
  intros H Ha Hb [I1 I2 I3 I4]. unfold link in H. bok H h E. destruct (zset_P _ _ _ _ _ E Hb I2) as (F & L & _). destruct (Z.leb_spec 0 b).
  - bok H h' E'. injection H as <-. destruct (zset_P _ _ _ _ _ E' (ltac:(lia) : -1 <= a < M) F) as (F' & L' & _).
    split; [constructor; simpl; auto; congruence|split; reflexivity].
  - injection H as <-. split; [constructor; simpl; auto; congruence|split; reflexivity].
Qed.
Lemma inv_mono n M M' s : M <= M' -> inv n M s -> inv n M' s.
Proof. intros L [I1 I2 I3 I4]. constructor; auto; eapply Forall_impl; eauto; simpl; intros; lia. Qed.
Lemma addTriangle_inv n M s i0 i1 i2 a b c s' t : addTriangle s i0 i1 i2 a b c = Ok (s', t) ->
  0 <= i0 < n -> 0 <= i1 < n -> 0 <= i2 < n -> 0 <= trianglesLen s -> trianglesLen s + 3 <= M -> -1 <= a < M -> -1 <= b < M -> -1 <= c < M -> inv n M s ->
  inv n M s' /\ t = trianglesLen s /\ trianglesLen s' = trianglesLen s + 3 /\ trianglesLen s' <= Z.of_nat (length (triangles s')) /\
  length (triangles s') = length (triangles s).
Proof.
  intros H H0 H1 H2 L LM Ha Hb Hc [I1 I2 I3 I4]. unfold addTriangle in H. bok H t1 E1. bok H t2 E2. bok H t3 E3.
  destruct (zset_P _ _ _ _ _ E1 H0 I1) as (F1 & L1 & _). destruct (zset_P _ _ _ _ _ E2 H1 F1) as (F2 & L2 & _). destruct (zset_P _ _ _ _ _ E3 H2 F2) as (F3 & L3 & R3).
  assert (J : inv n M (withTriangles t3 s)) by (constructor; simpl; auto; congruence).
  bok H s1 E4. destruct (link_inv n M _ _ _ _ E4 ltac:(lia) Ha J) as (J1 & T1 & U1).
  bok H s2 E5. destruct (link_inv n M _ _ _ _ E5 ltac:(lia) Hb J1) as (J2 & T2 & U2).
  bok H s3 E6. destruct (link_inv n M _ _ _ _ E6 ltac:(lia) Hc J2) as (J3 & T3 & U3).
  injection H as <- <-. simpl in *. destruct J3 as [A1 A2 A3 A4].
  split; [constructor; simpl; auto|]. split; [reflexivity|]. rewrite U3, U2, U1. split; [reflexivity|]. rewrite T3, T2, T1. split; [lia|congruence].
Qed.
Lemma corner a q k : 0 <= a < 3 * q -> 0 <= a - Z.rem a 3 + Z.rem (a + k) 3 < 3 * q \/ ~ 0 <= k.
Proof.
  intros H. destruct (Z_le_gt_dec 0 k) as [K|K]; [left|right; lia]. rewrite !Z.rem_mod_nonneg by lia.
  pose proof (Z.mod_pos_bound a 3 ltac:(lia)). pose proof (Z.mod_pos_bound (a + k) 3 ltac:(lia)). pose proof (Z.div_mod a 3 ltac:(lia)).
  assert (a / 3 < q) by (apply Z.div_lt_upper_bound; lia). lia.
Qed.

Section Any.
Context {A : Arith}.
Variable vs : list (vec A).
Notation n := (Z.of_nat (length vs)).

Lemma legalize_inv q fuel : forall s a s' r, legalize vs fuel s a = Ok (s', r) -> 0 <= a < 3 * q -> inv n (3 * q) s ->
  inv n (3 * q) s' /\ keepsT s s' /\ 0 <= r < 3 * q.
Proof.
  induction fuel as [|fuel IH]; intros s a s' r H Ha I; [discriminate|]. cbn [legalize] in H. cbv zeta in H. bok H b Eb.
  pose proof (zget_P _ _ _ _ Eb (iv_he _ _ _ I)) as Hb. cbv beta in Hb.
  assert (Har : 0 <= a - Z.rem a 3 + Z.rem (a + 2) 3 < 3 * q) by (destruct (corner a q 2 Ha); lia).
  destruct (Z.ltb_spec b 0) as [Nb|Nb]. { injection H as <- <-. split; [exact I|]. split; [split; reflexivity|exact Har]. }
  assert (Hb' : 0 <= b < 3 * q) by lia.
  assert (Hbl : 0 <= b - Z.rem b 3 + Z.rem (b + 2) 3 < 3 * q) by (destruct (corner b q 2 Hb'); lia).
  assert (Hbr : 0 <= b - Z.rem b 3 + Z.rem (b + 1) 3 < 3 * q) by (destruct (corner b q 1 Hb'); lia).
  bok H p0 E0. bok H pr Er. bok H pl El. bok H p1 E1. bok H v0 F0. bok H vr Fr. bok H vl Fl. bok H v1 F1.
  destruct (inCircle v0 vr vl v1).
  2:{ injection H as <- <-. split; [exact I|]. split; [split; reflexivity|exact Har]. }
  destruct I as [I1 I2 I3 I4].
  bok H t1 G1. bok H t2 G2. destruct (zset_P _ _ _ _ _ G1 (zget_P _ _ _ _ E1 I1) I1) as (P1 & L1 & _).
  destruct (zset_P _ _ _ _ _ G2 (zget_P _ _ _ _ E0 I1) P1) as (P2 & L2 & _).
  assert (J : inv n (3 * q) (withTriangles t2 s)) by (constructor; simpl; auto; congruence).
  assert (K0 : keepsT s (withTriangles t2 s)) by (split; simpl; congruence).
  bok H hbl G3. bok H s1 G4.
  assert (J1 : inv n (3 * q) s1 /\ keepsT (withTriangles t2 s) s1).
  { destruct (hbl =? -1).
    - bok G4 h G5. apply (fixHull_inv n (3 * q)) in G4; auto. destruct G4 as [X Y]. split; [exact X|apply keeps_T, Y].
    - injection G4 as <-. split; [exact J|split; reflexivity]. }
  destruct J1 as [J1 K1]. bok H hbl' G5. pose proof (zget_P _ _ _ _ G5 (iv_he _ _ _ J1)) as Hh1. cbv beta in Hh1.
  bok H s2 G6. destruct (link_inv n (3 * q) _ _ _ _ G6 Ha Hh1 J1) as (J2 & T2 & U2).
  bok H har G7. pose proof (zget_P _ _ _ _ G7 (iv_he _ _ _ J2)) as Hh2. cbv beta in Hh2.
  bok H s3 G8. destruct (link_inv n (3 * q) _ _ _ _ G8 Hb' Hh2 J2) as (J3 & T3 & U3).
  bok H s4 G9. destruct (link_inv n (3 * q) _ _ _ _ G9 Har (ltac:(lia) : -1 <= b - Z.rem b 3 + Z.rem (b + 2) 3 < 3 * q) J3) as (J4 & T4 & U4).
  bok H sr G10. destruct sr as [s5 r5]. destruct (IH _ _ _ _ G10 Ha J4) as (J5 & K5 & _). destruct (IH _ _ _ _ H Hbr J5) as (J6 & K6 & R6).
  split; [exact J6|]. split; [|exact R6].
  assert (K4 : keepsT s1 s4) by (split; congruence). eauto using keepsT_trans.
Qed.
Lemma legalize_full s a s' r fuel : legalize vs fuel s a = Ok (s', r) -> 0 <= a < trianglesLen s -> full n s -> full n s' /\ 0 <= r < trianglesLen s' /\ keepsT s s'.
Proof.
  intros H Ha (I & (q & Q & Q1) & L). rewrite Q in *. destruct (legalize_inv q fuel s a s' r H Ha I) as (I' & [K1 K2] & R).
  split; [|split; [lia|split; auto]]. unfold full. rewrite K1, K2, Q. split; [exact I'|]. split; [exists q; auto|lia].
Qed.
Lemma full_keeps s s' : keeps s s' -> inv n (trianglesLen s) s' -> full n s -> full n s'.
Proof. intros (K1 & K2 & K3) I (_ & Q & L). unfold full. rewrite K3. rewrite K1. auto. Qed.
Lemma updN_full s k f s' : updN s k f = Ok s' -> (forall v, 0 <= nT v < trianglesLen s -> 0 <= nT (f v) < trianglesLen s) -> full n s -> full n s' /\ keeps s s'.
Proof. intros H Hf F. destruct (updN_inv n (trianglesLen s) _ _ _ _ H Hf (proj1 F)) as [I K]. split; [eapply full_keeps; eauto|exact K]. Qed.
Lemma newNode_full s i pr s' : newNode s i pr = Ok s' -> full n s -> full n s' /\ keeps s s'.
Proof. intros H F. destruct (newNode_inv n (trianglesLen s) _ _ _ _ H (proj1 F)) as [I K]. split; [eapply full_keeps; eauto|exact K]. Qed.
Lemma remove_full s k s' r : remove s k = Ok (s', r) -> full n s -> full n s' /\ keeps s s'.
Proof. intros H F. destruct (remove_inv n (trianglesLen s) _ _ _ _ H (proj1 F)) as [I K]. split; [eapply full_keeps; eauto|exact K]. Qed.
Lemma addTriangle_full s i0 i1 i2 a b c s' t : addTriangle s i0 i1 i2 a b c = Ok (s', t) ->
  0 <= i0 < n -> 0 <= i1 < n -> 0 <= i2 < n -> -1 <= a < trianglesLen s -> -1 <= b < trianglesLen s -> -1 <= c < trianglesLen s -> full n s ->
  full n s' /\ t = trianglesLen s /\ trianglesLen s' = trianglesLen s + 3.
Proof.
  intros H H0 H1 H2 Ha Hb Hc (I & (q & Q & Q1) & L).
  destruct (addTriangle_inv n (trianglesLen s + 3) s i0 i1 i2 a b c s' t H H0 H1 H2 ltac:(lia) ltac:(lia) ltac:(lia) ltac:(lia) ltac:(lia) (inv_mono n (trianglesLen s) (trianglesLen s + 3) s ltac:(lia) I)) as (I' & -> & T & L' & LL).
  split; [|split; [reflexivity|exact T]]. unfold full. rewrite T in *. split; [exact I'|]. split; [exists (q + 1); lia|rewrite LL in *; split; [exact L'|apply L]].
Qed.

(** the nodes read by areaN belong to points *)
Lemma areaN_rng s p a b r : areaN vs s p a b = Ok r -> exists na nb, getN s a = Ok na /\ getN s b = Ok nb /\ 0 <= nI na < n /\ 0 <= nI nb < n.
Proof.
  intros H. unfold areaN in H. bok H na E1. bok H va E2. bok H nb E3. bok H vb E4. exists na, nb. repeat (split; [assumption|]).
  split; [apply (zget_rng _ _ _ E2)|apply (zget_rng _ _ _ E4)].
Qed.
Lemma getN_T s k v : getN s k = Ok v -> full n s -> 0 <= nT v < trianglesLen s.
Proof. intros H F. apply (zget_P (fun v => 0 <= nT v < trianglesLen s) _ _ _ H). apply (proj1 F). Qed.
Lemma findVisible_rng fuel : forall s p start e e', findVisible vs fuel s p start e = Ok (Some e') ->
  exists ne a b, next_of s e' = Ok ne /\ getN s e' = Ok a /\ getN s ne = Ok b /\ 0 <= nI a < n /\ 0 <= nI b < n.
Proof.
  induction fuel as [|fuel IH]; intros s p start e e' H; [discriminate|]. cbn [findVisible] in H. bok H e1 E1. bok H ar E2.
  destruct (fle A (fofZ A 0) ar).
  - destruct (e1 =? start); [discriminate|]. eapply IH; eauto.
  - injection H as <-. apply areaN_rng in E2. destruct E2 as (a & b & E3 & E4 & R1 & R2). exists e1, a, b. repeat (split; [assumption|]). assumption.
Qed.
Lemma hashEdge_full center s e s' : hashEdge vs center s e = Ok s' -> full n s -> full n s'.
Proof. intros H F. unfold hashEdge in H. bok H v E. bok H w E'. bok H h E''. injection H as <-. destruct F as ([I1 I2 I3 I4] & Q & L). split; [constructor; auto|auto]. Qed.
Lemma withHull_full h s : full n s -> full n (withHull h s). Proof. intros ([I1 I2 I3 I4] & Q & L). split; [constructor; auto|auto]. Qed.
Lemma walkForward_full fuel : forall s p i q s', walkForward vs fuel s p i q = Ok s' -> 0 <= i < n -> full n s -> full n s'.
Proof.
  induction fuel as [|fuel IH]; intros s p i q s' H Hi F; [discriminate|]. cbn [walkForward] in H. bok H nq E1. bok H ar E2.
  destruct (flt A ar (fofZ A 0)); [|injection H as <-; exact F].
  apply areaN_rng in E2. destruct E2 as (a & b & Ea & Eb & Ra & Rb). rewrite Ea, Eb in H. cbn [rbind] in H. bok H pr Ep. bok H np Enp.
  pose proof (getN_T _ _ _ Ea F) as Ta. pose proof (getN_T _ _ _ Enp F) as Tp.
  bok H st Et. destruct st as [s1 t]. destruct (addTriangle_full _ _ _ _ _ _ _ _ _ Et Ra Hi Rb ltac:(lia) ltac:(lia) ltac:(lia) F) as (F1 & -> & T1).
  bok H sr Er. destruct sr as [s2 r]. destruct (legalize_full _ _ _ _ _ Er ltac:(lia) F1) as (F2 & R2 & K2).
  bok H s3 Es. assert (HT : forall v, 0 <= nT v < trianglesLen s2 -> 0 <= nT (setT r v) < trianglesLen s2) by (intros v Hv; destruct v; simpl in *; lia).
  destruct (updN_full _ _ _ _ Es HT F2) as [F3 _].
  bok H sp Er'. destruct sp as [s4 pr']. destruct (remove_full _ _ _ _ Er' F3) as [F4 _]. bok H q' Eqq. eapply IH; eauto using withHull_full.
Qed.
Lemma walkBackward_full fuel : forall s p i q s', walkBackward vs fuel s p i q = Ok s' -> 0 <= i < n -> full n s -> full n s'.
Proof.
  induction fuel as [|fuel IH]; intros s p i q s' H Hi F; [discriminate|]. cbn [walkBackward] in H. bok H pq E1. bok H ar E2.
  destruct (flt A ar (fofZ A 0)); [|injection H as <-; exact F].
  apply areaN_rng in E2. destruct E2 as (a & b & Ea & Eb & Ra & Rb). rewrite Ea, Eb in H. cbn [rbind] in H.
  pose proof (getN_T _ _ _ Ea F) as Ta. pose proof (getN_T _ _ _ Eb F) as Tb.
  bok H st Et. destruct st as [s1 t]. destruct (addTriangle_full _ _ _ _ _ _ _ _ _ Et Ra Hi Rb ltac:(lia) ltac:(lia) ltac:(lia) F) as (F1 & -> & T1).
  bok H sr Er. destruct sr as [s2 r]. destruct (legalize_full _ _ _ _ _ Er ltac:(lia) F1) as (F2 & R2 & [K2 _]). bok H pr Ep.
  bok H s3 Es. assert (0 <= trianglesLen s) by (destruct F as (_ & (q0 & Q & Q1) & _); lia).
  assert (HT : forall v, 0 <= nT v < trianglesLen s2 -> 0 <= nT (setT (trianglesLen s) v) < trianglesLen s2) by (intros v Hv; destruct v; simpl in *; lia).
  destruct (updN_full _ _ _ _ Es HT F2) as [F3 _].
  bok H sp Er'. destruct sp as [s4 pr']. destruct (remove_full _ _ _ _ Er' F3) as [F4 _]. bok H q' Eqq. eapply IH; eauto using withHull_full.
Qed.
Lemma insertPoint_full center s i p s' : insertPoint vs center s i p = Ok s' -> 0 <= i < n -> full n s -> full n s'.
Proof.
  intros H Hi F. unfold insertPoint in H. cbv zeta in H. bok H st E1. bok H st' E2. bok H start E3. bok H e E4. destruct e as [e|]; [|injection H as <-; exact F].
  apply findVisible_rng in E4. destruct E4 as (ne & a & b & E5 & Ea & Eb & Ra & Rb). unfold next_of in E5. rewrite Ea in E5, H. cbn [rbind] in E5, H.
  rewrite E5 in H. cbn [rbind] in H. rewrite Eb in H. cbn [rbind] in H. pose proof (getN_T _ _ _ Ea F) as Ta.
  assert (0 <= trianglesLen s) by (destruct F as (_ & (q0 & Q & Q1) & _); lia).
  bok H st1 Et. destruct st1 as [s1 t]. destruct (addTriangle_full _ _ _ _ _ _ _ _ _ Et Ra Hi Rb ltac:(lia) ltac:(lia) ltac:(lia) F) as (F1 & -> & T1).
  bok H s2 Es2. assert (HT : forall v, 0 <= nT v < trianglesLen s1 -> 0 <= nT (setT (trianglesLen s) v) < trianglesLen s1) by (intros v Hv; destruct v; simpl in *; lia).
  destruct (updN_full _ _ _ _ Es2 HT F1) as [F2 (_ & _ & K2)]. bok H s3 Es3. destruct (newNode_full _ _ _ _ Es3 F2) as [F3 (_ & _ & K3)].
  bok H sr Er. destruct sr as [s4 r]. destruct (legalize_full _ _ _ _ _ Er ltac:(lia) F3) as (F4 & R4 & _).
  bok H s5 Es5. assert (HT' : forall v, 0 <= nT v < trianglesLen s4 -> 0 <= nT (setT r v) < trianglesLen s4) by (intros v Hv; destruct v; simpl in *; lia).
  destruct (updN_full _ _ _ _ Es5 HT' F4) as [F5 _]. bok H q Eqq. bok H s6 Es6. pose proof (walkForward_full _ _ _ _ _ _ Es6 Hi F5) as F6.
  bok H s7 Es7. assert (F7 : full n s7).
  { destruct (e =? start); [|injection Es7 as <-; exact F6]. bok Es7 q' Eqq'. eapply walkBackward_full; eauto. }
  bok H s8 Es8. bok H pr Epr. eapply hashEdge_full; [exact H|]. eapply hashEdge_full; eauto.
Qed.
Lemma insertAll_full center i0 i1 i2 ids : forall pp s s', insertAll vs center i0 i1 i2 ids pp s = Ok s' -> full n s -> full n s'.
Proof.
  induction ids as [|i ids IH]; intros pp s s' H F; cbn [insertAll] in H; [injection H as <-; exact F|]. bok H p E.
  destruct (flt A (SquaredDistance p pp) eps); [eapply IH; eauto|]. destruct ((i =? i0) || (i =? i1) || (i =? i2)); [eapply IH; eauto|].
  bok H s1 E1. eapply IH; eauto. eapply insertPoint_full; eauto. apply (zget_rng _ _ _ E).
Qed.
Lemma make_ok {X} k (x : X) l : make k x = Ok l -> Forall (eq x) l /\ Z.of_nat (length l) = k.
Proof.
  unfold make. destruct (Z.ltb_spec k 0); [discriminate|]. intros [= <-]. split; [|rewrite repeat_length; lia].
  induction (Z.to_nat k); simpl; constructor; auto.
Qed.
Lemma initTri_full center i0 i1 i2 s v0 v1 v2 : initTri vs center i0 i1 i2 = Ok s -> zget vs i0 = Ok v0 -> zget vs i1 = Ok v1 -> zget vs i2 = Ok v2 ->
  full n s.
Proof.
  intros H Z0 Z1 Z2. apply zget_rng in Z0, Z1, Z2. destruct Z0 as [Z0 _], Z1 as [Z1 _], Z2 as [Z2 _]. unfold initTri in H. cbv zeta in H.
  bok H h Eh. set (s0 := mkTri [] [] 0 None h (repeat node0 (length vs))) in *.
  assert (I0 : inv n 3 s0). { constructor; simpl; auto. clear. induction (length vs); simpl; constructor; auto. simpl. lia. }
  assert (HE : forall s e s', hashEdge vs center s e = Ok s' -> inv n 3 s -> inv n 3 s' /\ keeps s s').
  { intros s1 e s1' X I. unfold hashEdge in X. bok X v Y. bok X w Y'. bok X h' Y''. injection X as <-. split; [destruct I; constructor; auto|repeat split]. }
  assert (HT : forall k, 0 <= k < 3 -> forall v, 0 <= nT v < 3 -> 0 <= nT (setT k v) < 3) by (intros k Hk v Hv; destruct v; simpl in *; lia).
  bok H s1 E1. destruct (newNode_inv _ _ _ _ _ _ E1 I0) as [I1 K1].
  bok H s2 E2. destruct (updN_inv _ _ _ _ _ _ E2 (HT 0 ltac:(lia)) I1) as [I2 K2]. bok H s3 E3. destruct (HE _ _ _ E3 I2) as [I3 K3].
  bok H s4 E4. destruct (newNode_inv _ _ _ _ _ _ E4 I3) as [I4 K4].
  bok H s5 E5. destruct (updN_inv _ _ _ _ _ _ E5 (HT 1 ltac:(lia)) I4) as [I5 K5]. bok H s6 E6. destruct (HE _ _ _ E6 I5) as [I6 K6].
  bok H s7 E7. destruct (newNode_inv _ _ _ _ _ _ E7 I6) as [I7 K7].
  bok H s8 E8. destruct (updN_inv _ _ _ _ _ _ E8 (HT 2 ltac:(lia)) I7) as [I8 K8]. bok H s9 E9. destruct (HE _ _ _ E9 I8) as [I9 K9].
  assert (K : trianglesLen s9 = 0) by (destruct K1 as (_ & _ & K1), K2 as (_ & _ & K2), K3 as (_ & _ & K3), K4 as (_ & _ & K4), K5 as (_ & _ & K5), K6 as (_ & _ & K6), K7 as (_ & _ & K7), K8 as (_ & _ & K8), K9 as (_ & _ & K9); simpl in *; congruence).
  bok H t1 M1. bok H t2 M2. apply make_ok in M1, M2. destruct M1 as [M1 L1], M2 as [M2 L2]. bok H st E10. destruct st as [s10 t]. injection H as <-.
  assert (J : inv n 3 (withHalfedges t2 (withTriangles t1 (withHull (Some i2) s9)))).
  { destruct I9 as [_ _ I9 _]. constructor; simpl; auto; try lia; eapply Forall_impl; eauto; simpl; intros; lia. }
  destruct (addTriangle_inv n 3 _ _ _ _ _ _ _ _ _ E10 Z0 Z1 Z2 ltac:(simpl; lia) ltac:(simpl; lia) ltac:(lia) ltac:(lia) ltac:(lia) J) as (J' & _ & T & L & LL).
  simpl in T, LL. rewrite K in T. unfold full. rewrite T in *. split; [exact J'|]. split; [exists 1; lia|]. split; [exact L|rewrite LL; exact L1].
Qed.

Lemma Forall_firstn {X} (P : X -> Prop) l : forall k, Forall P l -> Forall P (firstn k l).
Proof. induction l as [|x l IH]; intros [|k] F; simpl; auto. inversion F; subst. constructor; auto. Qed.
Lemma triangulate_inv sort s err : triangulate sort vs = Ok (s, err) ->
  (s = emptyTri /\ (err = false -> vs = [])) \/
  (err = false /\ (exists q, 1 <= q /\ q <= 2 * n - 5 /\ Z.of_nat (length (triangles s)) = 3 * q) /\
   inv n (Z.of_nat (length (triangles s))) s).
Proof.
  unfold triangulate. destruct vs as [|v l] eqn:EV. { intros [= <- <-]. left. auto. }
  rewrite <- EV. intros H. bok H b E. destruct b as [[[x0 y0] x1] y1]. cbv zeta in H. bok H v0 E0. bok H v1 E1.
  set (sd := seed2 vs _ _ v0 v1) in H. destruct sd as [i2 mr]. destruct (feq A mr infinity). { injection H as <- <-. left. split; [reflexivity|discriminate]. }
  right. bok H v2 E2. set (ii := if flt A (area v0 v1 v2) (fofZ A 0) then _ else _) in H. destruct ii as [j1 j2]. bok H w1 E3. bok H w2 E4.
  bok H s0 E5. bok H s1 E6. injection H as <- <-. pose proof (initTri_full _ _ _ _ _ _ _ _ E5 E0 E3 E4) as F0.
  destruct (insertAll_full _ _ _ _ _ _ _ _ E6 F0) as (I & (q & Q & Q1) & L & LL). split; [reflexivity|].
  assert (LF : Z.of_nat (length (firstn (Z.to_nat (trianglesLen s1)) (triangles s1))) = trianglesLen s1) by (rewrite firstn_length; lia).
  cbn [triangles withTriangles withHalfedges]. rewrite LF. split; [exists q; lia|]. destruct I as [I1 I2 I3 I4]. constructor; simpl; auto using Forall_firstn. rewrite !firstn_length. lia.
Qed.
Lemma hullLoop_In fuel : forall s h e acc r, hullLoop vs fuel s h e acc = Ok r -> (forall x, In x acc -> In x vs) -> forall x, In x r -> In x vs.
Proof.
  induction fuel as [|fuel IH]; intros s h e acc r H HA; [discriminate|]. cbn [hullLoop] in H. bok H nd E. bok H v Ev. cbv zeta in H.
  assert (HA' : forall x, In x (acc ++ [v]) -> In x vs).
  { intros x Hx. apply in_app_or in Hx. destruct Hx as [Hx|[<-|[]]]; [auto|]. apply (zget_rng _ _ _ Ev). }
  destruct (nPrev nd) as [e'|]; [|injection H as <-; exact HA']. destruct (e' =? h); [injection H as <-; exact HA'|]. eapply IH; eauto.
Qed.
End Any.

(** ** Validate is total on index-valid triangulations *)
Lemma range_total {S X} (body : Z -> X -> S -> res S) (l : list X) : forall i s,
  (forall j x s, nth_error l j = Some x -> exists s', body (i + Z.of_nat j) x s = Ok s') -> exists s', range_loop i l s body = Ok s'.
Proof.
  induction l as [|x l IH]; intros i s H; cbn [range_loop]; [eauto|]. destruct (H 0%nat x s eq_refl) as [s1 E]. rewrite Z.add_0_r in E. rewrite E. cbn [rbind].
  apply IH. intros j y s2 Hj. replace (i + 1 + Z.of_nat j) with (i + Z.of_nat (Datatypes.S j)) by lia. apply H. exact Hj.
Qed.
Lemma zget_tot {X} (l : list X) i : 0 <= i < Z.of_nat (length l) -> exists x, zget l i = Ok x.
Proof. intros H. apply zget_in_range. exact H. Qed.
Lemma nth_rng {X} (l : list X) j x : nth_error l j = Some x -> (j < length l)%nat.
Proof. intros H. apply nth_error_Some. congruence. Qed.
Lemma halfedges_total hs : (forall h, In h hs -> -1 <= h < Z.of_nat (length hs)) -> exists b, validate_halfedges hs = Ok b.
Proof.
  intros H. unfold validate_halfedges. apply range_total. intros j x ok Hj. destruct ok; [|simpl; eauto]. cbn [negb].
  pose proof (nth_rng _ _ _ Hj). destruct (zget_tot hs (0 + Z.of_nat j) ltac:(lia)) as [h1 E1]. rewrite E1. cbn [rbind].
  destruct (negb (0 + Z.of_nat j =? -1) && negb (h1 =? x)); [eauto|]. destruct (Z.eqb_spec x (-1)) as [->|N]; simpl; [eauto|].
  pose proof (H x (nth_error_In _ _ Hj)). destruct (zget_tot hs x ltac:(lia)) as [h2 E2]. rewrite E2. cbn [rbind]. destruct (h2 =? Z.of_nat j); simpl; eauto.
Qed.

Section Total.
Context {A : Arith}.
Lemma filterNear_total fuel : forall i (arr : list (vec A)) m, 0 <= m <= i -> i + Z.of_nat fuel = Z.of_nat (length arr) ->
  exists r, filterNear_loop fuel i arr m = Ok r.
Proof.
  induction fuel as [|fuel IH]; intros i arr m Hm Hi; cbn [filterNear_loop]; [eauto|].
  destruct (zget_tot arr i ltac:(lia)) as [p Ep]. rewrite Ep. cbn [rbind].
  assert (exists b, (if (0 <? i) then rbind (zget arr (i - 1)) (fun prev => Ok (flt A (SquaredDistance p prev) eps)) else Ok false) = Ok b) as [b Eb].
  { destruct (Z.ltb_spec 0 i); [|eauto]. destruct (zget_tot arr (i - 1) ltac:(lia)) as [w Ew]. rewrite Ew. simpl. eauto. }
  rewrite Eb. cbn [rbind]. destruct b; [apply IH; lia|]. unfold zset.
  destruct (Z.ltb_spec m 0); [lia|]. destruct (Nat.ltb_spec (Z.to_nat m) (length arr)); [|lia]. cbn [rbind]. apply IH; [lia|]. rewrite list_upd_length. lia.
Qed.
Lemma ConvexHull_total srt (vs : list (vec A)) : exists h, ConvexHull srt vs = Ok h.
Proof.
  unfold ConvexHull, filterNear. destruct (filterNear_total (length (srt vs)) 0 (srt vs) 0 ltac:(lia) ltac:(lia)) as [r E]. rewrite E. cbn [rbind].
  destruct (fold_left _ _ _). eauto.
Qed.
Lemma polygonArea_total (vs : list (vec A)) : exists a, polygonArea vs = Ok a.
Proof.
  unfold polygonArea. edestruct (range_total (S := A) (X := vec A)) as [a E]; [|rewrite E; simpl; eauto].
  intros j x s Hj. pose proof (nth_rng _ _ _ Hj). destruct (zget_tot vs ((0 + Z.of_nat j + 1) mod Z.of_nat (length vs))) as [q Eq0]; [apply Z.mod_pos_bound; lia|].
  rewrite Eq0. cbn [rbind]. eauto.
Qed.
Lemma polygonPerimeter_total (vs : list (vec A)) : exists a, polygonPerimeter vs = Ok a.
Proof.
  unfold polygonPerimeter. destruct (Z.eqb_spec (Z.of_nat (length vs)) 0); [eauto|]. destruct (zget_tot vs (Z.of_nat (length vs) - 1) ltac:(lia)) as [q0 E]. rewrite E. cbn [rbind].
  edestruct (range_total (S := (A * vec A)%type) (X := vec A)) as [a E']; [|rewrite E'; simpl; eauto].
  intros j x [s q] Hj. eauto.
Qed.
(** the triangle areas can be summed exactly when the list is cut into triples of valid positions *)
Lemma area_total (vs : list (vec A)) q : forall ts (r : A), length ts = (3 * q)%nat -> (forall k, In k ts -> 0 <= k < Z.of_nat (length vs)) -> exists a, tri_area_loop vs ts r = Ok a.
Proof.
  induction q as [|q IH]; intros ts r L H. { destruct ts; [|discriminate]. simpl. eauto. }
  destruct ts as [|a [|b [|c ts]]]; try (simpl in L; lia). cbn [tri_area_loop].
  destruct (zget_tot vs a) as [p0 E0]; [apply H; simpl; auto|]. destruct (zget_tot vs b) as [p1 E1]; [apply H; simpl; auto|]. destruct (zget_tot vs c) as [p2 E2]; [apply H; simpl; auto|].
  rewrite E0, E1, E2. cbn [rbind]. apply IH; [simpl in L; lia|]. intros k Hk. apply H. simpl. auto.
Qed.
Lemma area_needs (vs : list (vec A)) : forall m ts (r a : A), (length ts <= m)%nat -> tri_area_loop vs ts r = Ok a ->
  (exists q, length ts = (3 * q)%nat) /\ (forall k, In k ts -> 0 <= k < Z.of_nat (length vs)).
Proof.
  induction m as [|m IH]; intros ts r a L H.
  { destruct ts; [|simpl in L; lia]. split; [exists 0%nat; reflexivity|intros k []]. }
  destruct ts as [|x [|y [|z ts]]]; cbn [tri_area_loop] in H; try discriminate.
  { split; [exists 0%nat; reflexivity|intros k []]. }
  bok H p0 E0. bok H p1 E1. bok H p2 E2. apply zget_rng in E0, E1, E2. destruct E0 as [E0 _], E1 as [E1 _], E2 as [E2 _].
  apply IH in H; [|simpl in L; lia]. destruct H as [[q Q] F]. split; [exists (Datatypes.S q); simpl; lia|]. intros k [<-|[<-|[<-|Hk]]]; auto.
Qed.
End Total.
