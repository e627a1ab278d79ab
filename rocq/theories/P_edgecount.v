(** Counting the edges of a triangulation and the edges at one vertex (C156). *)
From Coq Require Import ZArith Lia List Bool Reals Lra Permutation.
From Verif Require Import Base Spec_r3 Spec_plane Spec_halfedge Spec_delaunay Spec_delaunay2 P_ring P_result P_delcomp P_walk Spec_walk.
Import ListNotations.
Open Scope Z_scope.

(** ** lists *)
Lemma NoDup_map_on {A B} (f : A -> B) l : (forall x y, In x l -> In y l -> f x = f y -> x = y) -> NoDup l -> NoDup (map f l).
Proof.
  induction l as [|a l IH]; intros Inj ND; [constructor|]. apply NoDup_cons_iff in ND. destruct ND as (Na & ND). cbn [map]. constructor.
  - intros Q. apply in_map_iff in Q. destruct Q as (b & Eb & Hb). apply Na. rewrite <- (Inj b a); auto; [right; exact Hb|left; reflexivity].
  - apply IH; [|exact ND]. intros x y Hx Hy. apply Inj; right; auto.
Qed.
Lemma NoDup_two {A} (l m : list A) : NoDup l -> NoDup m -> (forall x, In x l -> In x m -> False) -> NoDup (l ++ m).
Proof.
  induction l as [|a l IH]; intros Nl Nm D; [exact Nm|]. apply NoDup_cons_iff in Nl. destruct Nl as (Na & Nl). cbn [app]. constructor.
  - intros Q. apply in_app_or in Q. destruct Q as [Q|Q]; [exact (Na Q)|apply (D a); [left; reflexivity|exact Q]].
  - apply IH; auto. intros x Hx. apply D. right. exact Hx.
Qed.
Lemma same_length {A B} (f : A -> B) l m : NoDup l -> NoDup m -> (forall x y, In x l -> In y l -> f x = f y -> x = y) ->
  (forall y, In y m <-> exists x, In x l /\ f x = y) -> length l = length m.
Proof.
  intros Nl Nm Inj E. rewrite <- (map_length f l). apply Permutation_length. apply NoDup_Permutation; [apply NoDup_map_on; auto|exact Nm|].
  intros y. rewrite in_map_iff, E. split; intros (x & A1 & A2); eauto.
Qed.
Lemma filter_split {A} (p : A -> bool) l : length l = (length (filter p l) + length (filter (fun x => negb (p x)) l))%nat.
Proof. induction l as [|a l IH]; [reflexivity|]. cbn [filter length]. destruct (p a); cbn [negb length]; lia. Qed.
Fixpoint nsum (l : list nat) : nat := match l with [] => 0%nat | x :: l' => (x + nsum l')%nat end.
Lemma nsum_add {A} (f g : A -> nat) l : nsum (map (fun x => (f x + g x)%nat) l) = (nsum (map f l) + nsum (map g l))%nat.
Proof. induction l as [|a l IH]; cbn [map nsum]; lia. Qed.
(* the classes of a labelling partition the list *)
Lemma nsum_classes (lab : Z -> Z) V : NoDup V -> forall l, (forall x, In x l -> In (lab x) V) ->
  nsum (map (fun v => length (filter (fun x => lab x =? v) l)) V) = length l.
Proof.
  intros ND l. induction l as [|a l IH]; intros Hl.
  - cbn. clear. induction V as [|v V IHV]; cbn [map nsum]; [reflexivity|]. rewrite IHV. reflexivity.
  - cbn [length]. rewrite <- IH by (intros x Hx; apply Hl; right; exact Hx). specialize (Hl a (or_introl eq_refl)). clear IH. revert Hl. induction V as [|v V IHV]; intros Ha; [destruct Ha|].
    apply NoDup_cons_iff in ND. destruct ND as (Nv & ND). cbn [map nsum]. cbn [filter]. destruct (Z.eqb_spec (lab a) v) as [E|E].
    + cbn [length]. assert (X : map (fun v0 => length (if lab a =? v0 then a :: filter (fun x => lab x =? v0) l else filter (fun x => lab x =? v0) l)) V = map (fun v0 => length (filter (fun x => lab x =? v0) l)) V).
      { apply map_ext_in. intros w Hw. destruct (Z.eqb_spec (lab a) w) as [E'|E']; [|reflexivity]. exfalso. apply Nv. congruence. }
      rewrite X. lia.
    + destruct Ha as [Ha|Ha]; [congruence|]. specialize (IHV ND Ha). cbn [filter] in IHV. rewrite IHV. lia.
Qed.
Lemma nsum_low (f : Z -> nat) k V : (forall v, In v V -> (k <= f v)%nat) -> (k * length V <= nsum (map f V))%nat.
Proof. induction V as [|v V IH]; intros Hv; cbn [map nsum length]; [lia|]. pose proof (Hv v (or_introl eq_refl)). specialize (IH (fun w Hw => Hv w (or_intror Hw))). lia. Qed.
Lemma nsum_some (f : Z -> nat) k V : (nsum (map f V) < k * length V)%nat -> exists v, In v V /\ (f v < k)%nat.
Proof.
  intros L. destruct (Exists_dec (fun v => (f v < k)%nat) V (fun v => lt_dec (f v) k)) as [E|E].
  - apply Exists_exists in E. exact E.
  - exfalso. assert (G : forall v, In v V -> (k <= f v)%nat). { intros v Hv. destruct (lt_dec (f v) k) as [Q|Q]; [|lia]. exfalso. apply E. apply Exists_exists. eauto. }
    apply nsum_low in G. lia.
Qed.

(** ** two triangles on one side of an edge overlap *)
Open Scope R_scope.
Lemma small_step f1 g1 f2 g2 f3 g3 f4 g4 : f1 < 0 -> f2 < 0 -> f3 < 0 -> f4 < 0 ->
  exists t, 0 < t /\ f1 + t * g1 < 0 /\ f2 + t * g2 < 0 /\ f3 + t * g3 < 0 /\ f4 + t * g4 < 0.
Proof.
  assert (G : forall f g, f < 0 -> exists s, 0 < s /\ forall t, 0 < t <= s -> f + t * g < 0).
  { intros f g Hf. exists (- f / (2 * (Rabs g + 1))). pose proof (Rabs_pos g) as P. split; [apply Rdiv_lt_0_compat; lra|]. intros t (T0 & T1).
    assert (Q : t * (2 * (Rabs g + 1)) <= - f).
    { apply (Rmult_le_compat_r (2 * (Rabs g + 1))) in T1; [|lra]. unfold Rdiv in T1. rewrite Rmult_assoc, Rinv_l in T1 by lra. lra. }
    assert (U : t * g <= t * Rabs g) by (apply Rmult_le_compat_l; [lra|apply Rle_abs]). lra. }
  intros H1 H2 H3 H4. destruct (G f1 g1 H1) as (s1 & P1 & K1). destruct (G f2 g2 H2) as (s2 & P2 & K2). destruct (G f3 g3 H3) as (s3 & P3 & K3). destruct (G f4 g4 H4) as (s4 & P4 & K4).
  exists (Rmin (Rmin s1 s2) (Rmin s3 s4)). pose proof (Rmin_l s1 s2). pose proof (Rmin_r s1 s2). pose proof (Rmin_l s3 s4). pose proof (Rmin_r s3 s4).
  pose proof (Rmin_l (Rmin s1 s2) (Rmin s3 s4)). pose proof (Rmin_r (Rmin s1 s2) (Rmin s3 s4)).
  assert (P : 0 < Rmin (Rmin s1 s2) (Rmin s3 s4)) by (repeat apply Rmin_pos; auto).
  split; [exact P|]. split; [apply K1; lra|]. split; [apply K2; lra|]. split; [apply K3; lra|apply K4; lra].
Qed.
Lemma overlap a b c d : ccw a b c < 0 -> ccw a b d < 0 -> exists q, ccw a b q < 0 /\ ccw b c q < 0 /\ ccw c a q < 0 /\ ccw b d q < 0 /\ ccw d a q < 0.
Proof.
  intros Hc Hd. set (m := RV ((rx a + rx b) / 2) ((ry a + ry b) / 2) 0).
  (* a little off the middle, to the right of ab *)
  set (q t := RV (rx m + t * (ry b - ry a)) (ry m - t * (rx b - rx a)) 0).
  assert (A : forall u v t, ccw u v (q t) = ccw u v m + t * (- (rx v - rx u) * (rx b - rx a) - (ry v - ry u) * (ry b - ry a))).
  { intros u v t. unfold ccw, q. cbn [rx ry]. ring. }
  assert (M1 : ccw b c m = ccw a b c / 2) by (unfold ccw, m; cbn [rx ry]; field). assert (M2 : ccw c a m = ccw a b c / 2) by (unfold ccw, m; cbn [rx ry]; field).
  assert (M3 : ccw b d m = ccw a b d / 2) by (unfold ccw, m; cbn [rx ry]; field). assert (M4 : ccw d a m = ccw a b d / 2) by (unfold ccw, m; cbn [rx ry]; field).
  assert (M0 : ccw a b m = 0) by (unfold ccw, m; cbn [rx ry]; field).
  destruct (small_step (ccw b c m) (- (rx c - rx b) * (rx b - rx a) - (ry c - ry b) * (ry b - ry a)) (ccw c a m) (- (rx a - rx c) * (rx b - rx a) - (ry a - ry c) * (ry b - ry a))
    (ccw b d m) (- (rx d - rx b) * (rx b - rx a) - (ry d - ry b) * (ry b - ry a)) (ccw d a m) (- (rx a - rx d) * (rx b - rx a) - (ry a - ry d) * (ry b - ry a))) as (t & Ht & T1 & T2 & T3 & T4); try lra.
  exists (q t). rewrite !A. split; [|auto]. rewrite M0.
  assert (U : 0 < dist2xy b a). { apply (dist2_pos a b (RV (2 * rx a - rx c) (2 * ry a - ry c) 0)). unfold ccw in *. cbn [rx ry]. lra. }
  unfold dist2xy in U. assert (X : 0 < t * ((rx b - rx a) * (rx b - rx a) + (ry b - ry a) * (ry b - ry a))) by (apply Rmult_lt_0_compat; auto).
  match goal with |- 0 + ?z < 0 => replace z with (- (t * ((rx b - rx a) * (rx b - rx a) + (ry b - ry a) * (ry b - ry a)))) by ring end. lra.
Qed.
Open Scope Z_scope.

Section Count.
Variables (pts : list rv) (T H I : list Z).
Hypothesis Pr : paired T H.
Hypothesis Pos : forall a b c, In (a, b, c) (triples T) -> (ccw (point pts a) (point pts b) (point pts c) < 0)%R.
Hypothesis Disj : forall q i j ti tj, nth_error (triples T) i = Some ti -> nth_error (triples T) j = Some tj -> in_triangle pts q ti -> in_triangle pts q tj -> i = j.
Hypothesis Bd : boundary T H I.
Hypothesis En : encloses (map (point pts) I) (map (point pts) T).
Hypothesis Cn : Z.of_nat (length (triples T)) = 2 * Z.of_nat (length (nodup Z.eq_dec T)) - 2 - Z.of_nat (length I).
Notation N := (Z.of_nat (length T)).
Notation tA e := (entry T e).
Notation tB e := (entry T (corner_next e)).

Lemma nth_corners k : 0 <= 3 * k < N -> nth_error (triples T) (Z.to_nat k) = Some (corners T k).
Proof.
  intros Hk. destruct (pr_whole _ _ Pr) as (n & Hn). assert (K : (3 * Z.to_nat k + 2 < length T)%nat) by lia.
  unfold corners, entry. replace (Z.to_nat (3 * k)) with (3 * Z.to_nat k)%nat by lia. replace (Z.to_nat (3 * k + 1)) with (3 * Z.to_nat k + 1)%nat by lia. replace (Z.to_nat (3 * k + 2)) with (3 * Z.to_nat k + 2)%nat by lia.
  clear -K. generalize dependent T. induction (Z.to_nat k) as [|m IH]; intros l K; destruct l as [|x [|y [|z l]]]; simpl in K; try lia; [reflexivity|].
  replace (3 * S m)%nat with (S (S (S (3 * m)))) by lia. cbn [triples nth_error nth Nat.add]. apply IH. lia.
Qed.
Lemma in_corners q e : 0 <= e < N -> (ccw (cA pts T e) (cB pts T e) q < 0)%R -> (ccw (cB pts T e) (cC pts T e) q < 0)%R -> (ccw (cC pts T e) (cA pts T e) q < 0)%R -> in_triangle pts q (corners T (e / 3)).
Proof.
  intros He Q1 Q2 Q3. unfold in_triangle, corners. unfold cA, cB, cC in *. pose proof (next_cases e (proj1 He)) as D. cbv zeta in D. set (k := e / 3) in *.
  destruct D as [(E & E1 & E2)|[(E & E1 & E2)|(E & E1 & E2)]]; rewrite E2, E1, E in *; auto.
Qed.
(** no directed edge occurs twice *)
Lemma edge_once e e' : 0 <= e < N -> 0 <= e' < N -> tA e = tA e' -> tB e = tB e' -> e = e'.
Proof.
  intros He He' EA EB. pose proof (edge_pos pts T H Pr Pos e He) as P1. pose proof (edge_pos pts T H Pr Pos e' He') as P2.
  assert (XA : cA pts T e' = cA pts T e) by (unfold cA; rewrite EA; reflexivity). assert (XB : cB pts T e' = cB pts T e) by (unfold cB; rewrite EB; reflexivity). rewrite XA, XB in P2.
  destruct (overlap _ _ _ _ P1 P2) as (q & Q1 & Q2 & Q3 & Q4 & Q5).
  assert (K : Z.to_nat (e / 3) = Z.to_nat (e' / 3)).
  { apply (Disj q _ _ (corners T (e / 3)) (corners T (e' / 3))); try (apply nth_corners; apply div_range; auto); apply in_corners; auto; rewrite ?XA, ?XB; auto. }
  assert (K' : e' / 3 = e / 3). { pose proof (div_range T e He). pose proof (div_range T e' He'). lia. }
  destruct (same_tri e e' (proj1 He) (proj1 He') K') as [->|[->| ->]]; [reflexivity| |].
  - exfalso. apply (pr_corners _ _ Pr e He). congruence.
  - exfalso. rewrite next3 in EB by lia. apply (pr_corners _ _ Pr e He). congruence.
Qed.
Lemma twin' e : 0 <= e < N -> entry H e <> -1 -> 0 <= entry H e < N /\ entry H (entry H e) = e /\ entry H e <> e /\ tA (entry H e) = tB e /\ tB (entry H e) = tA e.
Proof.
  intros He X. destruct (pr_twin _ _ Pr e He) as [Y|(R & I1 & D & A & B)]; [contradiction|]. split; [exact R|]. split; [exact I1|]. split; [|auto]. intros E. rewrite E in D. contradiction.
Qed.
(* an edge and its reverse are not both on the boundary *)
Lemma not_both e e' : 0 <= e < N -> 0 <= e' < N -> tA e = tB e' -> tB e = tA e' -> entry H e = -1 -> entry H e' = -1 -> False.
Proof.
  intros He He' EA EB X X'. destruct Bd as (_ & B).
  assert (Q : In (tB e, tA e) (polygon_edges I)) by (apply B; exists e; auto). assert (Q' : In (tA e, tB e) (polygon_edges I)) by (apply B; exists e'; auto).
  assert (L : forall u v, In (u, v) (polygon_edges I) -> forall w, In w T -> (0 <= ccw (point pts u) (point pts v) (point pts w))%R).
  { intros u v Q0 w Hw. apply (En (point pts u, point pts v)); [|apply in_map; exact Hw]. rewrite pe_map. apply in_map_iff. exists (u, v). auto. }
  pose proof (edge_pos pts T H Pr Pos e He) as P1. unfold cA, cB, cC in P1.
  assert (Hc : In (entry T (corner_next (corner_next e))) T). { apply entry_in. apply (corner_next_range T H); [exact Pr|]. apply (corner_next_range T H); auto. }
  pose proof (L _ _ Q' _ Hc). lra.
Qed.
Definition slots : list Z := map Z.of_nat (seq 0 (length T)).
Lemma In_slots e : In e slots <-> 0 <= e < N.
Proof. unfold slots. rewrite in_map_iff. split; [intros (k & <- & Hk); apply in_seq in Hk; lia|]. intros He. exists (Z.to_nat e). split; [lia|]. apply in_seq. lia. Qed.
Lemma slots_nd : NoDup slots. Proof. apply NoDup_map_on; [intros; lia|apply seq_NoDup]. Qed.
Lemma slots_len : length slots = length T. Proof. unfold slots. rewrite map_length, seq_length. reflexivity. Qed.
Definition rim := filter (fun e => entry H e =? -1) slots.
Definition inner := filter (fun e => negb (entry H e =? -1)) slots.
Definition ups := filter (fun e => e <? entry H e) inner.
Definition downs := filter (fun e => negb (e <? entry H e)) inner.
Lemma In_rim e : In e rim <-> 0 <= e < N /\ entry H e = -1. Proof. unfold rim. rewrite filter_In, In_slots, Z.eqb_eq. tauto. Qed.
Lemma In_inner e : In e inner <-> 0 <= e < N /\ entry H e <> -1. Proof. unfold inner. rewrite filter_In, In_slots, negb_true_iff, Z.eqb_neq. tauto. Qed.
Lemma In_ups e : In e ups <-> 0 <= e < N /\ entry H e <> -1 /\ e < entry H e. Proof. unfold ups. rewrite filter_In, In_inner, Z.ltb_lt. tauto. Qed.
Lemma In_downs e : In e downs <-> 0 <= e < N /\ entry H e <> -1 /\ entry H e <= e. Proof. unfold downs. rewrite filter_In, In_inner, negb_true_iff, Z.ltb_ge. tauto. Qed.
Lemma rim_len : length rim = length I.
Proof.
  rewrite <- (pe_length I). apply (same_length (fun e => (tB e, tA e))).
  - apply NoDup_filter, slots_nd.
  - apply (NoDup_map_inv fst). apply pe_fst_NoDup. apply Bd.
  - intros x y Hx Hy E. apply In_rim in Hx, Hy. assert (tB x = tB y) by congruence. assert (tA x = tA y) by congruence. apply edge_once; tauto.
  - intros [u v]. rewrite (proj2 Bd u v). split.
    + intros (e & He & X & A & B). exists e. split; [apply In_rim; auto|]. congruence.
    + intros (e & He & E). apply In_rim in He. exists e. assert (tB e = u) by congruence. assert (tA e = v) by congruence. tauto.
Qed.
Lemma updown : length ups = length downs.
Proof.
  apply (same_length (entry H)); try (apply NoDup_filter, NoDup_filter, slots_nd).
  - intros x y Hx Hy E. apply In_ups in Hx, Hy. destruct (twin' x ltac:(tauto) ltac:(tauto)) as (_ & E1 & _). destruct (twin' y ltac:(tauto) ltac:(tauto)) as (_ & E2 & _). congruence.
  - intros y. rewrite In_downs. split.
    + intros (Hy & X & L). destruct (twin' y Hy X) as (R & E1 & Nq & _). exists (entry H y). split; [|exact E1]. apply In_ups. rewrite E1. split; [exact R|]. lia.
    + intros (x & Hx & <-). apply In_ups in Hx. destruct Hx as (Hx & X & L). destruct (twin' x Hx X) as (R & E1 & Nq & _). rewrite E1. split; [exact R|]. lia.
Qed.
Lemma half_count : length T = (length I + 2 * length ups)%nat.
Proof.
  rewrite <- slots_len, (filter_split (fun e => entry H e =? -1) slots). fold rim inner. rewrite rim_len.
  rewrite (filter_split (fun e => e <? entry H e) inner). fold ups downs. rewrite <- updown. lia.
Qed.
Lemma len3 : length T = (3 * length (triples T))%nat.
Proof. destruct (pr_whole _ _ Pr) as (n & Hn). rewrite (triples_length T n Hn). exact Hn. Qed.

(** ** edges *)
Lemma joined_edge u v : joined T u v <-> exists e, 0 <= e < N /\ (tA e = u /\ tB e = v \/ tA e = v /\ tB e = u).
Proof.
  split.
  - intros (Nuv & a & b & c & Q & Hu & Hv). apply (triples_entry (-1)) in Q. destruct Q as (k & K & A & B & C).
    assert (G : forall i, (i <= 2)%nat -> 0 <= Z.of_nat (3 * k + i) < N /\ entry T (Z.of_nat (3 * k + i)) = nth (3 * k + i) T (-1)).
    { intros i Hi. split; [lia|]. unfold entry. rewrite Nat2Z.id. reflexivity. }
    destruct (G 0%nat ltac:(lia)) as (R0 & E0). destruct (G 1%nat ltac:(lia)) as (R1 & E1). destruct (G 2%nat ltac:(lia)) as (R2 & E2).
    assert (M : forall i, (i <= 2)%nat -> corner_next (Z.of_nat (3 * k + i)) = Z.of_nat (3 * k + (if Nat.eqb i 2 then 0 else i + 1))).
    { intros i Hi. unfold corner_next. replace (Z.of_nat (3 * k + i)) with (Z.of_nat i + Z.of_nat k * 3) by lia. rewrite Z.mod_add by lia. rewrite Z.mod_small by lia.
      destruct (Nat.eqb_spec i 2); destruct (Z.eqb_spec (Z.of_nat i) 2); lia. }
    pose proof (M 0%nat ltac:(lia)) as M0. pose proof (M 1%nat ltac:(lia)) as M1. pose proof (M 2%nat ltac:(lia)) as M2. cbn [Nat.eqb Nat.add] in M0, M1, M2.
    rewrite Nat.add_0_r in E0. rewrite A in E0. rewrite B in E1. rewrite C in E2. rewrite Nat.add_0_r in *.
    assert (W0 : exists e, 0 <= e < N /\ tA e = a /\ tB e = b) by (eexists; split; [exact R0|rewrite M0; auto]).
    assert (W1 : exists e, 0 <= e < N /\ tA e = b /\ tB e = c) by (eexists; split; [exact R1|rewrite M1; auto]).
    assert (W2 : exists e, 0 <= e < N /\ tA e = c /\ tB e = a) by (eexists; split; [exact R2|rewrite M2; auto]).
    destruct W0 as (x & Rx & Ax & Bx), W1 as (y & Ry & Ay & By), W2 as (z & Rz & Az & Bz).
    destruct Hu as [<-|[<-|[<-|[]]]], Hv as [<-|[<-|[<-|[]]]]; try contradiction; (exists x; split; [exact Rx|tauto]) || (exists y; split; [exact Ry|tauto]) || (exists z; split; [exact Rz|tauto]).
  - intros (e & He & D). pose proof (pr_corners _ _ Pr e He) as Ne. split; [destruct D as [(<- & <-)|(<- & <-)]; auto|].
    pose proof (tri_corners T H Pr _ (div_range T e He)) as Q. unfold corners in Q. do 3 eexists. split; [exact Q|]. pose proof (next_cases e (proj1 He)) as C. cbv zeta in C. set (k := e / 3) in *.
    assert (M : In (tA e) [entry T (3 * k); entry T (3 * k + 1); entry T (3 * k + 2)] /\ In (tB e) [entry T (3 * k); entry T (3 * k + 1); entry T (3 * k + 2)]).
    { destruct C as [(E & E1 & E2)|[(E & E1 & E2)|(E & E1 & E2)]]; rewrite E1, E; cbn [In]; auto. }
    destruct D as [(<- & <-)|(<- & <-)]; tauto.
Qed.
Definition key e := if tA e <? tB e then (tA e, tB e) else (tB e, tA e).
Lemma key_cases e e' : key e = key e' -> tA e = tA e' /\ tB e = tB e' \/ tA e = tB e' /\ tB e = tA e'.
Proof. unfold key. destruct (tA e <? tB e), (tA e' <? tB e'); intros E; injection E; auto. Qed.
Theorem edge_count L : NoDup L -> (forall u v, In (u, v) L <-> joined T u v /\ u < v) -> Z.of_nat (length L) = 3 * Z.of_nat (length (nodup Z.eq_dec T)) - 3 - Z.of_nat (length I).
Proof.
  intros ND E. assert (LL : length (rim ++ ups) = length L).
  { apply (same_length key).
    - apply NoDup_two; [apply NoDup_filter, slots_nd|apply NoDup_filter, NoDup_filter, slots_nd|]. intros x Hx Hy. apply In_rim in Hx. apply In_ups in Hy. tauto.
    - exact ND.
    - assert (G : forall x, In x (rim ++ ups) -> 0 <= x < N /\ (entry H x <> -1 -> x < entry H x)).
      { intros x Hx. apply in_app_or in Hx. destruct Hx as [Hx|Hx]; [apply In_rim in Hx; tauto|apply In_ups in Hx; tauto]. }
      intros x y Hx Hy K. apply G in Hx, Hy. destruct Hx as (Hx & Lx), Hy as (Hy & Ly). destruct (key_cases x y K) as [(A & B)|(A & B)]; [apply edge_once; auto|exfalso].
      assert (W : forall a b, 0 <= a < N -> 0 <= b < N -> (entry H a <> -1 -> a < entry H a) -> (entry H b <> -1 -> b < entry H b) -> tA a = tB b -> tB a = tA b -> entry H a <> -1 -> False).
      { clear x y Hx Hy Lx Ly K A B. intros a b Ha Hb La Lb A B X. destruct (twin' a Ha X) as (R & I1 & _ & EA & EB). assert (Eb : entry H a = b) by (apply edge_once; auto; congruence).
        rewrite Eb in *. specialize (La X). rewrite I1 in Lb. lia. }
      destruct (Z.eq_dec (entry H x) (-1)) as [X|X]; [|apply (W x y); auto]. destruct (Z.eq_dec (entry H y) (-1)) as [Y|Y]; [|apply (W y x); auto].
      apply (not_both x y); auto.
    - intros [u v]. rewrite E. split.
      + intros (J & Lt). apply joined_edge in J. destruct J as (e & He & D).
        assert (S : exists x, In x (rim ++ ups) /\ (tA x = u /\ tB x = v \/ tA x = v /\ tB x = u)).
        { destruct (Z.eq_dec (entry H e) (-1)) as [X|X]; [exists e; split; [apply in_or_app; left; apply In_rim; auto|exact D]|].
          destruct (twin' e He X) as (R & I1 & Nq & EA & EB). destruct (Z.lt_ge_cases e (entry H e)) as [Q|Q].
          - exists e. split; [apply in_or_app; right; apply In_ups; auto|exact D].
          - exists (entry H e). split; [apply in_or_app; right; apply In_ups; rewrite I1; split; [exact R|lia]|]. rewrite EA, EB. tauto. }
        destruct S as (x & Hx & D'). exists x. split; [exact Hx|]. unfold key. destruct D' as [(-> & ->)|(-> & ->)]; [rewrite (proj2 (Z.ltb_lt u v) Lt)|rewrite (proj2 (Z.ltb_ge v u)) by lia]; reflexivity.
      + intros (e & He & K). assert (R : 0 <= e < N) by (apply in_app_or in He; destruct He as [He|He]; [apply In_rim in He|apply In_ups in He]; tauto).
        pose proof (pr_corners _ _ Pr e R) as Ne. unfold key in K. destruct (Z.ltb_spec (tA e) (tB e)) as [Q|Q]; injection K as <- <-; (split; [apply joined_edge; exists e; tauto|lia]). }
  rewrite <- LL, app_length, rim_len. pose proof half_count. pose proof len3. lia.
Qed.

(** ** edges at one vertex *)
Definition degb (v : Z) : nat := Nat.add (length (filter (fun e => tA e =? v) slots)) (length (filter (fun e => tB e =? v) rim)).
Lemma deg_bound v l : NoDup l -> (forall u, In u l -> joined T v u) -> (length l <= degb v)%nat.
Proof.
  intros ND J. unfold degb. rewrite <- (map_length (fun e => tB e) (filter (fun e => tA e =? v) slots)), <- (map_length (fun e => tA e) (filter (fun e => tB e =? v) rim)), <- app_length.
  apply NoDup_incl_length; [exact ND|]. intros u Hu. specialize (J u Hu). apply joined_edge in J. destruct J as (e & He & D).
  assert (S : (exists x, 0 <= x < N /\ tA x = v /\ tB x = u) \/ (exists x, In x rim /\ tB x = v /\ tA x = u)).
  { destruct D as [D|(A & B)]; [left; exists e; tauto|]. destruct (Z.eq_dec (entry H e) (-1)) as [X|X]; [right; exists e; split; [apply In_rim; auto|auto]|].
    destruct (twin' e He X) as (R & _ & _ & EA & EB). left. exists (entry H e). rewrite EA, EB. auto. }
  apply in_or_app. destruct S as [(x & Hx & A & B)|(x & Hx & A & B)]; [left|right]; apply in_map_iff; exists x; (split; [exact B|]); apply filter_In; (split; [|apply Z.eqb_eq; exact A]); auto. apply In_slots. exact Hx.
Qed.
Lemma deg_sum : (Z.of_nat (nsum (map degb (nodup Z.eq_dec T))) = 6 * Z.of_nat (length (nodup Z.eq_dec T)) - 6 - 2 * Z.of_nat (length I)).
Proof.
  unfold degb. rewrite nsum_add, (nsum_classes (fun e => tA e)), (nsum_classes (fun e => tB e)); try apply NoDup_nodup.
  - rewrite slots_len, rim_len. pose proof len3. lia.
  - intros x Hx. apply In_rim in Hx. apply nodup_In, entry_in, (corner_next_range T H); tauto.
  - intros x Hx. apply In_slots in Hx. apply nodup_In, entry_in; auto.
Qed.
Theorem low_degree : exists v, In v T /\ forall l, NoDup l -> (forall u, In u l -> joined T v u) -> (length l <= 5)%nat.
Proof.
  destruct (nsum_some degb 6 (nodup Z.eq_dec T)) as (v & Hv & L); [pose proof deg_sum; lia|]. apply nodup_In in Hv. exists v. split; [exact Hv|].
  intros l ND J. pose proof (deg_bound v l ND J). lia.
Qed.
End Count.
