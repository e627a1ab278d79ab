(** The triangles of a triangulation tile its hull: ray crossings. *)
From Coq Require Import ZArith Lia List Bool Reals Lra Permutation.
From Verif Require Import Base Arith Spec_r3 Spec_plane P_delgeom P_chain P_ring P_tri2.
Import ListNotations.
Open Scope R_scope.

Section Cross.
Variable q : rv.
(** height below q, and whether a point is strictly below *)
Definition ht (p : rv) : R := ry q - ry p.
Definition dn (p : rv) : bool := Rltb 0 (ht p).
(** signed crossing of the edge (u,v) with the horizontal ray from q *)
Definition cross (u v : rv) : R :=
  match dn u, dn v with
  | false, true => if Rltb 0 (ar u v q) then 1 else 0
  | true, false => if Rltb (ar u v q) 0 then -1 else 0
  | _, _ => 0
  end.
Lemma dn_spec p : if dn p then 0 < ht p else ht p <= 0.
Proof. unfold dn. destruct (Rltb_spec 0 (ht p)); lra. Qed.
Lemma ar_swap u v : ar u v q = - ar v u q. Proof. geo. ring. Qed.
Lemma cross_anti u v : cross u v = - cross v u.
Proof.
  unfold cross. rewrite (ar_swap v u). destruct (dn u), (dn v); try lra; destruct (Rltb_spec 0 (ar u v q)), (Rltb_spec (- ar u v q) 0),
   (Rltb_spec (ar u v q) 0), (Rltb_spec 0 (- ar u v q)); lra.
Qed.
Lemma bary a b c : ar a b q * ht c + ar b c q * ht a + ar c a q * ht b = 0.
Proof. unfold ht. geo. ring. Qed.
Lemma bary_sum a b c : ar a b q + ar b c q + ar c a q = ar a b c.
Proof. geo. ring. Qed.
(* the crossings of a triangle whose first corner is on the other side *)
Lemma one_case x y z h k l : 0 < x + y + z -> x * l + y * h + z * k = 0 -> (* x = ab, y = bc, z = ca *)
  h <= 0 -> 0 < k -> 0 < l -> 0 < x -> 0 <= z -> 0 < y.
Proof.
  intros S E Hh Hk Hl Hx Hz. destruct (Rle_lt_dec y 0) as [Q|Q]; auto. exfalso.
  assert (0 < x * l) by (apply Rmult_lt_0_compat; auto). assert (0 <= z * k) by (apply Rmult_le_pos; lra).
  assert (0 <= y * h) by (replace (y * h) with ((- y) * (- h)) by ring; apply Rmult_le_pos; lra). lra.
Qed.
Lemma one_case' x y z h k l : 0 < x + y + z -> x * l + y * h + z * k = 0 ->
  h <= 0 -> 0 < k -> 0 < l -> x <= 0 -> z < 0 -> False.
Proof.
  intros S E Hh Hk Hl Hx Hz.
  assert (0 < - z * k) by (apply Rmult_lt_0_compat; lra). assert (0 <= - x * l) by (apply Rmult_le_pos; lra).
  assert (0 <= y * (- h)) by (apply Rmult_le_pos; lra). lra.
Qed.
(* and the mirrored case: one corner below, two above *)
Lemma two_case x y z h k l : 0 < x + y + z -> x * l + y * h + z * k = 0 ->
  0 < h -> k <= 0 -> l <= 0 -> 0 < z -> 0 <= x -> 0 <= y.
Proof.
  intros S E Hh Hk Hl Hx Hz. destruct (Rle_lt_dec 0 y) as [Q|Q]; auto. exfalso.
  assert (0 <= x * (- l)) by (apply Rmult_le_pos; lra). assert (0 <= z * (- k)) by (apply Rmult_le_pos; lra).
  assert (0 < (- y) * h) by (apply Rmult_lt_0_compat; lra). lra.
Qed.
Lemma two_case' x y z h k l : 0 < x + y + z -> x * l + y * h + z * k = 0 ->
  0 < h -> k <= 0 -> l <= 0 -> x < 0 -> z <= 0 -> False.
Proof.
  intros S E Hh Hk Hl Hx Hz.
  assert (0 <= (- x) * (- l)) by (apply Rmult_le_pos; lra). assert (0 <= (- z) * (- k)) by (apply Rmult_le_pos; lra).
  assert (0 < y * h) by (apply Rmult_lt_0_compat; lra). lra.
Qed.
Definition tcross a b c := cross a b + cross b c + cross c a.
Definition tin a b c := 0 < ar a b q /\ 0 < ar b c q /\ 0 < ar c a q.
Definition tinc a b c := 0 <= ar a b q /\ 0 <= ar b c q /\ 0 <= ar c a q.
Lemma case1 a b c : 0 < ar a b c -> dn a = false -> dn b = true -> dn c = true ->
  (tcross a b c = 0 \/ tcross a b c = 1) /\ (tin a b c -> tcross a b c = 1) /\ (tcross a b c = 1 -> tinc a b c).
Proof.
  intros O Da Db Dc. pose proof (dn_spec a) as A. pose proof (dn_spec b) as B. pose proof (dn_spec c) as C. rewrite Da in A. rewrite Db in B. rewrite Dc in C.
  unfold tcross, tin, tinc, cross. rewrite Da, Db, Dc. pose proof (bary a b c) as E1. pose proof (bary_sum a b c) as E2.
  set (x := ar a b q) in *. set (y := ar b c q) in *. set (z := ar c a q) in *. set (h := ht a) in *. set (k := ht b) in *. set (l := ht c) in *.
  clearbody x y z h k l. assert (S : 0 < x + y + z) by lra.
  destruct (Rltb_spec 0 x) as [X|X]; destruct (Rltb_spec z 0) as [W|W].
  - split; [left; lra|]. split; intros; lra.
  - pose proof (one_case x y z h k l S E1 A B C X ltac:(lra)). split; [right; lra|]. split; intros; [lra|lra].
  - exfalso. apply (one_case' x y z h k l); auto; lra.
  - split; [left; lra|]. split; intros; lra.
Qed.
Lemma case2 a b c : 0 < ar a b c -> dn a = true -> dn b = false -> dn c = false ->
  (tcross a b c = 0 \/ tcross a b c = 1) /\ (tin a b c -> tcross a b c = 1) /\ (tcross a b c = 1 -> tinc a b c).
Proof.
  intros O Da Db Dc. pose proof (dn_spec a) as A. pose proof (dn_spec b) as B. pose proof (dn_spec c) as C. rewrite Da in A. rewrite Db in B. rewrite Dc in C.
  unfold tcross, tin, tinc, cross. rewrite Da, Db, Dc. pose proof (bary a b c) as E1. pose proof (bary_sum a b c) as E2.
  set (x := ar a b q) in *. set (y := ar b c q) in *. set (z := ar c a q) in *. set (h := ht a) in *. set (k := ht b) in *. set (l := ht c) in *.
  clearbody x y z h k l. assert (S : 0 < x + y + z) by lra.
  destruct (Rltb_spec x 0) as [X|X]; destruct (Rltb_spec 0 z) as [W|W].
  - split; [left; lra|]. split; intros; lra.
  - exfalso. apply (two_case' x y z h k l); auto; lra.
  - pose proof (two_case x y z h k l S E1 A B C W ltac:(lra)). split; [right; lra|]. split; intros; [lra|lra].
  - split; [left; lra|]. split; intros; lra.
Qed.
Lemma tcross_rot a b c : tcross b c a = tcross a b c. Proof. unfold tcross. lra. Qed.
Lemma tin_rot a b c : tin b c a <-> tin a b c. Proof. unfold tin. tauto. Qed.
Lemma tinc_rot a b c : tinc b c a <-> tinc a b c. Proof. unfold tinc. tauto. Qed.
Lemma rot_ok a b c : (tcross b c a = 0 \/ tcross b c a = 1) /\ (tin b c a -> tcross b c a = 1) /\ (tcross b c a = 1 -> tinc b c a) ->
  (tcross a b c = 0 \/ tcross a b c = 1) /\ (tin a b c -> tcross a b c = 1) /\ (tcross a b c = 1 -> tinc a b c).
Proof. rewrite tcross_rot, tin_rot, tinc_rot. auto. Qed.
Theorem tcross_spec a b c : 0 < ar a b c ->
  (tcross a b c = 0 \/ tcross a b c = 1) /\ (tin a b c -> tcross a b c = 1) /\ (tcross a b c = 1 -> tinc a b c).
Proof.
  intros O. assert (O1 : 0 < ar b c a) by (rewrite ar_rot; auto). assert (O2 : 0 < ar c a b) by (rewrite ar_rot2; auto).
  destruct (dn a) eqn:Da, (dn b) eqn:Db, (dn c) eqn:Dc.
  - unfold tcross, cross. rewrite Da, Db, Dc. split; [left; lra|]. split; intros H; [|lra]. exfalso.
    pose proof (dn_spec a) as A. pose proof (dn_spec b) as B. pose proof (dn_spec c) as C. rewrite Da in A. rewrite Db in B. rewrite Dc in C.
    destruct H as (H1 & H2 & H3). pose proof (bary a b c) as E.
    assert (0 < ar a b q * ht c) by (apply Rmult_lt_0_compat; auto). assert (0 < ar b c q * ht a) by (apply Rmult_lt_0_compat; auto).
    assert (0 < ar c a q * ht b) by (apply Rmult_lt_0_compat; auto). lra.
  - apply rot_ok, rot_ok, (case1 c a b); auto.
  - apply rot_ok, (case1 b c a); auto.
  - apply (case2 a b c); auto.
  - apply (case1 a b c); auto.
  - apply rot_ok, (case2 b c a); auto.
  - apply rot_ok, rot_ok, (case2 c a b); auto.
  - unfold tcross, cross. rewrite Da, Db, Dc. split; [left; lra|]. split; intros H; [|lra]. exfalso.
    pose proof (dn_spec a) as A. pose proof (dn_spec b) as B. pose proof (dn_spec c) as C. rewrite Da in A. rewrite Db in B. rewrite Dc in C.
    destruct H as (H1 & H2 & H3). pose proof (bary a b c) as E.
    assert (0 <= ar a b q * - ht c) by (apply Rmult_le_pos; lra). assert (0 <= ar b c q * - ht a) by (apply Rmult_le_pos; lra).
    assert (0 <= ar c a q * - ht b) by (apply Rmult_le_pos; lra).
    assert (Z3 : forall x y, 0 < x -> y <= 0 -> x * y = 0 -> y = 0).
    { intros x y X Y Q. apply Rmult_integral in Q. lra. }
    assert (ht a = 0) by (apply (Z3 (ar b c q)); lra). assert (ht b = 0) by (apply (Z3 (ar c a q)); lra).
    assert (ht c = 0) by (apply (Z3 (ar a b q)); lra).
    assert (ar a b c = (rx b - rx a) * (ht c - ht a) - (rx c - rx a) * (ht b - ht a)) by (unfold ht; geo; ring).
    rewrite H5, H6, H7 in H8. lra.
Qed.
End Cross.

(** two edges going up through one height, each with the other on its inner side *)
Lemma up_up q u v u' v' : dn q u = false -> dn q v = true -> dn q u' = false -> dn q v' = true ->
  0 <= ar u v u' -> 0 <= ar u v v' -> 0 <= ar u' v' u -> 0 <= ar u' v' v -> ar u v u' = 0 /\ ar u' v' u = 0.
Proof.
  intros Du Dv Du' Dv' H1 H2 H3 H4.
  pose proof (dn_spec q u) as A. pose proof (dn_spec q v) as B. pose proof (dn_spec q u') as A'. pose proof (dn_spec q v') as B'.
  rewrite Du in A. rewrite Dv in B. rewrite Du' in A'. rewrite Dv' in B'.
  assert (E : ht q v' * ar u v u' + - ht q u' * ar u v v' + ht q v * ar u' v' u + - ht q u * ar u' v' v = 0) by (unfold ht; geo; ring).
  assert (0 <= ht q v' * ar u v u') by (apply Rmult_le_pos; lra). assert (0 <= - ht q u' * ar u v v') by (apply Rmult_le_pos; lra).
  assert (0 <= ht q v * ar u' v' u) by (apply Rmult_le_pos; lra). assert (0 <= - ht q u * ar u' v' v) by (apply Rmult_le_pos; lra).
  assert (E1 : ht q v' * ar u v u' = 0) by lra. assert (E2 : ht q v * ar u' v' u = 0) by lra.
  apply Rmult_integral in E1. apply Rmult_integral in E2. lra.
Qed.
(** a point of a segment is inside every circle through its end points *)
Lemma between_in u v w p : ar u v p = 0 -> 0 < (ry p - ry u) * (ry v - ry p) -> 0 < ar u v w -> incirc u v w p < 0.
Proof.
  intros C Bt O.
  assert (E : (ry v - ry u) * (ry v - ry u) * incirc u v w p =
     - ar u v w * (((rx v - rx u) * (rx v - rx u) + (ry v - ry u) * (ry v - ry u)) * ((ry p - ry u) * (ry v - ry p))) +
     ar u v p * ((ry v - ry u) * (ry v - ry u) * incirc u v w p - (ry v - ry u) * (ry v - ry u) * incirc u v w p)).
  { assert (N : ry v - ry u <> 0).
    { intros Q. assert (0 <= (ry p - ry u) * (ry p - ry u)) by (apply Rle_0_sqr). 
      replace ((ry p - ry u) * (ry v - ry p)) with (- ((ry p - ry u) * (ry p - ry u))) in Bt; [lra|].
      replace (ry v - ry p) with ((ry v - ry u) - (ry p - ry u)) by ring. rewrite Q. ring. }
    assert (X : rx p = rx u + (ry p - ry u) * (rx v - rx u) / (ry v - ry u)).
    { assert ((rx p - rx u) * (ry v - ry u) = (ry p - ry u) * (rx v - rx u)) by (revert C; geo; lra).
      apply (Rmult_eq_reg_r (ry v - ry u)); auto. replace ((rx u + (ry p - ry u) * (rx v - rx u) / (ry v - ry u)) * (ry v - ry u))
        with (rx u * (ry v - ry u) + (ry p - ry u) * (rx v - rx u)) by (field; auto). lra. }
    rewrite C. geo. rewrite X. field. auto. }
  assert (N : 0 < (ry v - ry u) * (ry v - ry u)).
  { apply Rsqr_pos_lt. intros Q. assert (0 <= (ry p - ry u) * (ry p - ry u)) by (apply Rle_0_sqr). 
      replace ((ry p - ry u) * (ry v - ry p)) with (- ((ry p - ry u) * (ry p - ry u))) in Bt; [lra|].
      replace (ry v - ry p) with ((ry v - ry u) - (ry p - ry u)) by ring. rewrite Q. ring. }
  rewrite C in E. assert (D2 : 0 < (rx v - rx u) * (rx v - rx u) + (ry v - ry u) * (ry v - ry u)).
  { assert (0 <= (rx v - rx u) * (rx v - rx u)) by apply Rle_0_sqr. lra. }
  assert (0 < ar u v w * (((rx v - rx u) * (rx v - rx u) + (ry v - ry u) * (ry v - ry u)) * ((ry p - ry u) * (ry v - ry p)))) by
    (apply Rmult_lt_0_compat; auto; apply Rmult_lt_0_compat; auto).
  destruct (Rle_lt_dec 0 (incirc u v w p)) as [Q|Q]; auto. exfalso.
  assert (0 <= (ry v - ry u) * (ry v - ry u) * incirc u v w p) by (apply Rmult_le_pos; lra). lra.
Qed.

(** sums *)
Lemma Rsum_one {X} (f : X -> R) l : (forall x, In x l -> f x <= 1) -> (forall x, In x l -> 0 < f x -> f x = 1) ->
  NoDup l -> (forall x y, In x l -> In y l -> 0 < f x -> 0 < f y -> x = y) -> Rsum f l <= 1.
Proof.
  induction l as [|x l IH]; intros H1 H2 ND U; simpl; [lra|]. apply NoDup_cons_iff in ND. destruct ND as [N ND].
  destruct (Rle_lt_dec (f x) 0) as [Q|Q].
  - assert (Rsum f l <= 1); [|lra]. apply IH; auto; intros; [apply H1|apply H2|apply U]; simpl; auto.
  - assert (Rsum f l <= 0).
    { assert (G : forall m, (forall y, In y m -> In y l) -> Rsum f m <= 0).
      { induction m as [|y m IHm]; intros Hm; simpl; [lra|]. assert (Rsum f m <= 0) by (apply IHm; intros; apply Hm; simpl; auto).
        destruct (Rle_lt_dec (f y) 0) as [W|W]; [lra|]. exfalso. apply N. rewrite (U x y); simpl; auto; [apply Hm; simpl; auto|].
        right. apply Hm. simpl; auto. }
      apply G; auto. }
    pose proof (H1 x ltac:(simpl; auto)). lra.
Qed.
Lemma Rsum_pos_in {X} (f : X -> R) l : 0 < Rsum f l -> exists x, In x l /\ 0 < f x.
Proof.
  induction l as [|x l IH]; simpl; intros H; [lra|]. destruct (Rle_lt_dec (f x) 0) as [Q|Q].
  - destruct IH as (y & Hy & P); [lra|]. eauto.
  - eauto.
Qed.
Lemma Rsum_ge_in {X} (f : X -> R) l x : (forall y, In y l -> 0 <= f y) -> In x l -> f x <= Rsum f l.
Proof.
  induction l as [|y l IH]; simpl; intros H Hx; [contradiction|].
  assert (0 <= Rsum f l) by (apply Rsum_nonneg; auto). destruct Hx as [->|Hx]; [lra|].
  pose proof (IH ltac:(auto) Hx). pose proof (H y (or_introl eq_refl)). lra.
Qed.
Lemma Rsum_two {X} (f : X -> R) : forall l i j x y, (forall z, In z l -> 0 <= f z) -> (i < j)%nat -> nth_error l i = Some x -> nth_error l j = Some y ->
  f x + f y <= Rsum f l.
Proof.
  induction l as [|z l IH]; intros i j x y H Hij Hx Hy; [destruct i; discriminate|].
  destruct j as [|j]; [lia|]. destruct i as [|i]; simpl in *.
  - injection Hx as ->. apply nth_error_In in Hy. pose proof (Rsum_ge_in f l y ltac:(auto) Hy). lra.
  - pose proof (IH i j x y ltac:(auto) ltac:(lia) Hx Hy). pose proof (H z (or_introl eq_refl)). lra.
Qed.
