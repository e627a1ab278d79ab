(** Proofs about package nurbs. *)
From Coq Require Import Reals Lra Lia ZArith List Bool.
From Flocq Require Import BinarySingleNaN.
From Verif Require Import Base Arith M_r3 Spec_r3 XRvec P_meshgeom P_tri3 M_nurbs Spec_nurbs.
Import ListNotations.
Open Scope R_scope.

(** * Loops *)
Lemma for_inv {S} (P : Z -> S -> Prop) (body : Z -> S -> res S) : forall count lo s, P lo s ->
  (forall k s, (lo <= k < lo + Z.of_nat count)%Z -> P k s -> exists s', body k s = Ok s' /\ P (k + 1)%Z s') ->
  exists s', for_ count lo s body = Ok s' /\ P (lo + Z.of_nat count)%Z s'.
Proof.
  induction count as [|c IH]; intros lo s H0 H.
  - exists s. split; [reflexivity|]. now rewrite Z.add_0_r.
  - destruct (H lo s) as (s1 & E1 & P1); [lia|exact H0|].
    destruct (IH (lo + 1)%Z s1 P1) as (s2 & E2 & P2).
    { intros k s' Hk. apply H. lia. }
    exists s2. cbn [for_]. rewrite E1. cbn [rbind]. split; [exact E2|].
    replace (lo + Z.of_nat (Datatypes.S c))%Z with (lo + 1 + Z.of_nat c)%Z by lia. exact P2.
Qed.
Lemma forTo_inv {S} (P : Z -> S -> Prop) (body : Z -> S -> res S) lo hi s : (lo <= hi + 1)%Z -> P lo s ->
  (forall k s, (lo <= k <= hi)%Z -> P k s -> exists s', body k s = Ok s' /\ P (k + 1)%Z s') ->
  exists s', forTo lo hi s body = Ok s' /\ P (hi + 1)%Z s'.
Proof.
  intros L H0 H. unfold forTo.
  destruct (for_inv P body (Z.to_nat (hi - lo + 1)) lo s H0) as (s' & E & P').
  { intros k s' Hk. apply H. lia. }
  exists s'. split; [exact E|]. rewrite Z2Nat.id in P' by lia.
  replace (hi + 1)%Z with (lo + (hi - lo + 1))%Z by lia. exact P'.
Qed.
(** invariant that does not depend on the counter, empty ranges allowed *)
Lemma forTo_keep {S} (P : S -> Prop) (body : Z -> S -> res S) lo hi s : P s ->
  (forall k s, (lo <= k <= hi)%Z -> P s -> exists s', body k s = Ok s' /\ P s') ->
  exists s', forTo lo hi s body = Ok s' /\ P s'.
Proof.
  intros H0 H. unfold forTo.
  destruct (for_inv (fun _ => P) body (Z.to_nat (hi - lo + 1)) lo s H0) as (s' & E & P'); eauto.
  intros k s' Hk. apply H. lia.
Qed.

Lemma zget_upd {T} (l : list T) i j x : (0 <= i < Z.of_nat (length l))%Z ->
  zget (list_upd l (Z.to_nat i) x) j = if Z.eq_dec i j then Ok x else zget l j.
Proof.
  intros H. unfold zget. destruct (Z.ltb_spec j 0).
  - destruct (Z.eq_dec i j); [lia|reflexivity].
  - destruct (Z.eq_dec i j) as [->|N].
    + rewrite list_upd_same by lia. reflexivity.
    + rewrite list_upd_other by lia. reflexivity.
Qed.
Lemma zget_repeat {T} (x : T) n i : (0 <= i < Z.of_nat n)%Z -> zget (repeat x n) i = Ok x.
Proof.
  intros H. apply zget_ok. split; [lia|]. apply nth_error_repeat. lia.
Qed.
Lemma zget_nth {T} (l : list T) i d : (0 <= i < Z.of_nat (length l))%Z -> zget l i = Ok (nth (Z.to_nat i) l d).
Proof. intros H. apply zget_ok. split; [lia|]. apply nth_error_nth'. lia. Qed.
Lemma zget_lt {T} (l : list T) i x : zget l i = Ok x -> (0 <= i < Z.of_nat (length l))%Z.
Proof. intros H. apply zget_ok in H. destruct H as [H1 H2]. split; [lia|]. assert (Z.to_nat i < length l)%nat by (apply nth_error_Some; congruence). lia. Qed.

(** * findSpan *)
Section Span.
Context {A : Arith}.
Variable U : list Z.
Variable u : A.
Variable ur : R.
Hypothesis Hlt : forall k, In k U -> flt A u (fofZ A k) = Rltb ur (IZR k).
Hypothesis Hle : forall k, In k U -> fle A (fofZ A k) u = Rleb (IZR k) ur.
Hypothesis Heq : forall k, In k U -> feq A u (fofZ A k) = Reqb ur (IZR k).
Hypothesis Hmono : nondecreasing U.

Lemma knot_get i : (0 <= i < Z.of_nat (length U))%Z ->
  exists k, zget U i = Ok k /\ In k U /\ IZR k = knot U i.
Proof.
  intros H. exists (nth (Z.to_nat i) U 0%Z). split; [now apply zget_nth|].
  split; [apply nth_In; lia|reflexivity].
Qed.
Lemma findSpanLoop_ok : forall fuel low high, (Z.to_nat (high - low) <= fuel)%nat ->
  (0 <= low < high)%Z -> (high < Z.of_nat (length U))%Z -> knot U low <= ur -> ur < knot U high ->
  exists i, findSpanLoop fuel u U low high (Z.quot (low + high) 2) = Ok i /\
    (low <= i < high)%Z /\ knot U i <= ur < knot U (i + 1).
Proof.
  induction fuel as [|fuel IH]; intros low high Hf Hlh Hlen H1 H2; [lia|].
  rewrite Z.quot_div_nonneg by lia.
  assert (Hm : (low <= (low + high) / 2 < high)%Z).
  { split; [apply Z.div_le_lower_bound; lia|apply Z.div_lt_upper_bound; lia]. }
  set (mid := ((low + high) / 2)%Z) in *. cbn [findSpanLoop].
  destruct (knot_get mid) as (a & Ea & Ia & Ka); [lia|]. rewrite Ea. cbn [rbind].
  rewrite (Hlt a Ia), Ka. destruct (Rltb_spec ur (knot U mid)) as [B|B]; cbn [rbind].
  - assert (low < mid)%Z by (destruct (Z.eq_dec low mid) as [E|]; [rewrite E in H1; lra|lia]).
    destruct (IH low mid) as (i & Ei & Hi & Ki); try lia; try assumption.
    exists i. split; [exact Ei|]. split; [lia|exact Ki].
  - destruct (knot_get (mid + 1)) as (b & Eb & Ib & Kb); [lia|]. rewrite Eb. cbn [rbind].
    rewrite (Hle b Ib), Kb. destruct (Rleb_spec (knot U (mid + 1)) ur) as [C|C].
    + assert (mid + 1 < high)%Z by (destruct (Z.eq_dec (mid + 1) high) as [E|]; [rewrite E in C; lra|lia]).
      assert (low < mid)%Z.
      { unfold mid. destruct (Z.eq_dec high (low + 1)); [unfold mid in *; subst high; exfalso; lia|].
        assert (low + 1 <= mid)%Z; [|unfold mid in *; lia]. unfold mid. apply Z.div_le_lower_bound; lia. }
      destruct (IH mid high) as (i & Ei & Hi & Ki); try lia; try assumption.
      exists i. split; [exact Ei|]. split; [lia|exact Ki].
    + exists mid. split; [reflexivity|]. split; [lia|]. lra.
Qed.
Lemma findSpan_ok n p fuel : (0 <= p <= n)%Z -> (n + 1 < Z.of_nat (length U))%Z ->
  knot U p <= ur <= knot U (n + 1) -> (Z.to_nat (n + 1 - p) <= fuel)%nat ->
  exists i, findSpan fuel n p u U = Ok i /\ (p <= i <= n)%Z /\
    (ur = knot U (n + 1) -> i = n) /\
    (ur <> knot U (n + 1) -> knot U i <= ur < knot U (i + 1)).
Proof.
  intros Hp Hn Hu Hf. unfold findSpan.
  destruct (knot_get (n + 1)) as (b & Eb & Ib & Kb); [lia|]. rewrite Eb. cbn [rbind].
  rewrite (Heq b Ib), Kb. destruct (Reqb_spec ur (knot U (n + 1))) as [E|E].
  - exists n. split; [reflexivity|]. split; [lia|]. split; [reflexivity|]. intros H; contradiction.
  - destruct (findSpanLoop_ok fuel p (n + 1)) as (i & Ei & Hi & Ki); try lia; try lra.
    exists i. split; [exact Ei|]. split; [lia|]. split; [intros H; contradiction|auto].
Qed.

Lemma findSpanLoop_low : forall fuel low high, (0 <= low <= high)%Z -> (high < Z.of_nat (length U))%Z ->
  ur < knot U low -> findSpanLoop fuel u U low high (Z.quot (low + high) 2) = Diverge.
Proof.
  induction fuel as [|fuel IH]; intros low high Hlh Hlen H1; [reflexivity|].
  rewrite Z.quot_div_nonneg by lia.
  assert (Hm : (low <= (low + high) / 2 <= high)%Z).
  { split; [apply Z.div_le_lower_bound; lia|apply Z.div_le_upper_bound; lia]. }
  set (mid := ((low + high) / 2)%Z) in *. cbn [findSpanLoop].
  destruct (knot_get mid) as (a & Ea & Ia & Ka); [lia|]. rewrite Ea. cbn [rbind].
  rewrite (Hlt a Ia), Ka. destruct (Rltb_spec ur (knot U mid)) as [B|B]; cbn [rbind].
  - apply IH; lia || assumption.
  - pose proof (Hmono low mid ltac:(lia) ltac:(lia)). lra.
Qed.
Lemma findSpanLoop_high : forall fuel low high, (0 <= low < high)%Z -> (high < Z.of_nat (length U))%Z ->
  knot U high < ur -> findSpanLoop fuel u U low high (Z.quot (low + high) 2) = Diverge.
Proof.
  induction fuel as [|fuel IH]; intros low high Hlh Hlen H1; [reflexivity|].
  rewrite Z.quot_div_nonneg by lia.
  assert (Hm : (low <= (low + high) / 2 < high)%Z).
  { split; [apply Z.div_le_lower_bound; lia|apply Z.div_lt_upper_bound; lia]. }
  set (mid := ((low + high) / 2)%Z) in *. cbn [findSpanLoop].
  destruct (knot_get mid) as (a & Ea & Ia & Ka); [lia|]. rewrite Ea. cbn [rbind].
  pose proof (Hmono mid high ltac:(lia) ltac:(lia)).
  rewrite (Hlt a Ia), Ka. destruct (Rltb_spec ur (knot U mid)) as [B|B]; cbn [rbind]; [lra|].
  destruct (knot_get (mid + 1)) as (b & Eb & Ib & Kb); [lia|]. rewrite Eb. cbn [rbind].
  rewrite (Hle b Ib), Kb. pose proof (Hmono (mid + 1)%Z high ltac:(lia) ltac:(lia)).
  destruct (Rleb_spec (knot U (mid + 1)) ur) as [C|C]; [|lra].
  apply IH; lia || assumption.
Qed.
Lemma findSpan_diverges n p fuel : (0 <= p <= n)%Z -> (n + 1 < Z.of_nat (length U))%Z ->
  ur < knot U p \/ knot U (n + 1) < ur -> findSpan fuel n p u U = Diverge.
Proof.
  intros Hp Hn Hu. unfold findSpan.
  destruct (knot_get (n + 1)) as (b & Eb & Ib & Kb); [lia|]. rewrite Eb. cbn [rbind].
  rewrite (Heq b Ib), Kb. pose proof (Hmono p (n + 1)%Z ltac:(lia) ltac:(lia)).
  destruct (Reqb_spec ur (knot U (n + 1))) as [E|E]; [lra|]. destruct Hu as [Hu|Hu].
  - apply findSpanLoop_low; lia || assumption.
  - apply findSpanLoop_high; lia || assumption.
Qed.
End Span.

(** * The recursion *)
Lemma cdb_S t B0 d k u : coxdeboor t B0 (S d) k u =
  quo (u - t k) (t (k + Z.of_nat (S d))%Z - t k) * coxdeboor t B0 d k u +
  quo (t (k + Z.of_nat (S d) + 1)%Z - u) (t (k + Z.of_nat (S d) + 1)%Z - t (k + 1)%Z) * coxdeboor t B0 d (k + 1)%Z u.
Proof. reflexivity. Qed.
Lemma cdb_ext t B0 B1 u : forall d k, (forall j, (k <= j <= k + Z.of_nat d)%Z -> B0 j = B1 j) ->
  coxdeboor t B0 d k u = coxdeboor t B1 d k u.
Proof.
  induction d as [|d IH]; intros k H.
  - simpl. apply H. lia.
  - rewrite !cdb_S. rewrite (IH k), (IH (k + 1)%Z); [reflexivity| |]; intros j Hj; apply H; lia.
Qed.
Lemma bpiece_zero t i u : forall d k, (k + Z.of_nat d < i \/ i < k)%Z -> bpiece t i d k u = 0.
Proof.
  unfold bpiece. induction d as [|d IH]; intros k H.
  - simpl. destruct (Z.eq_dec k i); [lia|reflexivity].
  - rewrite cdb_S. rewrite (IH k), (IH (k + 1)%Z) by lia. ring.
Qed.
Lemma quo_nz a b : b <> 0 -> quo a b = a / b.
Proof. intros H. unfold quo. destruct (Req_EM_T b 0); [contradiction|reflexivity]. Qed.

(** on a span the B-splines are their polynomial pieces *)
Lemma bspline_bpiece t i d k u :
  (forall a b, (k <= a <= b)%Z -> (b <= k + Z.of_nat d + 1)%Z -> t a <= t b) -> (k <= i <= k + Z.of_nat d)%Z ->
  t i <= u < t (i + 1)%Z -> bspline t d k u = bpiece t i d k u.
Proof.
  intros M Hk Hu. apply cdb_ext. intros j Hj. unfold half_open.
  destruct (Z.eq_dec j i) as [->|N].
  - destruct (Rle_dec (t i) u); [|lra]. destruct (Rlt_dec u (t (i + 1)%Z)); lra.
  - destruct (Rle_dec (t j) u); [|reflexivity]. destruct (Rlt_dec u (t (j + 1)%Z)) as [L|]; [|reflexivity].
    exfalso. destruct (Z_lt_le_dec j i).
    + pose proof (M (j + 1)%Z i ltac:(lia) ltac:(lia)). lra.
    + pose proof (M (i + 1)%Z j ltac:(lia) ltac:(lia)). lra.
Qed.

Section Piece.
Variable t : Z -> R.
Variable i : Z.
Variable p : nat.
Hypothesis M : forall a b, (i + 1 - Z.of_nat p <= a <= b)%Z -> (b <= i + Z.of_nat p)%Z -> t a <= t b.
Hypothesis Hi : t i < t (i + 1)%Z.
Variable u : R.

Definition denom (j : nat) (r : Z) : R := t (i + r + 1)%Z - t (i - Z.of_nat j + r + 1)%Z.
Lemma denom_pos j r : (0 <= r < Z.of_nat j)%Z -> (j <= p)%nat -> 0 < denom j r.
Proof.
  intros H Hj. unfold denom.
  pose proof (M (i + 1)%Z (i + r + 1)%Z ltac:(lia) ltac:(lia)).
  pose proof (M (i - Z.of_nat j + r + 1)%Z i ltac:(lia) ltac:(lia)). lra.
Qed.
(** the two terms of the recursion for function r of degree j *)
Definition lterm (j : nat) (r : Z) : R :=   (* degree j-1 function number r-1, weight from the left *)
  match j with O => 0 | S j' =>
    if Z.eq_dec r 0 then 0
    else (u - t (i - Z.of_nat j + r)%Z) * (bpiece t i j' (i - Z.of_nat j + r)%Z u / denom j (r - 1)) end.
Definition rterm (j : nat) (r : Z) : R :=
  match j with O => 0 | S j' =>
    if Z.eq_dec r (Z.of_nat j) then 0
    else (t (i + r + 1)%Z - u) * (bpiece t i j' (i - Z.of_nat j + r + 1)%Z u / denom j r) end.
Lemma piece_split j r : (S j <= p)%nat -> (0 <= r <= Z.of_nat (S j))%Z ->
  bpiece t i (S j) (i - Z.of_nat (S j) + r)%Z u = lterm (S j) r + rterm (S j) r.
Proof.
  intros Hj Hr. unfold bpiece at 1. rewrite cdb_S. fold (bpiece t i j (i - Z.of_nat (S j) + r)%Z u).
  fold (bpiece t i j (i - Z.of_nat (S j) + r + 1)%Z u).
  unfold lterm, rterm. f_equal.
  - destruct (Z.eq_dec r 0) as [->|N].
    + rewrite bpiece_zero by lia. ring.
    + pose proof (denom_pos (S j) (r - 1) ltac:(lia) Hj) as D. unfold denom in *.
      replace (i - Z.of_nat (S j) + r + Z.of_nat (S j))%Z with (i + (r - 1) + 1)%Z by lia.
      replace (i - Z.of_nat (S j) + (r - 1) + 1)%Z with (i - Z.of_nat (S j) + r)%Z in * by lia.
      rewrite quo_nz by lra. field. lra.
  - destruct (Z.eq_dec r (Z.of_nat (S j))) as [->|N].
    + rewrite bpiece_zero by lia. ring.
    + pose proof (denom_pos (S j) r ltac:(lia) Hj) as D. unfold denom in *.
      replace (i - Z.of_nat (S j) + r + Z.of_nat (S j) + 1)%Z with (i + r + 1)%Z by lia.
      rewrite quo_nz by lra. field. lra.
Qed.
(** the terms carry the whole of the lower-degree function *)
Lemma terms_sum j r : (S j <= p)%nat -> (0 <= r < Z.of_nat (S j))%Z ->
  rterm (S j) r + lterm (S j) (r + 1) = bpiece t i j (i - Z.of_nat j + r)%Z u.
Proof.
  intros Hj Hr. pose proof (denom_pos (S j) r Hr Hj) as D. unfold rterm, lterm.
  destruct (Z.eq_dec r (Z.of_nat (S j))); [lia|]. destruct (Z.eq_dec (r + 1) 0); [lia|].
  replace (r + 1 - 1)%Z with r by lia. unfold denom in *.
  replace (i - Z.of_nat (S j) + (r + 1))%Z with (i - Z.of_nat j + r)%Z by lia.
  replace (i - Z.of_nat (S j) + r + 1)%Z with (i - Z.of_nat j + r)%Z in * by lia.
  field. lra.
Qed.
Lemma rsum_S f n : rsum f (S n) = rsum f n + f (Z.of_nat n).
Proof. reflexivity. Qed.
Lemma rsum_ext f g n : (forall k, (0 <= k < Z.of_nat n)%Z -> f k = g k) -> rsum f n = rsum g n.
Proof. induction n as [|n IH]; intros H; [reflexivity|]. rewrite !rsum_S, IH, H; [reflexivity| |]; intros; try apply H; lia. Qed.
Lemma rsum_plus f g n : rsum (fun k => f k + g k) n = rsum f n + rsum g n.
Proof. induction n as [|n IH]; simpl; [ring|rewrite IH; ring]. Qed.
Lemma rsum_shift f n : rsum f (S n) = f 0%Z + rsum (fun k => f (k + 1)%Z) n.
Proof.
  induction n as [|n IH]; [simpl; ring|]. rewrite rsum_S, IH, rsum_S.
  replace (Z.of_nat n + 1)%Z with (Z.of_nat (S n)) by lia. ring.
Qed.
Lemma piece_sum : forall j, (j <= p)%nat -> rsum (fun r => bpiece t i j (i - Z.of_nat j + r)%Z u) (S j) = 1.
Proof.
  induction j as [|j IH]; intros Hj.
  - simpl. unfold bpiece; simpl. destruct (Z.eq_dec (i - 0 + 0) i); [ring|lia].
  - rewrite (rsum_ext _ (fun r => lterm (S j) r + rterm (S j) r)) by (intros; apply piece_split; lia).
    rewrite rsum_plus. rewrite (rsum_shift (lterm (S j))). rewrite (rsum_S (rterm (S j)) (S j)).
    replace (lterm (S j) 0) with 0 by reflexivity.
    replace (rterm (S j) (Z.of_nat (S j))) with 0
      by (unfold rterm; destruct (Z.eq_dec (Z.of_nat (S j)) (Z.of_nat (S j))); [reflexivity|congruence]).
    transitivity (rsum (fun k => rterm (S j) k + lterm (S j) (k + 1)) (S j)).
    { rewrite rsum_plus. ring. }
    rewrite (rsum_ext _ (fun r => bpiece t i j (i - Z.of_nat j + r)%Z u)) by (intros; apply terms_sum; lia).
    apply IH. lia.
Qed.
Lemma piece_nonneg : t i <= u <= t (i + 1)%Z -> forall j r, (j <= p)%nat -> (0 <= r <= Z.of_nat j)%Z ->
  0 <= bpiece t i j (i - Z.of_nat j + r)%Z u.
Proof.
  intros Hu. induction j as [|j IH]; intros r Hj Hr.
  - unfold bpiece; simpl. destruct (Z.eq_dec (i - 0 + r) i); lra.
  - rewrite piece_split by lia. apply Rplus_le_le_0_compat.
    + unfold lterm. destruct (Z.eq_dec r 0) as [|N]; [lra|].
      pose proof (denom_pos (S j) (r - 1) ltac:(lia) Hj) as D.
      pose proof (M (i - Z.of_nat (S j) + r)%Z i ltac:(lia) ltac:(lia)).
      apply Rmult_le_pos; [lra|]. apply Rmult_le_pos; [|left; now apply Rinv_0_lt_compat].
      replace (i - Z.of_nat (S j) + r)%Z with (i - Z.of_nat j + (r - 1))%Z by lia. apply IH; lia.
    + unfold rterm. destruct (Z.eq_dec r (Z.of_nat (S j))) as [|N]; [lra|].
      pose proof (denom_pos (S j) r ltac:(lia) Hj) as D.
      pose proof (M (i + 1)%Z (i + r + 1)%Z ltac:(lia) ltac:(lia)).
      apply Rmult_le_pos; [lra|]. apply Rmult_le_pos; [|left; now apply Rinv_0_lt_compat].
      replace (i - Z.of_nat (S j) + r + 1)%Z with (i - Z.of_nat j + r)%Z by lia. apply IH; lia.
Qed.
(** end points of a clamped knot vector *)
Lemma piece_left_end : (forall a, (i + 1 - Z.of_nat p <= a <= i)%Z -> t a = u) ->
  forall j r, (j <= p)%nat -> (0 <= r <= Z.of_nat j)%Z ->
  bpiece t i j (i - Z.of_nat j + r)%Z u = if Z.eq_dec r 0 then 1 else 0.
Proof.
  intros Hc. induction j as [|j IH]; intros r Hj Hr.
  - unfold bpiece; simpl. destruct (Z.eq_dec (i - 0 + r) i), (Z.eq_dec r 0); lia || reflexivity.
  - rewrite piece_split by lia.
    assert (L : lterm (S j) r = 0).
    { unfold lterm. destruct (Z.eq_dec r 0); [reflexivity|]. rewrite (Hc (i - Z.of_nat (S j) + r)%Z) by lia. ring. }
    rewrite L. unfold rterm. destruct (Z.eq_dec r (Z.of_nat (S j))) as [|N].
    { destruct (Z.eq_dec r 0); [lia|ring]. }
    pose proof (denom_pos (S j) r ltac:(lia) Hj) as D.
    replace (i - Z.of_nat (S j) + r + 1)%Z with (i - Z.of_nat j + r)%Z by lia. rewrite IH by lia.
    destruct (Z.eq_dec r 0) as [->|]; [|field; lra].
    unfold denom in *. replace (t (i - Z.of_nat (S j) + 0 + 1)%Z) with u in * by (symmetry; apply Hc; lia).
    field. lra.
Qed.
Lemma piece_right_end : (forall a, (i + 1 <= a <= i + Z.of_nat p)%Z -> t a = u) ->
  forall j r, (j <= p)%nat -> (0 <= r <= Z.of_nat j)%Z ->
  bpiece t i j (i - Z.of_nat j + r)%Z u = if Z.eq_dec r (Z.of_nat j) then 1 else 0.
Proof.
  intros Hc. induction j as [|j IH]; intros r Hj Hr.
  - unfold bpiece; simpl. destruct (Z.eq_dec (i - 0 + r) i), (Z.eq_dec r 0); lia || reflexivity.
  - rewrite piece_split by lia.
    assert (L : rterm (S j) r = 0).
    { unfold rterm. destruct (Z.eq_dec r (Z.of_nat (S j))); [reflexivity|]. rewrite (Hc (i + r + 1)%Z) by lia. ring. }
    rewrite L. unfold lterm. destruct (Z.eq_dec r 0) as [|N].
    { destruct (Z.eq_dec r (Z.of_nat (S j))); [lia|ring]. }
    pose proof (denom_pos (S j) (r - 1) ltac:(lia) Hj) as D.
    replace (bpiece t i j (i - Z.of_nat (S j) + r)%Z u) with (if Z.eq_dec (r - 1) (Z.of_nat j) then 1 else 0)
      by (rewrite <- IH by lia; f_equal; lia).
    destruct (Z.eq_dec (r - 1) (Z.of_nat j)), (Z.eq_dec r (Z.of_nat (S j))); try lia; [|field; lra].
    unfold denom in *. replace (t (i + (r - 1) + 1)%Z) with u in * by (symmetry; apply Hc; lia).
    replace (i - Z.of_nat (S j) + (r - 1) + 1)%Z with (i - Z.of_nat (S j) + r)%Z in * by lia. field. lra.
Qed.
End Piece.

(** * basisFuns in exact arithmetic *)
Lemma make_ok {T} n (x : T) : (0 <= n)%Z -> make n x = Ok (repeat x (Z.to_nat n)).
Proof. intros H. unfold make. destruct (Z.ltb_spec n 0); [lia|reflexivity]. Qed.

Section Basis.
Variable U : list Z.
Variable i p : Z.
Hypothesis Hp : (0 <= p)%Z.
Hypothesis Hlo : (0 <= i + 1 - p)%Z.
Hypothesis Hhi : (i + p < Z.of_nat (length U))%Z.
Hypothesis Mono : nondecreasing U.
Hypothesis Hspan : knot U i < knot U (i + 1).
Variable u : R.
Notation t := (knot U).
Local Notation B j r := (bpiece t i j (Z.add (Z.sub i (Z.of_nat j)) r) u).

Lemma basis_mono : forall a b, (i + 1 - Z.of_nat (Z.to_nat p) <= a <= b)%Z ->
  (b <= i + Z.of_nat (Z.to_nat p))%Z -> t a <= t b.
Proof. intros a b H1 H2. apply Mono; lia. Qed.
Let Hmono := basis_mono.

Lemma xr_ring_div (a b c : R) : b + c <> 0 -> xdiv (Fin a) (xadd (Fin b) (Fin c)) = Fin (a / (b + c)).
Proof. intros H. cbn. destruct (Reqb_spec (b + c) 0); [contradiction|reflexivity]. Qed.

Lemma basisInner_ok (lft rgt : list XR) (j : nat) : (S j <= Z.to_nat p)%nat ->
  (forall k, (1 <= k <= Z.of_nat (S j))%Z -> zget lft k = Ok (Fin (u - t (i + 1 - k)))) ->
  (forall k, (1 <= k <= Z.of_nat (S j))%Z -> zget rgt k = Ok (Fin (t (i + k) - u))) ->
  forall N : list XR, length N = Z.to_nat (p + 1) ->
  (forall r, (0 <= r <= Z.of_nat j)%Z -> zget N r = Ok (Fin (B j r))) ->
  exists N' : list XR, forTo 0 (Z.of_nat (S j) - 1) (N, fofZ XR 0) (basisInner lft rgt (Z.of_nat (S j)))
               = Ok (N', Fin (B (S j) (Z.of_nat (S j)))) /\
    length N' = Z.to_nat (p + 1) /\ (forall r, (0 <= r <= Z.of_nat j)%Z -> zget N' r = Ok (Fin (B (S j) r))).
Proof.
  intros Hj HL HR N LN HN.
  destruct (forTo_inv (fun r (s : list XR * XR) => length (fst s) = Z.to_nat (p + 1) /\
      snd s = Fin (lterm t i u (S j) r) /\
      (forall q, (0 <= q < r)%Z -> zget (fst s) q = Ok (Fin (B (S j) q))) /\
      (forall q, (r <= q <= Z.of_nat j)%Z -> zget (fst s) q = Ok (Fin (B j q))))
    (basisInner lft rgt (Z.of_nat (S j))) 0 (Z.of_nat (S j) - 1) (N, fofZ XR 0)) as ([N' sv] & E & LN' & Es & H1 & _).
  - lia.
  - cbn [fst snd]. split; [exact LN|]. split; [reflexivity|]. split; [intros; lia|]. intros; apply HN; lia.
  - intros r [M0 s0] Hr (L0 & S0 & Q1 & Q2). cbn [fst snd] in *. unfold basisInner.
    rewrite (Q2 r) by lia. cbn [rbind]. rewrite HR by lia. cbn [rbind]. rewrite HL by lia. cbn [rbind].
    pose proof (denom_pos t i (Z.to_nat p) Hmono Hspan (S j) r ltac:(lia) ltac:(lia)) as D. unfold denom in D.
    cbn [fadd fsub fmul fdiv XR].
    assert (ED : t (i + (r + 1)) - u + (u - t (i + 1 - (Z.of_nat (S j) - r))) =
                 t (i + r + 1)%Z - t (i - Z.of_nat (S j) + r + 1)%Z).
    { replace (i + (r + 1))%Z with (i + r + 1)%Z by lia.
      replace (i + 1 - (Z.of_nat (S j) - r))%Z with (i - Z.of_nat (S j) + r + 1)%Z by lia. ring. }
    rewrite xr_ring_div by (rewrite ED; lra). rewrite ED. subst s0. cbn [xadd xmul].
    rewrite zset_in_range by lia. cbn [rbind].
    eexists. split; [reflexivity|]. cbn [fst snd]. split; [now rewrite list_upd_length|].
    split; [|split].
    + f_equal. unfold lterm. destruct (Z.eq_dec (r + 1) 0); [lia|]. unfold denom.
      replace (r + 1 - 1)%Z with r by lia.
      replace (i + 1 - (Z.of_nat (S j) - r))%Z with (i - Z.of_nat (S j) + (r + 1))%Z by lia.
      replace (i - Z.of_nat j + r)%Z with (i - Z.of_nat (S j) + (r + 1))%Z by lia. reflexivity.
    + intros q Hq. rewrite zget_upd by lia. destruct (Z.eq_dec r q) as [<-|Nq]; [|apply Q1; lia].
      rewrite (piece_split t i (Z.to_nat p) Hmono Hspan u j r) by lia. do 3 f_equal.
      unfold rterm. destruct (Z.eq_dec r (Z.of_nat (S j))); [lia|]. unfold denom.
      replace (i + (r + 1))%Z with (i + r + 1)%Z by lia.
      replace (i - Z.of_nat j + r)%Z with (i - Z.of_nat (S j) + r + 1)%Z by lia. reflexivity.
    + intros q Hq. rewrite zget_upd by lia. destruct (Z.eq_dec r q) as [<-|Nq]; [lia|apply Q2; lia].
  - exists N'. cbn [fst snd] in *. subst sv.
    replace (Z.of_nat (S j) - 1 + 1)%Z with (Z.of_nat (S j)) in * by lia.
    split; [|split; [exact LN'|]].
    + rewrite E. do 3 f_equal. rewrite (piece_split t i (Z.to_nat p) Hmono Hspan u j) by lia.
      unfold rterm. destruct (Z.eq_dec (Z.of_nat (S j)) (Z.of_nat (S j))); [ring|congruence].
    + intros r Hr. apply H1. lia.
Qed.

Lemma basisFuns_get : exists N : list XR, basisFuns (A := XR) i (Fin u) p U = Ok N /\
  length N = Z.to_nat (p + 1) /\
  forall r, (0 <= r <= p)%Z -> zget N r = Ok (Fin (B (Z.to_nat p) r)).
Proof.
  unfold basisFuns. rewrite !make_ok by lia. cbn [rbind].
  rewrite zset_in_range by (rewrite repeat_length; lia). cbn [rbind].
  destruct (forTo_inv (fun j (s : list XR * list XR * list XR) =>
      let '(N, lft, rgt) := s in length N = Z.to_nat (p + 1) /\ length lft = Z.to_nat (p + 1) /\
      length rgt = Z.to_nat (p + 1) /\
      (forall k, (1 <= k < j)%Z -> zget lft k = Ok (Fin (u - t (i + 1 - k)))) /\
      (forall k, (1 <= k < j)%Z -> zget rgt k = Ok (Fin (t (i + k) - u))) /\
      (forall r, (0 <= r < j)%Z -> zget N r = Ok (Fin (bpiece t i (Z.to_nat (j - 1)) (i - (j - 1) + r)%Z u))))
    (basisOuter (A := XR) i (Fin u) U) 1 p
    (list_upd (repeat (fofZ XR 0) (Z.to_nat (p + 1))) (Z.to_nat 0) (fofZ XR 1),
       repeat (fofZ XR 0) (Z.to_nat (p + 1)), repeat (fofZ XR 0) (Z.to_nat (p + 1))))
    as ([[N lft] rgt] & E & LN & _ & _ & _ & _ & HN).
  - lia.
  - rewrite list_upd_length, repeat_length. repeat (split; [reflexivity||(intros; lia)|]).
    intros r Hr. assert (r = 0)%Z by lia. subst r. rewrite zget_upd by (rewrite repeat_length; lia).
    cbn. unfold bpiece; simpl. destruct (Z.eq_dec (i - 0 + 0) i); [reflexivity|lia].
  - intros j [[N lft] rgt] Hj (LN & LL & LR & HL & HR & HN). unfold basisOuter.
    destruct (knot_get U (i + 1 - j)) as (a & Ea & _ & Ka); [lia|]. rewrite Ea. cbn [rbind].
    rewrite zset_in_range by lia. cbn [rbind].
    destruct (knot_get U (i + j)) as (b & Eb & _ & Kb); [lia|]. rewrite Eb. cbn [rbind].
    rewrite zset_in_range by lia. cbn [rbind fsub XR fofZ xsub xadd xneg].
    destruct (Z.to_nat j) as [|j'] eqn:Ej; [lia|]. assert (Ej' : j = Z.of_nat (S j')) by lia. subst j. clear Ej.
    destruct (basisInner_ok (list_upd lft (S j') (Fin (u + - IZR a)))
                (list_upd rgt (S j') (Fin (IZR b + - u))) j' ltac:(lia)) with (N := N) as (N' & E' & LN' & HN').
    + intros k Hk. replace (S j') with (Z.to_nat (Z.of_nat (S j'))) by lia. rewrite zget_upd by lia.
      destruct (Z.eq_dec (Z.of_nat (S j')) k) as [<-|]; [|apply HL; lia]. rewrite Ka. reflexivity.
    + intros k Hk. replace (S j') with (Z.to_nat (Z.of_nat (S j'))) by lia. rewrite zget_upd by lia.
      destruct (Z.eq_dec (Z.of_nat (S j')) k) as [<-|]; [|apply HR; lia]. rewrite Kb. reflexivity.
    + exact LN.
    + intros r Hr. rewrite HN by lia. do 3 f_equal; lia.
    + match type of E' with _ = ?rhs =>
        match goal with |- context [forTo ?a ?b ?c ?d] => replace (forTo a b c d) with rhs by (symmetry; exact E') end end. cbn [rbind]. rewrite zset_in_range by lia. cbn [rbind].
      eexists. split; [reflexivity|]. cbv beta iota; rewrite !list_upd_length.
      repeat (split; [assumption|]). split; [|split].
      * intros k Hk. replace (S j') with (Z.to_nat (Z.of_nat (S j'))) by lia. rewrite zget_upd by lia.
        destruct (Z.eq_dec (Z.of_nat (S j')) k) as [<-|]; [|apply HL; lia]. rewrite Ka. reflexivity.
      * intros k Hk. replace (S j') with (Z.to_nat (Z.of_nat (S j'))) by lia. rewrite zget_upd by lia.
        destruct (Z.eq_dec (Z.of_nat (S j')) k) as [<-|]; [|apply HR; lia]. rewrite Kb. reflexivity.
      * intros r Hr. replace (Z.of_nat (S j') + 1 - 1)%Z with (Z.of_nat (S j')) by lia. rewrite Nat2Z.id.
        rewrite <- (Nat2Z.id (S j')) at 1. rewrite zget_upd by lia.
        destruct (Z.eq_dec (Z.of_nat (S j')) r) as [<-|]; [reflexivity|]. apply HN'; lia.
  - match goal with H : forTo _ _ _ _ = Ok _ |- _ => rewrite H end. cbn [rbind].
    exists N. split; [reflexivity|]. split; [exact LN|]. intros r Hr. rewrite HN by lia. do 3 f_equal; lia.
Qed.
End Basis.

(** * curvePoint in exact arithmetic *)
Lemma XR_lt u k : flt XR (Fin u) (fofZ XR k) = Rltb u (IZR k). Proof. reflexivity. Qed.
Lemma XR_le u k : fle XR (fofZ XR k) (Fin u) = Rleb (IZR k) u. Proof. reflexivity. Qed.
Lemma XR_eq u k : feq XR (Fin u) (fofZ XR k) = Reqb u (IZR k). Proof. reflexivity. Qed.

Lemma vsum_S f n : vsum f (S n) = radd (vsum f n) (f (Z.of_nat n)).
Proof. reflexivity. Qed.
Lemma curvePoint_ok (U : list Z) (P : list rv) n p u fuel :
  (0 <= p <= n)%Z -> (n + p < Z.of_nat (length U))%Z -> (n + 1 < Z.of_nat (length U))%Z ->
  (n < Z.of_nat (length P))%Z -> nondecreasing U ->
  knot U p <= u <= knot U (n + 1) -> (u = knot U (n + 1) -> knot U n < u) ->
  (Z.to_nat (n + 1 - p) <= fuel)%nat ->
  exists i, (p <= i <= n)%Z /\ knot U i <= u <= knot U (i + 1) /\ knot U i < knot U (i + 1) /\
    (u = knot U (n + 1) -> i = n) /\ (u <> knot U (n + 1) -> u < knot U (i + 1)) /\
    curvePoint fuel n p U (map fv P) (Fin u) =
    Ok (fv (vsum (fun r => rscale (bpiece (knot U) i (Z.to_nat p) (i - p + r) u)
                             (nth (Z.to_nat (i - p + r)) P rzero)) (Z.to_nat (p + 1)))).
Proof.
  intros Hp HU HU1 HP Mono Hu Hend Hf. unfold curvePoint.
  destruct (findSpan_ok U (Fin u : XR) u (fun k _ => XR_lt u k) (fun k _ => XR_le u k) (fun k _ => XR_eq u k)
     n p fuel Hp HU1 Hu Hf) as (i & Ei & Hi & He & Hne).
  assert (Hspan : knot U i <= u <= knot U (i + 1) /\ knot U i < knot U (i + 1) /\
     (u <> knot U (n + 1) -> u < knot U (i + 1))).
  { destruct (Req_dec u (knot U (n + 1))) as [E|E].
    - specialize (He E). subst i. specialize (Hend E). repeat split; try lra. 
    - specialize (Hne E). repeat split; lra. }
  destruct Hspan as (S1 & S2 & S3).
  exists i. repeat (split; [assumption|]).
  rewrite Ei. cbn [rbind].
  destruct (basisFuns_get U i p ltac:(lia) ltac:(lia) ltac:(lia) Mono S2 u) as (N & EN & LN & HN).
  rewrite EN. cbn [rbind].
  destruct (forTo_inv (fun r C => C = fv (vsum (fun r => rscale (bpiece (knot U) i (Z.to_nat p) (i - p + r) u)
                             (nth (Z.to_nat (i - p + r)) P rzero)) (Z.to_nat r)))
     (fun i0 C => let! Q := zget (map fv P) (i - p + i0) in let! Ni := zget N i0 in Ok (vec3Add C (vec3Scaled Q Ni)))%res
     0 p (mkvec (fofZ XR 0) (fofZ XR 0) (fofZ XR 0))) as (C & EC & HC).
  - lia.
  - reflexivity.
  - intros r C Hr ->. eexists. split.
    + rewrite (zget_nth _ _ (fv rzero)) by (rewrite map_length; lia). rewrite map_nth. cbn [rbind].
      rewrite HN by lia. reflexivity.
    + replace (Z.to_nat (r + 1)) with (S (Z.to_nat r)) by lia. rewrite vsum_S, Z2Nat.id by lia.
      rewrite Z2Nat.id by lia.
      unfold vec3Add, vec3Scaled, fv, radd, rscale. cbn. f_equal; f_equal; ring.
  - cbn [fofZ XR] in EC |- *. subst C. exact EC.
Qed.

(** ** convex combinations *)
Lemma rsum_le f g n : (forall k, (0 <= k < Z.of_nat n)%Z -> f k <= g k) -> rsum f n <= rsum g n.
Proof. induction n as [|n IH]; intros H; [simpl; lra|]. rewrite !rsum_S. apply Rplus_le_compat; [apply IH; intros; apply H; lia|apply H; lia]. Qed.
Lemma rsum_scale c f n : rsum (fun k => c * f k) n = c * rsum f n.
Proof. induction n as [|n IH]; simpl; [ring|rewrite IH; ring]. Qed.
Lemma vsum_coord (c : rv -> R) (Hadd : forall a b, c (radd a b) = c a + c b) (H0 : c rzero = 0)
  (Hs : forall k a, c (rscale k a) = k * c a) w Q n :
  c (vsum (fun r => rscale (w r) (Q r)) n) = rsum (fun r => w r * c (Q r)) n.
Proof. induction n as [|n IH]; [exact H0|]. rewrite vsum_S, rsum_S, Hadd, IH, Hs. reflexivity. Qed.
Lemma convex_bounds w x n lo hi : (forall k, (0 <= k < Z.of_nat n)%Z -> 0 <= w k) -> rsum w n = 1 ->
  (forall k, (0 <= k < Z.of_nat n)%Z -> lo <= x k <= hi) -> lo <= rsum (fun k => w k * x k) n <= hi.
Proof.
  intros Hw Hs Hx. split.
  - replace lo with (rsum (fun k => lo * w k) n) by (rewrite rsum_scale, Hs; ring).
    apply rsum_le. intros k Hk. rewrite Rmult_comm. apply Rmult_le_compat_l; [now apply Hw|apply Hx; exact Hk].
  - replace hi with (rsum (fun k => hi * w k) n) by (rewrite rsum_scale, Hs; ring).
    apply rsum_le. intros k Hk. rewrite (Rmult_comm hi). apply Rmult_le_compat_l; [now apply Hw|apply Hx; exact Hk].
Qed.
Lemma vsum_ext f g n : (forall k, (0 <= k < Z.of_nat n)%Z -> f k = g k) -> vsum f n = vsum g n.
Proof. induction n as [|n IH]; intros H; [reflexivity|]. rewrite !vsum_S, IH, H; [reflexivity| |]; intros; try apply H; lia. Qed.
Lemma vsum_translate w Q d n : vsum (fun r => rscale (w r) (radd (Q r) d)) n =
  radd (vsum (fun r => rscale (w r) (Q r)) n) (rscale (rsum w n) d).
Proof.
  induction n as [|n IH]; [apply rv_ext; simpl; ring|]. rewrite !vsum_S, IH, rsum_S.
  apply rv_ext; simpl; ring.
Qed.
Lemma vsum_delta w Q n a : (0 <= a < Z.of_nat n)%Z ->
  (forall k, (0 <= k < Z.of_nat n)%Z -> w k = if Z.eq_dec k a then 1 else 0) ->
  vsum (fun r => rscale (w r) (Q r)) n = Q a.
Proof.
  revert a. induction n as [|n IH]; intros a Ha H; [lia|]. rewrite vsum_S.
  destruct (Z.eq_dec a (Z.of_nat n)) as [->|N].
  - rewrite (H (Z.of_nat n)) by lia. destruct (Z.eq_dec (Z.of_nat n) (Z.of_nat n)); [|congruence].
    assert (E : vsum (fun r => rscale (w r) (Q r)) n = rzero).
    { clear IH e. induction n as [|m IHm]; [reflexivity|]. assert (G : forall j, (j <= S m)%nat -> vsum (fun r => rscale (w r) (Q r)) j = rzero).
      { induction j as [|j IHj]; intros Hj; [reflexivity|]. rewrite vsum_S, IHj by lia.
        rewrite H by lia. destruct (Z.eq_dec (Z.of_nat j) (Z.of_nat (S m))); [lia|]. apply rv_ext; simpl; ring. }
      apply G. lia. }
    rewrite E. apply rv_ext; simpl; ring.
  - rewrite (IH a) by (try lia; intros; apply H; lia). rewrite H by lia.
    destruct (Z.eq_dec (Z.of_nat n) a); [lia|]. apply rv_ext; simpl; ring.
Qed.

(** * dersBasisFuns: row 0 is identically zero *)
Definition shaped {T} (p : Z) (s : list (list T)) : Prop :=
  Z.of_nat (length s) = (p + 1)%Z /\ forall i row, zget s i = Ok row -> Z.of_nat (length row) = (p + 1)%Z.
Lemma get2_ok {T} p (s : list (list T)) i j : shaped p s -> (0 <= i <= p)%Z -> (0 <= j <= p)%Z ->
  exists x, get2 s i j = Ok x.
Proof.
  intros [L R] Hi Hj. unfold get2. destruct (zget_in_range s i) as [row E]; [lia|]. rewrite E. cbn [rbind].
  apply zget_in_range. rewrite (R i row E). lia.
Qed.
Lemma set2_ok {T} p (s : list (list T)) i j x : shaped p s -> (0 <= i <= p)%Z -> (0 <= j <= p)%Z ->
  exists s', set2 s i j x = Ok s' /\ shaped p s' /\ get2 s' i j = Ok x /\
    forall a b, (a <> i \/ b <> j) -> get2 s' a b = get2 s a b.
Proof.
  intros [L R] Hi Hj. unfold set2. destruct (zget_in_range s i) as [row E]; [lia|]. rewrite E. cbn [rbind].
  pose proof (R i row E) as LR. rewrite zset_in_range by lia. cbn [rbind]. rewrite zset_in_range by lia.
  eexists. split; [reflexivity|]. split; [split|split].
  - rewrite list_upd_length. exact L.
  - intros a r. rewrite zget_upd by lia. destruct (Z.eq_dec i a).
    + intros [= <-]. rewrite list_upd_length. exact LR.
    + apply R.
  - unfold get2. rewrite zget_upd by lia. destruct (Z.eq_dec i i); [|congruence]. cbn [rbind].
    rewrite zget_upd by lia. destruct (Z.eq_dec j j); [reflexivity|congruence].
  - intros a b H. unfold get2. rewrite zget_upd by lia. destruct (Z.eq_dec i a) as [<-|]; [|reflexivity].
    rewrite E. cbn [rbind]. rewrite zget_upd by lia. destruct (Z.eq_dec j b); [|reflexivity].
    subst. destruct H; congruence.
Qed.
Lemma shaped_repeat {T} p (x : T) : (0 <= p)%Z -> shaped p (repeat (repeat x (Z.to_nat (p + 1))) (Z.to_nat (p + 1))).
Proof.
  intros H. split; [rewrite repeat_length; lia|]. intros i row E. pose proof (zget_lt _ _ _ E) as L.
  rewrite repeat_length in L. rewrite zget_repeat in E by lia. injection E as <-. rewrite repeat_length. lia.
Qed.

Section Ders.
Context {A : Arith}.
Variable isz fin : A -> Prop.          (* is a zero; is finite *)
Hypothesis isz_0 : isz (fofZ A 0).
Variable U : list Z.
Variable i u p : Z.
Variable okdiff : Z -> Prop.           (* integers converted without loss *)
Hypothesis fin_ofZ : forall a, okdiff a -> fin (fofZ A a).
Hypothesis isz_div : forall x a b, isz x -> okdiff a -> okdiff b -> (0 < a + b)%Z ->
  isz (fdiv A x (fadd A (fofZ A a) (fofZ A b))).
Hypothesis isz_mul : forall x y, fin x -> isz y -> isz (fmul A x y).
Hypothesis isz_add : forall x y, isz x -> isz y -> isz (fadd A x y).
Hypothesis Hp : (0 <= p)%Z.
Hypothesis Hlo : (0 <= i + 1 - p)%Z.
Hypothesis Hhi : (i + 1 < Z.of_nat (length U))%Z.
Hypothesis Mono : nondecreasing U.
Hypothesis Hspan : (nth (Z.to_nat i) U 0 < nth (Z.to_nat (i + 1)) U 0)%Z.
Hypothesis Hok : forall k, In k U -> okdiff (u - k) /\ okdiff (k - u).
Hypothesis Hi0 : (0 <= i)%Z.
Notation K j := (nth (Z.to_nat j) U 0%Z).

Definition upper_zero (s : list (list A)) : Prop :=
  forall a b x, (0 <= a <= b)%Z -> get2 s a b = Ok x -> isz x.
Lemma K_in j : (0 <= j < Z.of_nat (length U))%Z -> In (K j) U.
Proof. intros H. apply nth_In. lia. Qed.

Lemma dersInner_ok (lft rgt : list A) j : (1 <= j <= p)%Z ->
  (forall k, (1 <= k <= j)%Z -> zget lft k = Ok (fofZ A (u - K (i + 1 - k)))) ->
  (forall k, (1 <= k <= j)%Z -> zget rgt k = Ok (fofZ A (K (i + 1) - u))) ->
  forall ndu, shaped p ndu -> upper_zero ndu ->
  exists ndu' sv, forTo 0 (j - 1) (ndu, fofZ A 0) (dersInner lft rgt j) = Ok (ndu', sv) /\
    shaped p ndu' /\ upper_zero ndu' /\ isz sv.
Proof.
  intros Hj HL HR ndu Sh Up.
  destruct (forTo_keep (fun s : list (list A) * A => shaped p (fst s) /\ upper_zero (fst s) /\ isz (snd s))
     (dersInner lft rgt j) 0 (j - 1) (ndu, fofZ A 0)) as ([ndu' sv] & E & S' & U' & Z').
  - cbn. auto.
  - intros r [s0 sv] Hr (Sh0 & Up0 & Z0). cbn [fst snd] in *. unfold dersInner.
    rewrite HR by lia. cbn [rbind]. rewrite HL by lia. cbn [rbind].
    set (rr := fofZ A (K (i + 1) - u)). set (lj := fofZ A (u - K (i + 1 - (j - r)))).
    destruct (set2_ok p s0 j r (fadd A rr lj) Sh0 ltac:(lia) ltac:(lia)) as (s1 & E1 & Sh1 & G1 & O1).
    rewrite E1. cbn [rbind].
    destruct (get2_ok p s1 r (j - 1) Sh1 ltac:(lia) ltac:(lia)) as (x & Ex). rewrite Ex. cbn [rbind].
    rewrite G1. cbn [rbind].
    assert (Zx : isz x).
    { rewrite O1 in Ex by lia. apply (Up0 r (j - 1)%Z x); [lia|exact Ex]. }
    assert (HK : (K (i + 1 - (j - r)) < K (i + 1))%Z).
    { pose proof (Mono (i + 1 - (j - r))%Z i ltac:(lia) ltac:(lia)) as M. unfold knot in M.
      apply le_IZR in M. lia. }
    assert (Zt : isz (fdiv A x (fadd A rr lj))).
    { apply isz_div; [exact Zx|apply Hok, K_in; lia|apply Hok, K_in; lia|lia]. }
    assert (Fr : fin rr) by (apply fin_ofZ, Hok, K_in; lia).
    assert (Fl : fin lj) by (apply fin_ofZ, Hok, K_in; lia).
    destruct (set2_ok p s1 r j (fadd A sv (fmul A rr (fdiv A x (fadd A rr lj)))) Sh1 ltac:(lia) ltac:(lia))
      as (s2 & E2 & Sh2 & G2 & O2).
    rewrite E2. cbn [rbind]. eexists. split; [reflexivity|]. cbn [fst snd]. split; [exact Sh2|]. split.
    + intros a b y Hab Ey. destruct (Z.eq_dec a r) as [->|Na].
      * destruct (Z.eq_dec b j) as [->|Nb].
        -- rewrite G2 in Ey. injection Ey as <-. apply isz_add; [exact Z0|]. apply isz_mul; assumption.
        -- rewrite O2 in Ey by lia. rewrite O1 in Ey by lia. apply (Up0 r b); assumption.
      * rewrite O2 in Ey by lia. rewrite O1 in Ey by lia. apply (Up0 a b); assumption.
    + apply isz_mul; assumption.
  - exists ndu', sv. auto.
Qed.
Lemma ders_first : exists ndu lft rgt,
  forTo 1 p (repeat (repeat (fofZ A 0) (Z.to_nat (p + 1))) (Z.to_nat (p + 1)),
             repeat (fofZ A 0) (Z.to_nat (p + 1)), repeat (fofZ A 0) (Z.to_nat (p + 1))) (dersOuter i u U)
  = Ok (ndu, lft, rgt) /\ shaped p ndu /\ upper_zero ndu.
Proof.
  destruct (forTo_inv (fun j (s : list (list A) * list A * list A) => let '(ndu, lft, rgt) := s in
      shaped p ndu /\ upper_zero ndu /\ Z.of_nat (length lft) = (p + 1)%Z /\ Z.of_nat (length rgt) = (p + 1)%Z /\
      (forall k, (1 <= k < j)%Z -> zget lft k = Ok (fofZ A (u - K (i + 1 - k)))) /\
      (forall k, (1 <= k < j)%Z -> zget rgt k = Ok (fofZ A (K (i + 1) - u))))
    (dersOuter i u U) 1 p (repeat (repeat (fofZ A 0) (Z.to_nat (p + 1))) (Z.to_nat (p + 1)),
             repeat (fofZ A 0) (Z.to_nat (p + 1)), repeat (fofZ A 0) (Z.to_nat (p + 1))))
    as ([[ndu lft] rgt] & E & S' & U' & _).
  - lia.
  - rewrite repeat_length. split; [now apply shaped_repeat|]. split; [|split; [lia|split; [lia|split; intros; lia]]].
    intros a b x Hab E. unfold get2 in E. destruct (zget _ a) as [row| |] eqn:Er; cbn [rbind] in E; try discriminate.
    pose proof (zget_lt _ _ _ Er) as L. rewrite repeat_length in L. rewrite zget_repeat in Er by lia.
    injection Er as <-. pose proof (zget_lt _ _ _ E) as L'. rewrite repeat_length in L'.
    rewrite zget_repeat in E by lia. injection E as <-. exact isz_0.
  - intros j [[ndu lft] rgt] Hj (Sh & Up & LL & LR & HL & HR). unfold dersOuter.
    rewrite (zget_nth U _ 0%Z) by lia. cbn [rbind]. rewrite zset_in_range by lia. cbn [rbind].
    rewrite (zget_nth U _ 0%Z) by lia. cbn [rbind]. rewrite zset_in_range by lia. cbn [rbind].
    set (l1 := list_upd lft _ _). set (r1 := list_upd rgt _ _).
    assert (HL1 : forall k, (1 <= k < j + 1)%Z -> zget l1 k = Ok (fofZ A (u - K (i + 1 - k)))).
    { intros k Hk. unfold l1. rewrite zget_upd by lia. destruct (Z.eq_dec j k) as [<-|]; [reflexivity|apply HL; lia]. }
    assert (HR1 : forall k, (1 <= k < j + 1)%Z -> zget r1 k = Ok (fofZ A (K (i + 1) - u))).
    { intros k Hk. unfold r1. rewrite zget_upd by lia. destruct (Z.eq_dec j k) as [<-|]; [reflexivity|apply HR; lia]. }
    destruct (dersInner_ok l1 r1 j Hj ltac:(intros; apply HL1; lia) ltac:(intros; apply HR1; lia) ndu Sh Up)
      as (ndu' & sv & E & Sh' & Up' & Zs).
    rewrite E. cbn [rbind].
    destruct (set2_ok p ndu' j j sv Sh' ltac:(lia) ltac:(lia)) as (s2 & E2 & Sh2 & G2 & O2). rewrite E2. cbn [rbind].
    eexists. split; [reflexivity|]. cbv beta iota. split; [exact Sh2|]. split.
    + intros a b y Hab Ey. destruct (Z.eq_dec a j) as [->|Na]; [destruct (Z.eq_dec b j) as [->|Nb]|].
      * rewrite G2 in Ey. injection Ey as <-. exact Zs.
      * rewrite O2 in Ey by lia. apply (Up' j b); assumption.
      * rewrite O2 in Ey by lia. apply (Up' a b); assumption.
    + unfold l1, r1 at 1. rewrite !list_upd_length. auto.
  - exists ndu, lft, rgt. auto.
Qed.
End Ders.

(** the derivative part never leaves its arrays and never writes row 0 of [ders] *)
Section DersRest.
Context {A : Arith}.
Variable p n : Z.
Hypothesis Hn : (0 <= n <= p)%Z.
Variable ndu : list (list A).
Hypothesis Shn : shaped p ndu.
Ltac rd := match goal with
  | Sh : shaped p ?s |- context [get2 ?s ?i ?j] =>
      let x := fresh "x" in let E := fresh "E" in
      destruct (get2_ok p s i j Sh ltac:(lia) ltac:(lia)) as (x & E); rewrite E; cbn [rbind]
  end.
Ltac wr := match goal with
  | Sh : shaped p ?s |- context [set2 ?s ?i ?j ?v] =>
      let s' := fresh "s'" in let E := fresh "E" in let S' := fresh "Sh" in
      let G := fresh "G" in let O := fresh "O" in
      destruct (set2_ok p s i j v Sh ltac:(lia) ltac:(lia)) as (s' & E & S' & G & O); rewrite E; cbn [rbind]
  end.
Lemma dersK_ok r k (D0 : Z -> res A) a ders s1 s2 : (0 <= r <= p)%Z -> (1 <= k <= n)%Z ->
  shaped p a -> shaped p ders -> (forall j, get2 ders 0 j = D0 j) ->
  ((s1 = 0 /\ s2 = 1) \/ (s1 = 1 /\ s2 = 0))%Z ->
  exists a' ders', dersK ndu p r k (a, ders, s1, s2) = Ok (a', ders', s2, s1) /\
    shaped p a' /\ shaped p ders' /\ (forall j, get2 ders' 0 j = D0 j).
Proof.
  intros Hr Hk Sa Sd Hd Hs. unfold dersK.
  assert (X1 : exists a1 d1, (if (k <=? r)%Z then
       (let! x := get2 a s1 0 in
       let! y := get2 ndu (p - k + 1) (r - k) in
       let! a := set2 a s2 0 (fdiv A x y) in
       let! x := get2 a s2 0 in
       let! y := get2 ndu (r - k) (p - k) in
       Ok (a, fmul A x y))%res
     else Ok (a, fofZ A 0)) = Ok (a1, d1) /\ shaped p a1).
  { destruct (Z.leb_spec k r).
    - destruct (get2_ok p a s1 0 Sa ltac:(lia) ltac:(lia)) as (x & ->). cbn [rbind].
      destruct (get2_ok p ndu (p - k + 1) (r - k) Shn ltac:(lia) ltac:(lia)) as (y & ->). cbn [rbind].
      wr. rewrite G. cbn [rbind]. 
      destruct (get2_ok p ndu (r - k) (p - k) Shn ltac:(lia) ltac:(lia)) as (z & ->). cbn [rbind]. eauto.
    - eauto. }
  destruct X1 as (a1 & d1 & -> & Sa1). cbn [rbind].
  set (j1 := if (-1 <=? r - k)%Z then 1%Z else (- (r - k))%Z).
  set (j2 := if (r - 1 <=? p - k)%Z then (k - 1)%Z else (p - r)%Z).
  assert (J : forall j, (j1 <= j <= j2)%Z -> (1 <= j <= k)%Z /\ (0 <= r - k + j <= p)%Z).
  { intros j. unfold j1, j2. destruct (Z.leb_spec (-1) (r - k)), (Z.leb_spec (r - 1) (p - k)); lia. }
  match goal with |- context [forTo j1 j2 (a1, d1) ?b] =>
    destruct (forTo_keep (fun s : list (list A) * A => shaped p (fst s)) b j1 j2 (a1, d1) Sa1) as ([a2 d2] & -> & Sa2) end.
  { intros j [a3 d3] Hj Sa3. cbn [fst] in *. destruct (J j Hj).
    destruct (get2_ok p a3 s1 j Sa3 ltac:(lia) ltac:(lia)) as (x & ->). cbn [rbind].
    destruct (get2_ok p a3 s1 (j - 1) Sa3 ltac:(lia) ltac:(lia)) as (x' & ->). cbn [rbind].
    destruct (get2_ok p ndu (p - k + 1) (r - k + j) Shn ltac:(lia) ltac:(lia)) as (y & ->). cbn [rbind].
    wr. rewrite G. cbn [rbind].
    destruct (get2_ok p ndu r (p - k) Shn ltac:(lia) ltac:(lia)) as (z & ->). cbn [rbind].
    eexists. split; [reflexivity|assumption]. }
  cbn [rbind fst] in *.
  assert (X3 : exists a3 d3, (if (r <=? p - k)%Z then
       (let! x := get2 a2 s1 (k - 1) in
       let! y := get2 ndu (p - k + 1) r in
       let! a := set2 a2 s2 k (fdiv A (fneg A x) y) in
       let! x := get2 a s2 k in
       let! y := get2 ndu r (p - k) in
       Ok (a, fadd A d2 (fmul A x y)))%res
     else Ok (a2, d2)) = Ok (a3, d3) /\ shaped p a3).
  { destruct (Z.leb_spec r (p - k)).
    - destruct (get2_ok p a2 s1 (k - 1) Sa2 ltac:(lia) ltac:(lia)) as (x & ->). cbn [rbind].
      destruct (get2_ok p ndu (p - k + 1) r Shn ltac:(lia) ltac:(lia)) as (y & ->). cbn [rbind].
      wr. rewrite G. cbn [rbind].
      destruct (get2_ok p ndu r (p - k) Shn ltac:(lia) ltac:(lia)) as (z & ->). cbn [rbind]. eauto.
    - eauto. }
  destruct X3 as (a3 & d3 & -> & Sa3). cbn [rbind].
  destruct (set2_ok p ders k r d3 Sd ltac:(lia) ltac:(lia)) as (ds & -> & Sds & _ & O). cbn [rbind].
  exists a3, ds. split; [reflexivity|]. split; [exact Sa3|]. split; [exact Sds|].
  intros j. rewrite O by lia. apply Hd.
Qed.
Lemma dersR_ok (D0 : Z -> res A) r a ders : (0 <= r <= p)%Z -> shaped p a -> shaped p ders ->
  (forall j, get2 ders 0 j = D0 j) ->
  exists a' ders', dersR ndu p n r (a, ders) = Ok (a', ders') /\
    shaped p a' /\ shaped p ders' /\ (forall j, get2 ders' 0 j = D0 j).
Proof.
  intros Hr Sa Sd Hd. unfold dersR.
  destruct (set2_ok p a 0 0 (fofZ A 1) Sa ltac:(lia) ltac:(lia)) as (a1 & -> & Sa1 & _). cbn [rbind].
  destruct (forTo_keep (fun s : list (list A) * list (list A) * Z * Z => let '(a, ders, s1, s2) := s in
      shaped p a /\ shaped p ders /\ (forall j, get2 ders 0 j = D0 j) /\
      ((s1 = 0 /\ s2 = 1) \/ (s1 = 1 /\ s2 = 0))%Z) (dersK ndu p r) 1 n (a1, ders, 0%Z, 1%Z))
    as ([[[a2 d2] s1] s2] & -> & Sa2 & Sd2 & Hd2 & _).
  - repeat (split; [assumption|]). left; auto.
  - intros k [[[a2 d2] s1] s2] Hk (Sa2 & Sd2 & Hd2 & Hs).
    destruct (dersK_ok r k D0 a2 d2 s1 s2) as (a3 & d3 & E & Sa3 & Sd3 & Hd3); auto; try lia.
    eexists. split; [exact E|]. cbv beta iota. repeat (split; [assumption|]). lia.
  - cbn [rbind]. exists a2, d2. auto.
Qed.
Lemma dersScale_ok (D0 : Z -> res A) k ders r : (1 <= k <= n)%Z -> shaped p ders ->
  (forall j, get2 ders 0 j = D0 j) ->
  exists ders' r', dersScale p k (ders, r) = Ok (ders', r') /\ shaped p ders' /\ (forall j, get2 ders' 0 j = D0 j).
Proof.
  intros Hk Sd Hd. unfold dersScale.
  match goal with |- context [forTo 0 p ders ?b] =>
    destruct (forTo_keep (fun ders => shaped p ders /\ (forall j, get2 ders 0 j = D0 j)) b 0 p ders)
      as (d2 & -> & Sd2 & Hd2) end.
  - auto.
  - intros j d1 Hj (Sd1 & Hd1). destruct (get2_ok p d1 k j Sd1 ltac:(lia) ltac:(lia)) as (x & ->). cbn [rbind].
    destruct (set2_ok p d1 k j (fmul A x (fofZ A r)) Sd1 ltac:(lia) ltac:(lia)) as (d2 & -> & Sd2 & _ & O).
    eexists. split; [reflexivity|]. split; [exact Sd2|]. intros j'. rewrite O by lia. apply Hd1.
  - cbn [rbind]. eexists d2, _. split; [reflexivity|]. auto.
Qed.
End DersRest.

Section DersAll.
Context {A : Arith}.
Variable isz fin : A -> Prop.
Hypothesis isz_0 : isz (fofZ A 0).
Variable okdiff : Z -> Prop.
Hypothesis fin_ofZ : forall a, okdiff a -> fin (fofZ A a).
Hypothesis isz_div : forall x a b, isz x -> okdiff a -> okdiff b -> (0 < a + b)%Z ->
  isz (fdiv A x (fadd A (fofZ A a) (fofZ A b))).
Hypothesis isz_mul : forall x y, fin x -> isz y -> isz (fmul A x y).
Hypothesis isz_add : forall x y, isz x -> isz y -> isz (fadd A x y).
Lemma ders_row0 (U : list Z) i u p n : (0 <= n <= p)%Z -> (0 <= i)%Z -> (0 <= i + 1 - p)%Z ->
  (i + 1 < Z.of_nat (length U))%Z -> nondecreasing U ->
  (nth (Z.to_nat i) U 0 < nth (Z.to_nat (i + 1)) U 0)%Z ->
  (forall k, In k U -> okdiff (u - k) /\ okdiff (k - u)) ->
  exists ders, dersBasisFuns (A := A) i u p n U = Ok ders /\ shaped p ders /\
    forall j, (0 <= j <= p)%Z -> exists x, get2 ders 0 j = Ok x /\ isz x.
Proof.
  intros Hn Hi Hlo Hhi Mono Hspan Hok. unfold dersBasisFuns. rewrite !make_ok by lia. cbn [rbind].
  rewrite !make_ok by lia. cbn [rbind].
  destruct (ders_first isz fin isz_0 U i u p okdiff fin_ofZ isz_div isz_mul isz_add ltac:(lia) Hlo Hhi
     Mono Hspan Hok Hi) as (ndu & lft & rgt & -> & Sh & Up). cbn [rbind].
  match goal with |- context [forTo 0 p ?d ?b] =>
    destruct (forTo_inv (fun j ders => shaped p ders /\
        forall q, (0 <= q < j)%Z -> exists x, get2 ders 0 q = Ok x /\ isz x) b 0 p d)
      as (d0 & -> & Sd & Hd) end.
  - lia.
  - split; [apply shaped_repeat; lia|intros; lia].
  - intros j d Hj (Sd & Hd). destruct (get2_ok p ndu j p Sh ltac:(lia) ltac:(lia)) as (x & Ex). rewrite Ex. cbn [rbind].
    destruct (set2_ok p d 0 j x Sd ltac:(lia) ltac:(lia)) as (d' & -> & Sd' & G & O).
    eexists. split; [reflexivity|]. split; [exact Sd'|]. intros q Hq. destruct (Z.eq_dec q j) as [->|N].
    + exists x. split; [exact G|]. apply (Up j p); [lia|exact Ex].
    + rewrite O by lia. apply Hd. lia.
  - cbn [rbind].
    match goal with |- context [forTo 0 p ?d ?b] =>
      destruct (forTo_keep (fun s : list (list A) * list (list A) => let '(a, ders) := s in shaped p a /\ shaped p ders /\
        forall q, get2 ders 0 q = get2 d0 0 q) b 0 p d) as ([a1 d1] & -> & Sa1 & Sd1 & Hd1) end.
    + split; [apply shaped_repeat; lia|]. auto.
    + intros r [a d] Hr (Sa & Sd' & Hd').
      destruct (dersR_ok p n Hn ndu Sh (fun q => get2 d0 0 q) r a d Hr Sa Sd' Hd') as (a' & d' & E & H1 & H2 & H3).
      exists (a', d'). auto.
    + cbn [rbind].
      match goal with |- context [forTo 1 n ?d ?b] =>
        destruct (forTo_keep (fun s : list (list A) * Z => shaped p (fst s) /\
          forall q, get2 (fst s) 0 q = get2 d0 0 q) b 1 n d) as ([d2 rr] & -> & Sd2 & Hd2) end.
      * auto.
      * intros k [d r] Hk (Sd' & Hd'). cbn [fst] in *.
        destruct (dersScale_ok p n Hn (fun q => get2 d0 0 q) k d r Hk Sd' Hd') as (d' & r' & E & H1 & H2).
        exists (d', r'). auto.
      * cbn [rbind fst] in *. exists d2. split; [reflexivity|]. split; [exact Sd2|].
        intros j Hj. rewrite Hd2. apply Hd. lia.
Qed.
End DersAll.
Lemma ders_row0_XR (U : list Z) i u p n : (0 <= n <= p)%Z -> (0 <= i)%Z -> (0 <= i + 1 - p)%Z ->
  (i + 1 < Z.of_nat (length U))%Z -> nondecreasing U ->
  (nth (Z.to_nat i) U 0 < nth (Z.to_nat (i + 1)) U 0)%Z ->
  exists ders, dersBasisFuns (A := XR) i u p n U = Ok ders /\ shaped p ders /\
    forall j, (0 <= j <= p)%Z -> get2 ders 0 j = Ok (Fin 0 : XR).
Proof.
  intros H1 H2 H3 H4 H5 H6.
  destruct (ders_row0 (A := XR) (fun x => x = Fin 0) (fun x => exists r, x = Fin r)) with
    (okdiff := fun _ : Z => True) (U := U) (i := i) (u := u) (p := p) (n := n) as (d & E & S & H); try assumption; try reflexivity; auto.
  - intros a _. exists (IZR a). reflexivity.
  - intros x a b -> _ _ Hab. cbn. destruct (Reqb_spec (IZR a + IZR b) 0) as [Z|Z].
    + rewrite <- plus_IZR in Z. apply eq_IZR in Z. lia.
    + f_equal. field. exact Z.
  - intros x y [r ->] ->. cbn. f_equal. ring.
  - intros x y -> ->. cbn. f_equal. ring.
  - exists d. split; [exact E|]. split; [exact S|]. intros j Hj. destruct (H j Hj) as (x & Ex & ->). exact Ex.
Qed.

(** asking for more than p derivatives panics *)
Lemma for_app {S} (body : Z -> S -> res S) a b : forall i s,
  for_ (a + b) i s body = rbind (for_ a i s body) (fun s' => for_ b (i + Z.of_nat a)%Z s' body).
Proof.
  induction a as [|a IH]; intros i s.
  - cbn. now rewrite Z.add_0_r.
  - cbn [Nat.add for_]. destruct (body i s) as [s1| |]; cbn [rbind]; try reflexivity.
    rewrite IH. replace (i + Z.of_nat (Datatypes.S a))%Z with (i + 1 + Z.of_nat a)%Z by lia. reflexivity.
Qed.
Lemma dersK_panic {A : Arith} p (ndu a ders : list (list A)) s1 s2 : (0 <= p)%Z -> shaped p ders ->
  dersK ndu p 0 (p + 1) (a, ders, s1, s2) = Panic.
Proof.
  intros Hp [L _]. unfold dersK. destruct (Z.leb_spec (p + 1) 0); [lia|]. cbn [rbind].
  match goal with |- context [forTo ?a ?b ?c ?d] => assert (E : forTo a b c d = Ok c) end.
  { unfold forTo. match goal with |- for_ (Z.to_nat ?x) _ _ _ = _ => assert (Hx : (x <= 0)%Z) end.
    { destruct (Z.leb_spec (-1) (0 - (p + 1))), (Z.leb_spec (0 - 1) (p - (p + 1))); lia. }
    match goal with |- for_ ?k _ _ _ = _ => replace k with O by lia end. reflexivity. }
  rewrite E. cbn [rbind]. destruct (Z.leb_spec 0 (p - (p + 1))); [lia|]. cbn [rbind].
  unfold set2. destruct (zget ders (p + 1)) eqn:G; [|reflexivity|].
  - apply zget_lt in G. lia.
  - unfold zget in G. destruct (p + 1 <? 0)%Z; [discriminate|]. destruct (nth_error ders _); discriminate.
Qed.
Lemma dersR_panic {A : Arith} p n (ndu a ders : list (list A)) : (0 <= p < n)%Z ->
  shaped p ndu -> shaped p a -> shaped p ders -> dersR ndu p n 0 (a, ders) = Panic.
Proof.
  intros Hn Sn Sa Sd. unfold dersR.
  destruct (set2_ok p a 0 0 (fofZ A 1) Sa ltac:(lia) ltac:(lia)) as (a1 & -> & Sa1 & _). cbn [rbind].
  unfold forTo. replace (Z.to_nat (n - 1 + 1)) with (Z.to_nat (p - 1 + 1) + S (Z.to_nat (n - p - 1)))%nat by lia.
  rewrite for_app. fold (forTo 1 p (a1, ders, 0%Z, 1%Z) (dersK ndu p 0)).
  destruct (forTo_keep (fun s : list (list A) * list (list A) * Z * Z => let '(a, ders, s1, s2) := s in
      shaped p a /\ shaped p ders /\ (forall j, get2 ders 0 j = get2 ders 0 j) /\
      ((s1 = 0 /\ s2 = 1) \/ (s1 = 1 /\ s2 = 0))%Z) (dersK ndu p 0) 1 p (a1, ders, 0%Z, 1%Z))
    as ([[[a2 d2] s1] s2] & -> & Sa2 & Sd2 & _).
  - repeat (split; [assumption || reflexivity|]). left; auto.
  - intros k [[[a2 d2] s1] s2] Hk (Sa2 & Sd2 & _ & Hs).
    destruct (dersK_ok p p ltac:(lia) ndu Sn 0 k (fun j => get2 d2 0 j) a2 d2 s1 s2)
      as (a3 & d3 & E & Sa3 & Sd3 & _); auto; try lia.
    eexists. split; [exact E|]. cbv beta iota. repeat (split; [assumption||reflexivity|]). lia.
  - cbn [rbind for_]. replace (1 + Z.of_nat (Z.to_nat (p - 1 + 1)))%Z with (p + 1)%Z by lia.
    rewrite dersK_panic by (lia || assumption). reflexivity.
Qed.
Lemma ders_panic (U : list Z) i u p n : (0 <= p < n)%Z -> (0 <= i)%Z -> (0 <= i + 1 - p)%Z ->
  (i + 1 < Z.of_nat (length U))%Z -> nondecreasing U ->
  (nth (Z.to_nat i) U 0 < nth (Z.to_nat (i + 1)) U 0)%Z ->
  dersBasisFuns (A := XR) i u p n U = Panic.
Proof.
  intros Hn Hi Hlo Hhi Mono Hspan. unfold dersBasisFuns. rewrite !make_ok by lia. cbn [rbind].
  rewrite !make_ok by lia. cbn [rbind].
  destruct (ders_first (A := XR) (fun x => x = Fin 0) (fun x => exists r, x = Fin r)) with
    (okdiff := fun _ : Z => True) (U := U) (i := i) (u := u) (p := p) as (ndu & lft & rgt & E & Sh & Up);
    try assumption; try reflexivity; auto; try lia.
  - intros a _. exists (IZR a). reflexivity.
  - intros x a b -> _ _ Hab. cbn. destruct (Reqb_spec (IZR a + IZR b) 0) as [Z|Z].
    + rewrite <- plus_IZR in Z. apply eq_IZR in Z. lia.
    + f_equal. field. exact Z.
  - intros x y [r ->] ->. cbn. f_equal. ring.
  - intros x y -> ->. cbn. f_equal. ring.
  - rewrite E. cbn [rbind].
    match goal with |- context [forTo 0 p ?d ?b] =>
      destruct (forTo_keep (fun ders => shaped p ders) b 0 p d) as (d0 & -> & Sd) end.
    + apply shaped_repeat; lia.
    + intros j d Hj Sd. destruct (get2_ok p ndu j p Sh ltac:(lia) ltac:(lia)) as (x & ->). cbn [rbind].
      destruct (set2_ok p d 0 j x Sd ltac:(lia) ltac:(lia)) as (d' & -> & Sd' & G & O). eauto.
    + cbn [rbind]. unfold forTo at 1. replace (Z.to_nat (p - 0 + 1)) with (S (Z.to_nat p)) by lia. cbn [for_].
      rewrite dersR_panic; [reflexivity|lia|exact Sh|apply shaped_repeat; lia|exact Sd].
Qed.

(** binary64 comparisons with exactly converted integers *)
Lemma bfin_ofZ n : (Z.abs n < 2 ^ 53)%Z -> bfin (b64_of_Z n).
Proof.
  intros Hn. unfold bfin, b64_of_Z.
  pose proof (binary_normalize_correct 53 1024 b64_prec b64_pe mode_NE n 0 false) as C. cbv zeta in C.
  assert (E : Defs.F2R (Defs.Float Zaux.radix2 n 0) = IZR n) by (unfold Defs.F2R; simpl; ring).
  match type of C with context [Generic_fmt.round ?a ?b ?c ?d] => assert (R : Generic_fmt.round a b c d = IZR n) end.
  { rewrite E. apply Generic_fmt.round_generic; [apply valid_rnd_round_mode|].
    apply FLT.generic_format_FLT. apply (FLT.FLT_spec _ _ _ _ (Defs.Float Zaux.radix2 n 0)); simpl;
      [symmetry; exact E|exact Hn|vm_compute; discriminate]. }
  rewrite R in C. rewrite Raux.Rlt_bool_true in C; [apply C|].
  rewrite <- abs_IZR. apply Rlt_le_trans with (IZR (2 ^ 53)); [apply IZR_lt; exact Hn|].
  rewrite <- (Raux.IZR_Zpower Zaux.radix2 1024) by lia. apply IZR_le. vm_compute. discriminate.
Qed.
Lemma fle_bR (a b : B64) : bfin a -> bfin b -> fle B64 a b = Rleb (bR a) (bR b).
Proof.
  intros Ha Hb. unfold bR. cbn [fle B64]. rewrite Bleb_correct by auto.
  destruct (Raux.Rle_bool_spec (B2R a) (B2R b)); symmetry; [apply Rleb_true|apply Rleb_false]; auto.
Qed.
Lemma feq_bR (a b : B64) : bfin a -> bfin b -> feq B64 a b = Reqb (bR a) (bR b).
Proof.
  intros Ha Hb. unfold bR. cbn [feq B64]. rewrite Beqb_correct by auto.
  destruct (Raux.Req_bool_spec (B2R a) (B2R b)); symmetry; [apply Reqb_true|apply Reqb_false]; auto.
Qed.
