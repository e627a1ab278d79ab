(** Knot insertion leaves the curve unchanged; the curve has no more sign changes than its control points. *)
From Coq Require Import Reals Lra Lia ZArith List Bool Sorted.
From Verif Require Import Base Arith M_r3 Spec_r3 XRvec M_nurbs Spec_nurbs P_nurbs P_nurbs2 Spec_spline P_spline P_spline2 P_spline3 Spec_knotins.
Import ListNotations.
Open Scope R_scope.

(** ** one insertion, for knots and coefficients indexed by all integers *)
Definition tins (t : Z -> R) (s : Z) (x : R) (k : Z) : R :=
  if (k <=? s)%Z then t k else if (k =? s + 1)%Z then x else t (k - 1)%Z.
Definition cins (t : Z -> R) (d : nat) (s : Z) (x : R) (c : Z -> R) (k : Z) : R :=
  if (k <=? s - Z.of_nat d)%Z then c k else if (k <=? s)%Z then mix t x d c k else c (k - 1)%Z.
Lemma tins_lo t s x k : (k <= s)%Z -> tins t s x k = t k.
Proof. intros H. unfold tins. destruct (Z.leb_spec k s); [reflexivity|lia]. Qed.
Lemma tins_at t s x : tins t s x (s + 1) = x.
Proof. unfold tins. destruct (Z.leb_spec (s + 1) s); [lia|]. rewrite Z.eqb_refl. reflexivity. Qed.
Lemma tins_hi t s x k : (s + 1 < k)%Z -> tins t s x k = t (k - 1)%Z.
Proof. intros H. unfold tins. destruct (Z.leb_spec k s); [lia|]. destruct (Z.eqb_spec k (s + 1)); [lia|reflexivity]. Qed.
Lemma cins_lo t d s x c k : (k <= s - Z.of_nat d)%Z -> cins t d s x c k = c k.
Proof. intros H. unfold cins. destruct (Z.leb_spec k (s - Z.of_nat d)); [reflexivity|lia]. Qed.
Lemma cins_mid t d s x c k : (s - Z.of_nat d < k <= s)%Z -> cins t d s x c k = mix t x d c k.
Proof. intros H. unfold cins. destruct (Z.leb_spec k (s - Z.of_nat d)); [lia|]. destruct (Z.leb_spec k s); [reflexivity|lia]. Qed.
Lemma cins_hi t d s x c k : (s < k)%Z -> cins t d s x c k = c (k - 1)%Z.
Proof. intros H. unfold cins. destruct (Z.leb_spec k (s - Z.of_nat d)); [lia|]. destruct (Z.leb_spec k s); [lia|reflexivity]. Qed.

Definition mono (t : Z -> R) : Prop := forall a b, (a <= b)%Z -> t a <= t b.

Section Insert.
Variable t : Z -> R.
Variable s : Z.
Variable x : R.
Hypothesis M : mono t.
Hypothesis Hs : t s < t (s + 1)%Z.
Hypothesis Hx : t s <= x <= t (s + 1)%Z.

Lemma tins_mono : mono (tins t s x).
Proof.
  intros a b Hab. destruct (Z_le_gt_dec b s) as [B|B]; [rewrite !tins_lo by lia; apply M; lia|].
  destruct (Z_le_gt_dec a s) as [A|A].
  - rewrite (tins_lo t s x a) by lia. pose proof (M a s A). destruct (Z.eq_dec b (s + 1)) as [->|N].
    + rewrite tins_at. lra.
    + rewrite tins_hi by lia. pose proof (M (s + 1)%Z (b - 1)%Z ltac:(lia)). lra.
  - destruct (Z.eq_dec b (s + 1)) as [->|N].
    + assert (a = s + 1)%Z as -> by lia. lra.
    + rewrite (tins_hi t s x b) by lia. destruct (Z.eq_dec a (s + 1)) as [->|N'].
      * rewrite tins_at. pose proof (M (s + 1)%Z (b - 1)%Z ltac:(lia)). lra.
      * rewrite tins_hi by lia. apply M. lia.
Qed.

(** a round of de Boor's algorithm commutes with the insertion *)
Lemma mix_insert u d c k : 0 < tins t s x (k + Z.of_nat (S d)) - tins t s x k ->
  mix (tins t s x) u (S d) (cins t (S d) s x c) k = cins t d s x (mix t u (S d) c) k.
Proof.
  intros W. remember (Z.of_nat (S d)) as D eqn:ED. assert (HD : (1 <= D)%Z) by lia.
  unfold mix at 1. rewrite <- ED.
  destruct (Z_le_gt_dec k (s - D)) as [C1|C1].
  { rewrite (cins_lo t (S d) s x c k), (cins_lo t (S d) s x c (k - 1)) by lia. rewrite cins_lo by lia.
    rewrite !tins_lo by lia. unfold mix. rewrite <- ED. reflexivity. }
  destruct (Z.eq_dec k (s - D + 1)) as [E|C2].
  { rewrite (cins_mid t (S d) s x c k), (cins_lo t (S d) s x c (k - 1)) by lia. rewrite cins_lo by lia.
    replace (k + D)%Z with (s + 1)%Z in * by lia. rewrite tins_at in *. rewrite tins_lo in * by lia.
    unfold mix. rewrite <- ED. replace (k + D)%Z with (s + 1)%Z by lia. pose proof (M k s ltac:(lia)). field. lra. }
  destruct (Z_le_gt_dec k s) as [C3|C3].
  { rewrite (cins_mid t (S d) s x c k), (cins_mid t (S d) s x c (k - 1)) by lia. rewrite cins_mid by lia.
    rewrite (tins_hi t s x (k + D)), (tins_lo t s x k) in * by lia. unfold mix.
    replace (k + Z.of_nat d)%Z with (k + D - 1)%Z by lia. rewrite <- ED. replace (k - 1 + D)%Z with (k + D - 1)%Z by lia.
    pose proof (M k s ltac:(lia)). pose proof (M (k - 1)%Z s ltac:(lia)). pose proof (M (s + 1)%Z (k + D - 1)%Z ltac:(lia)). pose proof (M (s + 1)%Z (k + D)%Z ltac:(lia)).
    field. lra. }
  destruct (Z.eq_dec k (s + 1)) as [->|C4].
  { rewrite (cins_hi t (S d) s x c (s + 1)) by lia. replace (s + 1 - 1)%Z with s by lia. rewrite (cins_mid t (S d) s x c s) by lia.
    rewrite cins_hi by lia. rewrite tins_at in *. rewrite (tins_hi t s x (s + 1 + D)) in * by lia.
    replace (s + 1 - 1)%Z with s by lia. unfold mix. rewrite <- ED. replace (s + 1 + D - 1)%Z with (s + D)%Z in * by lia.
    pose proof (M (s + 1)%Z (s + D)%Z ltac:(lia)). field. lra. }
  rewrite (cins_hi t (S d) s x c k), (cins_hi t (S d) s x c (k - 1)) by lia. rewrite cins_hi by lia.
  rewrite !tins_hi by lia. unfold mix. rewrite <- ED. replace (k - 1 + D)%Z with (k + D - 1)%Z by lia. reflexivity.
Qed.

Lemma deboor_insert u i : tins t s x i < tins t s x (i + 1) -> forall d c,
  deboor (tins t s x) u d (cins t d s x c) i = deboor t u d c (if (i <=? s)%Z then i else (i - 1)%Z).
Proof.
  intros Hi. induction d as [|d IH]; intros c; cbn [deboor].
  - destruct (Z.leb_spec i s); [apply cins_lo|apply cins_hi]; lia.
  - rewrite <- IH. apply deboor_ext. intros k Hk. apply mix_insert.
    pose proof (tins_mono k i ltac:(lia)). pose proof (tins_mono (i + 1)%Z (k + Z.of_nat (S d))%Z ltac:(lia)). lra.
Qed.

(** each new coefficient is between the old neighbours *)
Lemma cins_sign d c y k : 0 < y * cins t d s x c k ->
  exists g, 0 < y * c g /\ (g = k \/ g = k - 1)%Z /\ ((k <= s - Z.of_nat d)%Z -> g = k) /\ ((s < k)%Z -> g = (k - 1)%Z).
Proof.
  intros H. destruct (Z_le_gt_dec k (s - Z.of_nat d)) as [C1|C1].
  { rewrite cins_lo in H by lia. exists k. split; [auto|]. lia. }
  destruct (Z_le_gt_dec k s) as [C2|C2]; [|rewrite cins_hi in H by lia; exists (k - 1)%Z; split; [auto|]; lia].
  rewrite cins_mid in H by lia. destruct (Rlt_dec 0 (y * c k)) as [P|P]; [exists k; split; [auto|]; lia|].
  destruct (Rlt_dec 0 (y * c (k - 1)%Z)) as [Q|Q]; [exists (k - 1)%Z; split; [auto|]; lia|]. exfalso.
  pose proof (M k s ltac:(lia)). pose proof (M (s + 1)%Z (k + Z.of_nat d)%Z ltac:(lia)). unfold mix in H.
  set (a := x - t k) in *. set (b := t (k + Z.of_nat d)%Z - x) in *.
  replace (t (k + Z.of_nat d)%Z - t k) with (a + b) in H by (unfold a, b; ring).
  assert (0 <= a) by (unfold a; lra). assert (0 <= b) by (unfold b; lra). assert (0 < a + b) by (unfold a, b; lra).
  pose proof (Rmult_le_compat_l a _ _ ltac:(lra) (Rnot_lt_le _ _ P)). pose proof (Rmult_le_compat_l b _ _ ltac:(lra) (Rnot_lt_le _ _ Q)).
  replace (y * ((a * c k + b * c (k - 1)%Z) / (a + b))) with ((a * (y * c k) + b * (y * c (k - 1)%Z)) * / (a + b)) in H by (field; lra).
  pose proof (Rinv_0_lt_compat (a + b) ltac:(lra)).
  pose proof (Rmult_le_compat_r (/ (a + b)) _ 0 ltac:(lra) (ltac:(lra) : a * (y * c k) + b * (y * c (k - 1)%Z) <= 0)). lra.
Qed.
End Insert.

(** ** signs that a coefficient sequence follows *)
Fixpoint follows (c : Z -> R) (ys : list R) (ks : list Z) (L N : Z) : Prop :=
  match ys, ks with
  | [], [] => True
  | y :: ys', k :: ks' => (L <= k <= N)%Z /\ 0 < y * c k /\ follows c ys' ks' (k + 1) N
  | _, _ => False
  end.
Lemma opposite a b z : a * b < 0 -> 0 < a * z -> 0 < b * z -> False.
Proof.
  intros H1 H2 H3. pose proof (Rmult_lt_0_compat _ _ H2 H3). assert (Q : a * z * (b * z) = (a * b) * (z * z)) by ring.
  rewrite Q in H. pose proof (Rle_0_sqr z) as S. unfold Rsqr in S. pose proof (Rmult_le_compat_r (z * z) (a * b) 0 S ltac:(lra)). lra.
Qed.
Lemma follows_weaken c : forall ys ks L L' N, (L' <= L)%Z -> follows c ys ks L N -> follows c ys ks L' N.
Proof. destruct ys, ks; cbn; intros; auto. intuition lia. Qed.
Lemma follows_pull c c' N : (forall y k, (k <= N + 1)%Z -> 0 < y * c' k -> exists g, 0 < y * c g /\ (g = k \/ g = k - 1)%Z /\ (k = N + 1 -> g = N)%Z) ->
  forall ys ks lo y0 g0, alternating (y0 :: ys) -> 0 < y0 * c g0 -> (g0 <= lo)%Z -> follows c' ys ks (lo + 1) (N + 1) ->
  exists ks', follows c ys ks' (g0 + 1) N.
Proof.
  intros G. induction ys as [|y ys IH]; intros ks lo y0 g0 Al Y0 Hg F; destruct ks as [|k ks]; cbn in F; try contradiction.
  - exists []. exact I.
  - destruct F as (Hk & Yk & F). destruct Al as [A0 Al].
    destruct (G y k ltac:(lia) Yk) as (g & Yg & Eg & En).
    assert (g <> g0) by (intros ->; exact (opposite _ _ _ A0 Y0 Yg)).
    destruct (IH ks k y g Al Yg ltac:(lia) F) as (ks' & F'). exists (g :: ks'). cbn. split; [|split; [exact Yg|exact F']].
    destruct (Z.eq_dec k (N + 1)) as [E|E]; [rewrite (En E)|]; lia.
Qed.
Lemma insert_pull t s x d c L N : mono t -> t s < t (s + 1)%Z -> t s <= x <= t (s + 1)%Z -> (L + Z.of_nat d <= s <= N)%Z ->
  forall ys ks, alternating ys -> follows (cins t d s x c) ys ks L (N + 1) -> exists ks', follows c ys ks' L N.
Proof.
  intros M Hs Hx HL ys ks Al F. destruct ys as [|y ys], ks as [|k ks]; cbn in F; try contradiction; [exists []; exact I|].
  destruct F as (Hk & Yk & F). destruct (cins_sign t s x M Hs Hx d c y k Yk) as (g & Yg & Eg & E1 & E2).
  destruct (follows_pull c (cins t d s x c) N) with (ys := ys) (ks := ks) (lo := k) (y0 := y) (g0 := g) as (ks' & F'); auto; try lia.
  - intros y' k' Hk' Yk'. destruct (cins_sign t s x M Hs Hx d c y' k' Yk') as (g' & A & B & C & D). exists g'. split; [auto|]. split; [auto|].
    intros ->. rewrite D by lia. lia.
  - exists (g :: ks'). cbn. split; [lia|]. auto.
Qed.

(** ** the same knot inserted r times from the left *)
Fixpoint tinsn (r : nat) (t : Z -> R) (s : Z) (x : R) : Z -> R :=
  match r with O => t | S r' => tinsn r' (tins t s x) (s + 1) x end.
Fixpoint cinsn (r : nat) (t : Z -> R) (d : nat) (s : Z) (x : R) (c : Z -> R) : Z -> R :=
  match r with O => c | S r' => cinsn r' (tins t s x) d (s + 1) x (cins t d s x c) end.
Lemma tins_step t s x : t s <= x < t (s + 1)%Z -> tins t s x (s + 1) <= x < tins t s x (s + 1 + 1).
Proof. intros H. rewrite tins_at, tins_hi by lia. replace (s + 1 + 1 - 1)%Z with (s + 1)%Z by lia. lra. Qed.
Lemma tinsn_mono : forall r t s x, mono t -> t s <= x < t (s + 1)%Z -> mono (tinsn r t s x).
Proof.
  induction r as [|r IH]; intros t s x M H; cbn; [exact M|]. apply IH; [apply tins_mono; auto; lra|]. apply tins_step; auto.
Qed.
Lemma tinsn_lo : forall r t s x k, (k <= s)%Z -> tinsn r t s x k = t k.
Proof. induction r as [|r IH]; intros t s x k H; cbn; [reflexivity|]. rewrite IH by lia. apply tins_lo. lia. Qed.
Lemma tinsn_mid : forall r t s x k, (s < k <= s + Z.of_nat r)%Z -> tinsn r t s x k = x.
Proof.
  induction r as [|r IH]; intros t s x k H; cbn -[Z.of_nat]; [lia|]. destruct (Z.eq_dec k (s + 1)) as [->|N].
  - rewrite tinsn_lo by lia. apply tins_at.
  - apply IH. lia.
Qed.
Lemma tinsn_hi : forall r t s x k, (s + Z.of_nat r < k)%Z -> tinsn r t s x k = t (k - Z.of_nat r)%Z.
Proof.
  induction r as [|r IH]; intros t s x k H; cbn -[Z.of_nat]; [f_equal; lia|]. rewrite IH by lia. rewrite tins_hi by lia. f_equal. lia.
Qed.
Lemma deboor_insertn d u x : forall r t s c i, mono t -> t s <= x < t (s + 1)%Z -> (s <= i)%Z -> t i < t (i + 1)%Z ->
  deboor (tinsn r t s x) u d (cinsn r t d s x c) (i + Z.of_nat r)%Z = deboor t u d c i.
Proof.
  induction r as [|r IH]; intros t s c i M H Hi Hw; cbn -[Z.of_nat]; [f_equal; lia|].
  replace (i + Z.of_nat (S r))%Z with (i + 1 + Z.of_nat r)%Z by lia.
  assert (W : tins t s x (i + 1) < tins t s x (i + 1 + 1)).
  { destruct (Z.eq_dec i s) as [->|N]; [pose proof (tins_step t s x H) as Q; lra|].
    rewrite !tins_hi by lia. replace (i + 1 - 1)%Z with i by lia. replace (i + 1 + 1 - 1)%Z with (i + 1)%Z by lia. exact Hw. }
  rewrite IH; [|apply tins_mono; auto; lra|apply tins_step; auto|lia|exact W].
  rewrite deboor_insert by (auto; lra). destruct (Z.leb_spec (i + 1) s); [lia|]. f_equal. lia.
Qed.
Lemma insertn_pull d x L ys : alternating ys -> forall r t s c N ks, mono t -> t s <= x < t (s + 1)%Z -> (L + Z.of_nat d <= s <= N)%Z ->
  follows (cinsn r t d s x c) ys ks L (N + Z.of_nat r) -> exists ks', follows c ys ks' L N.
Proof.
  intros Al. induction r as [|r IH]; intros t s c N ks M H HL F; cbn -[Z.of_nat] in F.
  - exists ks. replace (N + Z.of_nat 0)%Z with N in F by lia. exact F.
  - replace (N + Z.of_nat (S r))%Z with (N + 1 + Z.of_nat r)%Z in F by lia.
    destruct (IH (tins t s x) (s + 1)%Z (cins t d s x c) (N + 1)%Z ks) as (ks' & F'); auto.
    + apply tins_mono; auto; lra.
    + apply tins_step; auto.
    + lia.
    + apply (insert_pull t s x d c L N M ltac:(lra) ltac:(lra) ltac:(lia) ys ks' Al F').
Qed.
(** after d insertions the value is a coefficient *)
Lemma insertn_apex t s x d c : mono t -> t s <= x < t (s + 1)%Z -> cinsn d t d s x c s = deboor t x d c s.
Proof.
  intros M H. rewrite <- (deboor_insertn d x x d t s c s M H ltac:(lia) ltac:(lra)).
  rewrite (glue_right _ (s + Z.of_nat d) x).
  - f_equal. lia.
  - intros k Hk. apply tinsn_mid. lia.
  - intros k Hk. rewrite tinsn_hi by lia. pose proof (M (s + 1)%Z (k - Z.of_nat d)%Z ltac:(lia)). lra.
Qed.

(** ** samples of a curve: increasing parameters with their spans *)
Fixpoint samples (t : Z -> R) (d : nat) (l : list (R * Z)) (L N : Z) : Prop :=
  match l with
  | [] => True
  | (u, i) :: r => (L + Z.of_nat d <= i <= N)%Z /\ t i < t (i + 1)%Z /\ t i <= u <= t (i + 1)%Z /\
      match r with [] => True | (v, j) :: _ => u < v /\ u < t (i + 1)%Z /\ (i <= j)%Z end /\ samples t d r L N
  end.
Lemma some_index (Q : Z -> Prop) (dec : forall k, {Q k} + {~ Q k}) a : forall m : nat, (exists k, (a <= k < a + Z.of_nat m)%Z /\ Q k) \/ (forall k, (a <= k < a + Z.of_nat m)%Z -> ~ Q k).
Proof.
  induction m as [|m [(k & Hk & Hq)|N]]; [right; intros; lia|left; exists k; split; [lia|auto]|].
  destruct (dec (a + Z.of_nat m)%Z) as [D|D]; [left; exists (a + Z.of_nat m)%Z; split; [lia|auto]|].
  right. intros k Hk. destruct (Z.eq_dec k (a + Z.of_nat m)) as [->|E]; [auto|]. apply N. lia.
Qed.
Lemma deboor_sign t d c u i y : mono t -> t i < t (i + 1)%Z -> t i <= u <= t (i + 1)%Z -> 0 < y * deboor t u d c i ->
  exists k, (i - Z.of_nat d <= k <= i)%Z /\ 0 < y * c k.
Proof.
  intros M Hw Hu H. destruct (some_index (fun k => 0 < y * c k) (fun k => Rlt_dec 0 (y * c k)) (i - Z.of_nat d)%Z (S d)) as [(k & Hk & Y)|N].
  - exists k. split; [lia|auto].
  - exfalso. rewrite <- deboor_scale in H.
    pose proof (deboor_nonneg t i d (fun a b _ _ => M a b ltac:(lia)) Hw u Hu d (fun k => - (y * c k)) (le_n d)) as P.
    assert (Q : deboor t u d (fun k => - (y * c k)) i = - deboor t u d (fun k => y * c k) i).
    { rewrite <- (Rmult_1_l (deboor t u d (fun k => y * c k) i)), Ropp_mult_distr_l, <- deboor_scale. apply deboor_ext. intros; ring. }
    rewrite Q in P. assert (0 <= - deboor t u d (fun k => y * c k) i); [|lra]. apply P. intros k Hk. pose proof (N k ltac:(lia)). lra.
Qed.
Definition value (t : Z -> R) (d : nat) (c : Z -> R) (q : R * Z) : R := deboor t (fst q) d c (snd q).
Lemma variation d : forall (m : nat) l t c L N, length l = m -> mono t -> samples t d l L N -> alternating (map (value t d c) l) ->
  exists ks, follows c (map (value t d c) l) ks L N.
Proof.
  induction m as [|m IH]; intros l t c L N Len M S Al; (destruct l as [|[u i] r]; [|try discriminate]); [exists []; exact I|discriminate|].
  cbn [samples] in S. destruct S as (Hi & Hw & Hu & Hr & S). destruct r as [|[v j] r].
  - clear IH. cbn [map]. unfold value at 1. cbn [fst snd].
    assert (Y : 0 < value t d c (u, i) * deboor t u d c i).
    { cbn [map alternating] in Al. unfold value in *. cbn [fst snd] in *. exact (Rlt_0_sqr _ Al). }
    destruct (deboor_sign t d c u i _ M Hw Hu Y) as (k & Hk & Yk). exists [k]. cbn. split; [lia|]. auto.
  - destruct Hr as (Huv & Hui & Hij).
    set (t' := tinsn d t i u). set (c' := cinsn d t d i u c).
    set (sh := fun q : R * Z => (fst q, (snd q + Z.of_nat d)%Z)).
    (* the remaining samples in the refined data *)
    assert (T : forall l v0 j0, samples t d ((v0, j0) :: l) L N -> u < v0 -> (i <= j0)%Z ->
      samples t' d (map sh ((v0, j0) :: l)) i (N + Z.of_nat d) /\ map (value t' d c') (map sh ((v0, j0) :: l)) = map (value t d c) ((v0, j0) :: l)).
    { clear - M Hw Hu Hui. induction l as [|[w m] l IHl]; intros v0 j0 S Huv Hij; cbn [samples] in S; destruct S as (A1 & A2 & A3 & A4 & A5).
      - assert (X : t' (j0 + Z.of_nat d)%Z <= v0 /\ t' (j0 + Z.of_nat d)%Z < t' (j0 + Z.of_nat d + 1)%Z /\ t' (j0 + Z.of_nat d + 1)%Z = t (j0 + 1)%Z).
        { unfold t'. rewrite (tinsn_hi d t i u (j0 + Z.of_nat d + 1)) by lia. replace (j0 + Z.of_nat d + 1 - Z.of_nat d)%Z with (j0 + 1)%Z by lia.
          destruct (Z.eq_dec j0 i) as [->|E].
          - destruct d as [|d']; [cbn [tinsn Z.of_nat]; rewrite Z.add_0_r; lra|]. rewrite tinsn_mid by lia. lra.
          - rewrite tinsn_hi by lia. replace (j0 + Z.of_nat d - Z.of_nat d)%Z with j0 by lia. lra. }
        destruct X as (X1 & X2 & X3). split.
        + cbn [map samples]. unfold sh. cbn [fst snd]. rewrite X3 in *. split; [lia|]. split; [lra|]. split; [lra|]. split; exact I.
        + cbn [map]. unfold value, sh. cbn [fst snd]. unfold t', c'. rewrite deboor_insertn; auto; lra.
      - assert (X : t' (j0 + Z.of_nat d)%Z <= v0 /\ t' (j0 + Z.of_nat d)%Z < t' (j0 + Z.of_nat d + 1)%Z /\ t' (j0 + Z.of_nat d + 1)%Z = t (j0 + 1)%Z).
        { unfold t'. rewrite (tinsn_hi d t i u (j0 + Z.of_nat d + 1)) by lia. replace (j0 + Z.of_nat d + 1 - Z.of_nat d)%Z with (j0 + 1)%Z by lia.
          destruct (Z.eq_dec j0 i) as [->|E].
          - destruct d as [|d']; [cbn [tinsn Z.of_nat]; rewrite Z.add_0_r; lra|]. rewrite tinsn_mid by lia. lra.
          - rewrite tinsn_hi by lia. replace (j0 + Z.of_nat d - Z.of_nat d)%Z with j0 by lia. lra. }
        destruct X as (X1 & X2 & X3). destruct A4 as (B1 & B2 & B3).
        destruct (IHl w m A5 ltac:(lra) ltac:(lia)) as (I1 & I2). split.
        + change (map sh ((v0, j0) :: (w, m) :: l)) with (sh (v0, j0) :: map sh ((w, m) :: l)).
          unfold sh at 1. cbn [fst snd]. cbn [samples]. rewrite X3 in *. split; [lia|]. split; [lra|]. split; [lra|]. split; [cbn; split; [lra|]; split; [lra|lia]|exact I1].
        + change (map sh ((v0, j0) :: (w, m) :: l)) with (sh (v0, j0) :: map sh ((w, m) :: l)). cbn [map]. cbn [map] in I2. rewrite I2. f_equal.
          unfold value, sh. cbn [fst snd]. unfold t', c'. rewrite deboor_insertn; auto; lra. }
    destruct (T r v j S Huv Hij) as (T1 & T2).
    assert (Al' : alternating (map (value t d c) ((v, j) :: r))) by (cbn [map alternating] in Al |- *; apply Al).
    assert (A0 : value t d c (u, i) * value t d c (v, j) < 0) by (cbn [map alternating] in Al; apply Al).
    assert (M' : mono t') by (apply tinsn_mono; auto; lra).
    destruct (IH (map sh ((v, j) :: r)) t' c' i (N + Z.of_nat d)%Z) as (ks & F); auto.
    { rewrite map_length. cbn [length] in Len |- *. lia. }
    { rewrite T2. exact Al'. }
    rewrite T2 in F. destruct ks as [|k ks]; cbn [map follows] in F; [contradiction|]. destruct F as (Hk & Yk & F).
    assert (Ap : c' i = value t d c (u, i)) by (apply insertn_apex; auto; lra).
    assert (Nz : value t d c (u, i) <> 0) by (intros Z0; rewrite Z0 in A0; lra).
    assert (Yi : 0 < value t d c (u, i) * c' i) by (rewrite Ap; exact (Rlt_0_sqr _ Nz)).
    assert (k <> i) by (intros ->; exact (opposite _ _ _ A0 Yi Yk)).
    apply (insertn_pull d u L (map (value t d c) ((u, i) :: (v, j) :: r)) Al d t i c N (i :: k :: ks)); auto; try lra.
    cbn [map follows]. split; [lia|]. split; [exact Yi|]. split; [lia|]. auto.
Qed.

(** ** knots given by a list, continued monotonically to all integers *)
Definition kext (U : list Z) (k : Z) : R := knot U (Z.max 0 (Z.min k (Z.of_nat (length U) - 1))).
Lemma kext_in U k : (0 <= k < Z.of_nat (length U))%Z -> kext U k = knot U k.
Proof. intros H. unfold kext. f_equal. lia. Qed.
Lemma kext_mono U : nondecreasing U -> (0 < Z.of_nat (length U))%Z -> mono (kext U).
Proof. intros Mo L a b H. unfold kext. apply Mo; lia. Qed.

(** *** insertion *)
Lemma insert_length {T} s (x : T) l : (0 <= s + 1 <= Z.of_nat (length l))%Z -> Z.of_nat (length (insert_after s x l)) = (Z.of_nat (length l) + 1)%Z.
Proof. intros H. unfold insert_after. rewrite app_length, firstn_length. cbn [length]. rewrite skipn_length. lia. Qed.
Lemma knot_insert U s x k : (0 <= s + 1 <= Z.of_nat (length U))%Z -> (0 <= k)%Z -> knot (insert_after s x U) k = tins (knot U) s (IZR x) k.
Proof.
  intros Hs Hk. unfold knot at 1, insert_after.
  assert (Lf : length (firstn (Z.to_nat (s + 1)) U) = Z.to_nat (s + 1)) by (rewrite firstn_length; lia).
  destruct (Z_le_gt_dec k s) as [C|C].
  - rewrite tins_lo by lia. rewrite app_nth1 by lia. unfold knot. f_equal.
    rewrite <- (firstn_skipn (Z.to_nat (s + 1)) U) at 2. rewrite app_nth1 by lia. reflexivity.
  - rewrite app_nth2 by lia. rewrite Lf. destruct (Z.eq_dec k (s + 1)) as [->|N].
    + rewrite tins_at. replace (Z.to_nat (s + 1) - Z.to_nat (s + 1))%nat with O by lia. reflexivity.
    + rewrite tins_hi by lia. unfold knot. f_equal.
      replace (Z.to_nat k - Z.to_nat (s + 1))%nat with (S (Z.to_nat (k - 1) - Z.to_nat (s + 1)))%nat by lia. cbn [nth].
      rewrite <- (firstn_skipn (Z.to_nat (s + 1)) U) at 2. rewrite app_nth2 by lia. rewrite Lf. reflexivity.
Qed.
Lemma boehm_nth U P n p s x k : (0 <= k <= n + 1)%Z -> ctrl (boehm U P n p s x) k = boehm_point U P p s x k.
Proof.
  intros H. unfold ctrl at 1, boehm. set (f := fun k => boehm_point U P p s x (Z.of_nat k)).
  rewrite (nth_indep _ rzero (f O)) by (rewrite map_length, seq_length; lia). rewrite map_nth, seq_nth by lia. unfold f. f_equal. lia.
Qed.
Lemma cp_ctrl a P k : cp a P k = rc a (ctrl P k).
Proof. reflexivity. Qed.
Section Model.
Variables (U : list Z) (P : list rv) (n p s x : Z).
Hypothesis D : curve_data U P n p.
Hypothesis Hs : (p <= s <= n)%Z.
Hypothesis Hx : knot U s <= IZR x < knot U (s + 1).

Lemma boehm_cp a k : (0 <= k <= n + 1)%Z -> cp a (boehm U P n p s x) k = cins (kext U) (Z.to_nat p) s (IZR x) (cp a P) k.
Proof.
  intros Hk. destruct D as (Mo & Hp & L1 & L2 & L3). rewrite cp_ctrl, boehm_nth by lia. unfold boehm_point, cins. rewrite Z2Nat.id by lia.
  destruct (Z.leb_spec k (s - p)); [reflexivity|]. destruct (Z.leb_spec k s); [|reflexivity].
  unfold mix. rewrite Z2Nat.id by lia. rewrite !kext_in by lia. rewrite !cp_ctrl.
  pose proof (Mo k s ltac:(lia) ltac:(lia)). pose proof (Mo (s + 1)%Z (k + p)%Z ltac:(lia) ltac:(lia)).
  assert (G : forall z y, rc a (radd z y) = rc a z + rc a y) by (intros; destruct a; reflexivity).
  assert (G' : forall q z, rc a (rscale q z) = q * rc a z) by (intros; destruct a; reflexivity).
  rewrite G, !G'. field. lra.
Qed.
Lemma insert_knots k : (0 <= k <= Z.of_nat (length U))%Z -> knot (insert_after s x U) k = tins (kext U) s (IZR x) k.
Proof.
  intros Hk. destruct D as (Mo & Hp & L1 & L2 & L3). rewrite knot_insert by lia. unfold tins.
  destruct (Z.leb_spec k s); [rewrite kext_in by lia; reflexivity|]. destruct (Z.eqb_spec k (s + 1)); [reflexivity|]. rewrite kext_in by lia. reflexivity.
Qed.
Lemma insert_data : curve_data (insert_after s x U) (boehm U P n p s x) (n + 1) p.
Proof.
  pose proof D as (Mo & Hp & L1 & L2 & L3).
  assert (K : mono (tins (kext U) s (IZR x))) by (apply tins_mono; [apply kext_mono; auto; lia|rewrite !kext_in by lia; lra|rewrite !kext_in by lia; lra]).
  split; [|rewrite insert_length by lia; unfold boehm; rewrite map_length, seq_length; lia].
  intros a b Hab Hb. rewrite insert_length in Hb by lia. rewrite !insert_knots by lia. apply K. lia.
Qed.
Lemma insert_curve u fuel fuel' : in_domain U n p u -> (Z.to_nat (n + 1 - p) <= fuel)%nat -> (Z.to_nat (n + 2 - p) <= fuel')%nat ->
  curvePoint fuel' (n + 1) p (insert_after s x U) (map fv (boehm U P n p s x)) (Fin u : XR) = curvePoint fuel n p U (map fv P) (Fin u : XR).
Proof.
  intros Hu Hf Hf'. pose proof D as (Mo & Hp & L1 & L2 & L3).
  destruct (domain_span U P n p u fuel D Hu Hf) as (i & Si). rewrite (curve_at U P n p u fuel i D Hf Si).
  pose proof Si as (I1 & I2 & I3 & I4 & I5).
  set (i' := if Z.ltb i s then i else if Z.ltb s i then (i + 1)%Z else if Rlt_dec u (IZR x) then i else (i + 1)%Z).
  assert (KI : forall k, (0 <= k < Z.of_nat (length U))%Z -> kext U k = knot U k) by (intros; apply kext_in; lia).
  assert (C : i' = i /\ ((i < s)%Z \/ i = s /\ u < IZR x) \/ i' = (i + 1)%Z /\ ((s < i)%Z \/ i = s /\ IZR x <= u)).
  { unfold i'. destruct (Z.ltb_spec i s); [left; auto|]. destruct (Z.ltb_spec s i); [right; auto|]. assert (i = s) by lia.
    destruct (Rlt_dec u (IZR x)); [left; auto|right; split; [auto|]; right; split; [auto|lra]]. }
  clearbody i'.
  pose proof (Mo (s + 1)%Z (n + 1)%Z ltac:(lia) ltac:(lia)) as Mn. destruct Hu as [Hu1 Hu2].
  assert (S' : span_of (insert_after s x U) (n + 1) p u i').
  { unfold span_of. rewrite !insert_knots by lia. rewrite (tins_hi _ s _ (n + 1 + 1)) by lia.
    replace (n + 1 + 1 - 1)%Z with (n + 1)%Z by lia. rewrite (KI (n + 1)%Z) by lia.
    destruct C as [(-> & [C|(C & C')])|(-> & [C|(C & C')])].
    - rewrite !tins_lo by lia. rewrite !KI by lia. pose proof (Mo (i + 1)%Z s ltac:(lia) ltac:(lia)).
      split; [lia|]. split; [lra|]. split; [lra|]. split; [intros E; lra|intros E; apply I5; exact E].
    - subst i. rewrite tins_at, tins_lo by lia. rewrite !KI by lia.
      split; [lia|]. split; [lra|]. split; [lra|]. split; intros E; lra.
    - rewrite !tins_hi by lia. replace (i + 1 + 1 - 1)%Z with (i + 1)%Z by lia. replace (i + 1 - 1)%Z with i by lia. rewrite !KI by lia.
      split; [lia|]. split; [lra|]. split; [lra|]. split; [intros E; specialize (I4 E); lia|exact I5].
    - subst i. rewrite tins_at, tins_hi by lia. replace (s + 1 + 1 - 1)%Z with (s + 1)%Z by lia. rewrite !KI by lia.
      split; [lia|]. split; [lra|]. split; [lra|]. split; [intros E; specialize (I4 E); lia|exact I5]. }
  rewrite (curve_at _ _ (n + 1) p u fuel' i' insert_data ltac:(lia) S').
  pose proof S' as (J1 & _ & J3 & _).
  assert (E : forall a, deboor (knot (insert_after s x U)) u (Z.to_nat p) (cp a (boehm U P n p s x)) i' = deboor (knot U) u (Z.to_nat p) (cp a P) i).
  { intros a. rewrite (deboor_knots _ (tins (kext U) s (IZR x))) by (intros k Hk; apply insert_knots; lia).
    rewrite (deboor_ext _ _ _ _ (cins (kext U) (Z.to_nat p) s (IZR x) (cp a P))) by (intros k Hk; apply boehm_cp; lia).
    rewrite !insert_knots in J3 by lia.
    rewrite deboor_insert; [|apply kext_mono; auto; lia|rewrite !KI by lia; lra|rewrite !KI by lia; lra|exact J3].
    replace (if (i' <=? s)%Z then i' else (i' - 1)%Z) with i by (destruct (Z.leb_spec i' s); lia).
    apply deboor_knots. intros k Hk. apply KI. lia. }
  unfold dbpoint. rewrite !E. reflexivity.
Qed.
End Model.

(** *** sign changes *)
Lemma deboor_side w h U P n p u i : curve_data U P n p -> (p <= i <= n)%Z -> knot U i < knot U (i + 1) ->
  side w h (dbpoint U P p i u) = deboor (kext U) u (Z.to_nat p) (fun k => side w h (ctrl P k)) i.
Proof.
  intros D Hi Hw. pose proof D as (Mo & Hp & L1 & L2 & L3).
  rewrite (deboor_knots (kext U) (knot U)) by (intros k Hk; apply kext_in; lia).
  unfold side, rdot, dbpoint. cbn [rx ry rz].
  rewrite (deboor_ext _ _ _ (fun k => rx w * rx (ctrl P k) + ry w * ry (ctrl P k) + rz w * rz (ctrl P k) - h)
     (fun k => 1 * (rx w * cp AX P k + ry w * cp AY P k) + 1 * (rz w * cp AZ P k + - h * 1))) by (intros; unfold cp, rc, ctrl; ring).
  rewrite deboor_lin, deboor_lin, (deboor_lin _ _ (rz w) (- h) _ (cp AZ P) (fun _ => 1)).
  rewrite (deboor_const (knot U) i (Z.to_nat p) (data_mono U P n p i D Hi) Hw) by lia. ring.
Qed.
Lemma follows_list c N : forall ys ks L, follows c ys ks L N ->
  Forall (fun k => L <= k <= N)%Z ks /\ StronglySorted Z.lt ks /\ Forall2 (fun y k => 0 < y * c k) ys ks.
Proof.
  induction ys as [|y ys IH]; intros [|k ks] L F; cbn in F; try contradiction; [repeat constructor|].
  destruct F as (Hk & Y & F). destruct (IH _ _ F) as (A & B & C). repeat split.
  - constructor; [auto|]. eapply Forall_impl; [|exact A]. cbn. intros; lia.
  - constructor; [auto|]. eapply Forall_impl; [|exact A]. cbn. intros; lia.
  - constructor; auto.
Qed.
Lemma samples_exist U P n p fuel : curve_data U P n p -> (Z.to_nat (n + 1 - p) <= fuel)%nat -> forall us,
  StronglySorted Rlt us -> Forall (in_domain U n p) us ->
  exists l, map fst l = us /\ samples (kext U) (Z.to_nat p) l 0 n /\ Forall (fun q => span_of U n p (fst q) (snd q)) l.
Proof.
  intros D Hf. pose proof D as (Mo & Hp & L1 & L2 & L3). induction us as [|u us IH]; intros So Do; [exists []; cbn; auto|].
  apply StronglySorted_inv in So. destruct So as [So Lt]. apply Forall_cons_iff in Do. destruct Do as [Du Do].
  destruct (IH So Do) as (l & El & Sl & Hl). destruct (domain_span U P n p u fuel D Du Hf) as (i & Si).
  pose proof Si as (I1 & I2 & I3 & I4 & I5). exists ((u, i) :: l). split; [cbn; congruence|]. split; [|constructor; [exact Si|exact Hl]].
  cbn [samples]. rewrite !kext_in by lia. split; [lia|]. split; [exact I3|]. split; [lra|]. split; [|exact Sl].
  destruct l as [|[v j] l]; [exact I|]. cbn in El. assert (Huv : u < v) by (subst us; apply Forall_inv in Lt; exact Lt).
  apply Forall_inv in Hl. cbn [fst snd] in Hl. destruct Hl as (J1 & J2 & J3 & J4 & J5). split; [exact Huv|].
  assert (Hn : v <= knot U (n + 1)) by (pose proof (Mo (j + 1)%Z (n + 1)%Z ltac:(lia) ltac:(lia)); lra).
  split; [apply I5; lra|]. destruct (Z_le_gt_dec i j) as [G|G]; [auto|]. pose proof (Mo (j + 1)%Z i ltac:(lia) ltac:(lia)). lra.
Qed.
Lemma curve_variation U P n p fuel w h us Cs : curve_data U P n p -> (Z.to_nat (n + 1 - p) <= fuel)%nat ->
  StronglySorted Rlt us -> Forall (in_domain U n p) us ->
  Forall2 (fun u C => curvePoint fuel n p U (map fv P) (Fin u : XR) = Ok (fv C)) us Cs ->
  alternating (map (side w h) Cs) ->
  exists ks, Forall (fun k => 0 <= k <= n)%Z ks /\ StronglySorted Z.lt ks /\ Forall2 (fun C k => 0 < side w h C * side w h (ctrl P k)) Cs ks.
Proof.
  intros D Hf So Do Cu Al. pose proof D as (Mo & Hp & L1 & L2 & L3). set (c := fun k => side w h (ctrl P k)).
  destruct (samples_exist U P n p fuel D Hf us So Do) as (l & El & Sl & Hl).
  assert (Vl : map (value (kext U) (Z.to_nat p) c) l = map (side w h) Cs).
  { clear - D Hf El Hl Cu. revert Cs us El Cu. induction Hl as [|[u i] l Si Hl IH]; intros Cs us El Cu; cbn in El; subst us; inversion Cu as [|? C ? Cs' E Cu']; subst; [reflexivity|].
    cbn [map]. rewrite (IH Cs' _ eq_refl Cu'). f_equal. cbn [fst snd] in *. pose proof Si as (I1 & I2 & I3 & I4 & I5).
    unfold value, c. cbn [fst snd]. rewrite <- (deboor_side w h U P n p u i D I1 I3). f_equal.
    rewrite (curve_at U P n p u fuel i D Hf Si) in E. apply fv_inj. congruence. }
  destruct (variation (Z.to_nat p) (length l) l (kext U) c 0 n eq_refl) as (ks & F); auto.
  { apply kext_mono; [auto|lia]. } { rewrite Vl. exact Al. }
  rewrite Vl in F. destruct (follows_list _ _ _ _ _ F) as (A & B & C). exists ks. split; [exact A|]. split; [exact B|].
  clear - C. remember (map (side w h) Cs) as ys eqn:E. revert Cs E. induction C; intros Cs E; destruct Cs as [|C0 Cs]; try discriminate; [constructor|].
  cbn [map] in E. injection E as E1 E2. constructor; [rewrite <- E1; exact H|auto].
Qed.

(** *** control values of a convex function *)
Lemma greville_ext u U n p i P : curve_data U P n p -> (1 <= p)%Z -> (p <= i <= n)%Z -> knot U i < knot U (i + 1) ->
  deboor (kext U) u (Z.to_nat p) (fun k => knot_sum (knot U) (Z.to_nat p) k / IZR p) i = u.
Proof.
  intros D Hp1 Hi Hw. pose proof D as (Mo & Hp & L1 & L2 & L3).
  rewrite (deboor_knots (kext U) (knot U)) by (intros k Hk; apply kext_in; lia).
  rewrite (deboor_ext _ _ _ _ (fun k => / IZR p * knot_sum (knot U) (Z.to_nat p) k)) by (intros; unfold Rdiv; ring).
  rewrite deboor_scale. rewrite (greville (knot U) i (Z.to_nat p) (data_mono U P n p i D Hi) Hw) by lia.
  rewrite INR_IZR_INZ, Z2Nat.id by lia. field. apply not_0_IZR. lia.
Qed.
Lemma curve_convex U P n p a fuel f u v s : curve_data U P n p -> (1 <= p)%Z -> (Z.to_nat (n + 1 - p) <= fuel)%nat -> convex f ->
  (forall k, (0 <= k <= n)%Z -> cp a P k = f (knot_sum (knot U) (Z.to_nat p) k / IZR p)) ->
  in_domain U n p u -> in_domain U n p v -> u < v -> 0 < s < 1 ->
  coordinate a (curvePoint fuel n p U (map fv P) (Fin (s * u + (1 - s) * v) : XR)) <=
  s * coordinate a (curvePoint fuel n p U (map fv P) (Fin u : XR)) + (1 - s) * coordinate a (curvePoint fuel n p U (map fv P) (Fin v : XR)).
Proof.
  intros D Hp1 Hf Cf Hc Du Dv Huv Hs. pose proof D as (Mo & Hp & L1 & L2 & L3).
  set (z := s * u + (1 - s) * v).
  assert (Hz : u < z < v).
  { unfold z. pose proof (Rmult_lt_0_compat s (v - u) ltac:(lra) ltac:(lra)). pose proof (Rmult_lt_0_compat (1 - s) (v - u) ltac:(lra) ltac:(lra)). lra. }
  assert (Dz : in_domain U n p z) by (destruct Du as [Du1 Du2], Dv as [Dv1 Dv2]; split; [lra|intros; lra]).
  destruct (samples_exist U P n p fuel D Hf [u; z; v]) as (l & El & Sl & Hl).
  { repeat constructor; lra. } { repeat (apply Forall_cons; [assumption|]); apply Forall_nil. }
  destruct l as [|[u' i] [|[z' j] [|[v' m] [|]]]]; cbn in El; try discriminate. injection El as -> -> ->.
  pose proof (Forall_inv Hl) as Hi. pose proof (Forall_inv (Forall_inv_tail Hl)) as Hj. pose proof (Forall_inv (Forall_inv_tail (Forall_inv_tail Hl))) as Hm.
  cbn [fst snd] in Hi, Hj, Hm.
  rewrite (coord_at a U P n p u fuel i D Hf Hi), (coord_at a U P n p z fuel j D Hf Hj), (coord_at a U P n p v fuel m D Hf Hm).
  set (d := Z.to_nat p) in *. set (Cu := deboor (knot U) u d (cp a P) i). set (Cz := deboor (knot U) z d (cp a P) j). set (Cv := deboor (knot U) v d (cp a P) m).
  destruct (Rle_dec Cz (s * Cu + (1 - s) * Cv)) as [G|G]; [exact G|exfalso].
  (* a line above the chord by e *)
  set (e := (Cz - (s * Cu + (1 - s) * Cv)) / 2). assert (He : 0 < e) by (unfold e; lra).
  set (al := (Cv - Cu) / (v - u)). set (be := Cu - al * u + e).
  set (xi := fun k => knot_sum (knot U) d k / IZR p). set (c := fun k => cp a P k - (al * xi k + be)).
  assert (V : forall w q, span_of U n p w q -> value (kext U) d c (w, q) = deboor (knot U) w d (cp a P) q - (al * w + be)).
  { intros w q (I1 & I2 & I3 & _). unfold value. cbn [fst snd].
    rewrite (deboor_ext _ _ _ _ (fun k => 1 * cp a P k + (-1) * (al * xi k + be * 1))) by (intros; unfold c; ring).
    rewrite deboor_lin. rewrite (deboor_lin _ _ al be _ xi (fun _ => 1)).
    unfold xi, d. rewrite (greville_ext w U n p q P D Hp1 I1 I3).
    rewrite (deboor_knots (kext U) (knot U) w (Z.to_nat p) (fun _ => 1) q) by (intros k Hk; apply kext_in; lia).
    rewrite (deboor_const (knot U) q (Z.to_nat p) (data_mono U P n p q D I1) I3) by lia.
    rewrite (deboor_knots (kext U) (knot U)) by (intros k Hk; apply kext_in; lia). ring. }
  assert (Eu : Cu - (al * u + be) = - e) by (unfold be; ring).
  assert (Ev : Cv - (al * v + be) = - e) by (unfold be, al; field; lra).
  assert (Ez : Cz - (al * z + be) = e).
  { replace (Cz - (al * z + be)) with ((Cz - (s * Cu + (1 - s) * Cv)) + s * (Cu - (al * u + be)) + (1 - s) * (Cv - (al * v + be))) by (unfold z; ring).
    rewrite Eu, Ev. unfold e. field. }
  destruct (variation d 3 [(u, i); (z, j); (v, m)] (kext U) c 0 n eq_refl) as (ks & F); auto.
  { apply kext_mono; [auto|lia]. }
  { cbn [map]. rewrite !V by assumption. fold Cu Cz Cv. rewrite Eu, Ev, Ez. pose proof (Rmult_lt_0_compat e e He He). cbn [alternating]. split; [lra|]. split; lra. }
  cbn [map] in F. rewrite !V in F by assumption. fold Cu Cz Cv in F. rewrite Eu, Ev, Ez in F.
  destruct ks as [|k1 [|k2 [|k3 [|]]]]; cbn [follows] in F; try tauto.
  destruct F as (K1 & Y1 & K2 & Y2 & K3 & Y3 & _).
  assert (P1 : c k1 < 0). { destruct (Rlt_dec (c k1) 0); [auto|]. pose proof (Rmult_le_compat_l e 0 (c k1) ltac:(lra) ltac:(lra)). lra. }
  assert (P3 : c k3 < 0). { destruct (Rlt_dec (c k3) 0); [auto|]. pose proof (Rmult_le_compat_l e 0 (c k3) ltac:(lra) ltac:(lra)). lra. }
  assert (P2 : 0 < c k2). { destruct (Rlt_dec 0 (c k2)); [auto|]. pose proof (Rmult_le_compat_l e (c k2) 0 ltac:(lra) ltac:(lra)). lra. }
  unfold c in P1, P2, P3. rewrite !Hc in P1, P2, P3 by lia. fold d in P1, P2, P3. fold (xi k1) in P1. fold (xi k2) in P2. fold (xi k3) in P3.
  assert (KS : forall q r, (0 <= q)%Z -> (q <= r)%Z -> (r <= n)%Z -> xi q <= xi r).
  { intros q r H0 H1 H2. unfold xi. apply Rmult_le_compat_r; [left; apply Rinv_0_lt_compat; apply IZR_lt; lia|].
    assert (B : forall d' : nat, (d' <= d)%nat -> knot_sum (knot U) d' q <= knot_sum (knot U) d' r).
    { induction d' as [|d' IH]; intros Hd; cbn [knot_sum]; [lra|]. pose proof (IH ltac:(lia)). pose proof (Mo (q + Z.of_nat (S d'))%Z (r + Z.of_nat (S d'))%Z ltac:(lia) ltac:(lia)). lra. }
    apply B. lia. }
  pose proof (KS k1 k2 ltac:(lia) ltac:(lia) ltac:(lia)) as Q1. pose proof (KS k2 k3 ltac:(lia) ltac:(lia) ltac:(lia)) as Q2.
  destruct (Req_dec (xi k1) (xi k3)) as [E|E].
  - assert (E' : xi k2 = xi k1) by lra. rewrite E' in P2. lra.
  - set (g := (xi k3 - xi k2) / (xi k3 - xi k1)).
    assert (Hg : 0 <= g <= 1).
    { unfold g. split; [apply Rmult_le_pos; [lra|left; apply Rinv_0_lt_compat; lra]|]. apply (Rmult_le_reg_r (xi k3 - xi k1)); [lra|]. unfold Rdiv. rewrite Rmult_assoc, Rinv_l by lra. lra. }
    pose proof (Cf g (xi k1) (xi k3) Hg) as Cg. replace (g * xi k1 + (1 - g) * xi k3) with (xi k2) in Cg by (unfold g; field; lra).
    assert (E2 : al * xi k2 + be = g * (al * xi k1 + be) + (1 - g) * (al * xi k3 + be)) by (unfold g; field; lra).
    pose proof (Rmult_le_compat_l g (f (xi k1)) (al * xi k1 + be) ltac:(lra) ltac:(lra)).
    pose proof (Rmult_le_compat_l (1 - g) (f (xi k3)) (al * xi k3 + be) ltac:(lra) ltac:(lra)). lra.
Qed.
(** and the curve lies above the function *)
Lemma deboor_jensen t i p u f : convex f -> (forall a b, (i + 1 - Z.of_nat p <= a <= b)%Z -> (b <= i + Z.of_nat p)%Z -> t a <= t b) ->
  t i < t (i + 1)%Z -> t i <= u <= t (i + 1)%Z -> forall d c, (d <= p)%nat -> f (deboor t u d c i) <= deboor t u d (fun k => f (c k)) i.
Proof.
  intros Cf M Hw Hu. induction d as [|d IH]; intros c Hd; cbn [deboor]; [lra|].
  eapply Rle_trans; [apply IH; lia|]. apply Rminus_le. 
  assert (G : 0 <= deboor t u d (fun k => mix t u (S d) (fun k => f (c k)) k - f (mix t u (S d) c k)) i).
  { apply (deboor_nonneg t i p M Hw u Hu); [lia|]. intros k Hk.
    pose proof (width t i p M Hw k (S d) ltac:(lia) Hd) as W. destruct (width_sides t i p M k (S d) u Hu ltac:(lia) Hd) as [W1 W2].
    unfold mix. set (T := t (k + Z.of_nat (S d))%Z) in *. set (g := (u - t k) / (T - t k)).
    assert (Hg : 0 <= g <= 1).
    { unfold g. split; [apply Rmult_le_pos; [lra|left; apply Rinv_0_lt_compat; lra]|]. apply (Rmult_le_reg_r (T - t k)); [lra|]. unfold Rdiv. rewrite Rmult_assoc, Rinv_l by lra. lra. }
    pose proof (Cf g (c k) (c (k - 1)%Z) Hg) as Cg.
    replace (((u - t k) * c k + (T - u) * c (k - 1)%Z) / (T - t k)) with (g * c k + (1 - g) * c (k - 1)%Z) by (unfold g; field; lra).
    replace (((u - t k) * f (c k) + (T - u) * f (c (k - 1)%Z)) / (T - t k)) with (g * f (c k) + (1 - g) * f (c (k - 1)%Z)) by (unfold g; field; lra). lra. }
  rewrite (deboor_ext _ _ _ _ (fun k => 1 * mix t u (S d) (fun k => f (c k)) k + (-1) * f (mix t u (S d) c k))) in G by (intros; ring).
  rewrite deboor_lin in G. lra.
Qed.
Lemma curve_above U P n p a fuel f u : curve_data U P n p -> (1 <= p)%Z -> (Z.to_nat (n + 1 - p) <= fuel)%nat -> convex f ->
  (forall k, (0 <= k <= n)%Z -> cp a P k = f (knot_sum (knot U) (Z.to_nat p) k / IZR p)) ->
  in_domain U n p u -> f u <= coordinate a (curvePoint fuel n p U (map fv P) (Fin u : XR)).
Proof.
  intros D Hp1 Hf Cf Hc Du. pose proof D as (Mo & Hp & L1 & L2 & L3). destruct (domain_span U P n p u fuel D Du Hf) as (i & Si).
  rewrite (coord_at a U P n p u fuel i D Hf Si). pose proof Si as (I1 & I2 & I3 & _).
  rewrite (deboor_ext _ _ _ _ (fun k => f (knot_sum (knot U) (Z.to_nat p) k / IZR p))) by (intros; apply Hc; lia).
  pose proof (deboor_jensen (knot U) i (Z.to_nat p) u f Cf (data_mono U P n p i D I1) I3 I2 (Z.to_nat p) (fun k => knot_sum (knot U) (Z.to_nat p) k / IZR p) (le_n _)) as J.
  rewrite <- (deboor_knots (kext U) (knot U) u _ (fun k => knot_sum (knot U) (Z.to_nat p) k / IZR p)) in J by (intros k Hk; apply kext_in; lia).
  rewrite (greville_ext u U n p i P D Hp1 I1 I3) in J. exact J.
Qed.
