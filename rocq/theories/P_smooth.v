(** Proofs about higher derivatives of B-spline curves. *)
From Coq Require Import Reals Lra Lia ZArith List.
From Verif Require Import Base Arith M_r3 M_nurbs Spec_r3 Spec_nurbs Spec_spline Spec_smooth XRvec P_nurbs P_spline P_spline2 P_spline3 Props_spline.
Import ListNotations.
Open Scope R_scope.

Lemma skipn_tl {T} k (l : list T) : skipn (S k) l = tl (skipn k l).
Proof. revert l. induction k as [|k IH]; intros [|x l]; try reflexivity. change (skipn (S k) l = tl (skipn k l)). apply IH. Qed.
Lemma knot_skipn U k j : (0 <= j)%Z -> knot (skipn k U) j = knot U (j + Z.of_nat k).
Proof.
  intros H. revert U. induction k as [|k IH]; intros U; [rewrite Z.add_0_r; reflexivity|].
  destruct U as [|z U]; [unfold knot; cbn [skipn]; rewrite !nth_overflow by (cbn; lia); reflexivity|]. cbn [skipn]. rewrite IH. unfold knot. replace (Z.to_nat (j + Z.of_nat (S k))) with (S (Z.to_nat (j + Z.of_nat k))) by lia. reflexivity.
Qed.
Lemma higher_data U P n p : curve_data U P n p -> forall k Q, higher U P n p k Q -> (Z.of_nat k <= p)%Z ->
  curve_data (skipn k U) Q (n - Z.of_nat k) (p - Z.of_nat k).
Proof.
  intros D k Q H. induction H as [|k Q Q' H IH HQ]; intros L.
  - cbn [skipn]. rewrite !Z.sub_0_r. exact D.
  - specialize (IH ltac:(lia)). rewrite skipn_tl. replace (n - Z.of_nat (S k))%Z with (n - Z.of_nat k - 1)%Z by lia. replace (p - Z.of_nat (S k))%Z with (p - Z.of_nat k - 1)%Z by lia.
    apply (tl_data (skipn k U) Q _ _ Q' IH); [lia|exact (proj1 HQ)].
Qed.
(* the difference quotients, computed *)
Definition hodo (U : list Z) (P : list rv) (n p : Z) : list rv :=
  map (fun k : nat => let w := IZR p / (knot U (Z.of_nat k + 1 + p) - knot U (Z.of_nat k + 1)) in
    RV (w * (cp AX P (Z.of_nat k + 1) - cp AX P (Z.of_nat k))) (w * (cp AY P (Z.of_nat k + 1) - cp AY P (Z.of_nat k))) (w * (cp AZ P (Z.of_nat k + 1) - cp AZ P (Z.of_nat k)))) (seq 0 (Z.to_nat n)).
Lemma hodo_ok U P n p : (0 <= n)%Z -> hodograph U P n p (hodo U P n p).
Proof.
  intros Hn. unfold hodo. match goal with |- context [map ?f _] => set (q := f) end.
  split; [rewrite map_length, seq_length; lia|]. intros a k Hk Hl.
  unfold cp at 1. rewrite (nth_indep _ rzero (q 0%nat)) by (rewrite map_length, seq_length; lia). rewrite map_nth, seq_nth by lia. unfold q. rewrite Nat.add_0_l, Z2Nat.id by lia.
  destruct a; cbn [rc rx ry rz]; unfold Rdiv; ring.
Qed.
Fixpoint hodos (U : list Z) (P : list rv) (n p : Z) (k : nat) : list rv :=
  match k with O => P | S k => hodo (skipn k U) (hodos U P n p k) (n - Z.of_nat k) (p - Z.of_nat k) end.
Lemma hodos_ok U P n p : forall k, (Z.of_nat k <= n)%Z -> higher U P n p k (hodos U P n p k).
Proof.
  induction k as [|k IH]; intros L; [constructor|]. apply (higher_S U P n p k (hodos U P n p k)); [apply IH; lia|]. apply hodo_ok. lia.
Qed.
Definition curve fuel n p U P a (u : R) : R := coordinate a (curvePoint fuel n p U (map fv P) (Fin u : XR)).
Lemma higher_derivative U P n p a k Q Q' u fuel : curve_data U P n p -> (Z.of_nat k < p)%Z -> higher U P n p k Q -> hodograph (skipn k U) Q (n - Z.of_nat k) (p - Z.of_nat k) Q' ->
  (Z.to_nat (n + 1 - p) <= fuel)%nat -> knot U p < u < knot U (n + 1) ->
  (forall j, (p < j)%Z -> (j + (p - Z.of_nat k) - 1 <= n)%Z -> ~ (knot U j = u /\ knot U (j + (p - Z.of_nat k) - 1) = u)) ->
  derivable_pt_lim (curve fuel (n - Z.of_nat k) (p - Z.of_nat k) (skipn k U) Q a) u (curve fuel (n - Z.of_nat (S k)) (p - Z.of_nat (S k)) (skipn (S k) U) Q' a u).
Proof.
  intros D L H HQ Hf Hu HM. pose proof D as (_ & Hpn & _). pose proof (higher_data U P n p D k Q H ltac:(lia)) as DQ. unfold curve. rewrite skipn_tl.
  replace (n - Z.of_nat (S k))%Z with (n - Z.of_nat k - 1)%Z by lia. replace (p - Z.of_nat (S k))%Z with (p - Z.of_nat k - 1)%Z by lia.
  apply (C130_derivative (skipn k U) Q _ _ Q' a u fuel DQ); [lia|exact HQ|lia| |].
  - rewrite !knot_skipn by lia. replace (p - Z.of_nat k + Z.of_nat k)%Z with p by lia. replace (n - Z.of_nat k + 1 + Z.of_nat k)%Z with (n + 1)%Z by lia. exact Hu.
  - intros j Hj1 Hj2. rewrite !knot_skipn by lia. replace (j + (p - Z.of_nat k) - 1 + Z.of_nat k)%Z with (j + Z.of_nat k + (p - Z.of_nat k) - 1)%Z by lia. apply HM; lia.
Qed.
Lemma higher_continuous U P n p a k Q u fuel : curve_data U P n p -> (Z.of_nat k < p)%Z -> higher U P n p k Q -> multiplicity_at_most U n p (p - Z.of_nat k) ->
  (Z.to_nat (n + 1 - p) <= fuel)%nat -> knot U p < u < knot U (n + 1) -> continuity_pt (curve fuel (n - Z.of_nat k) (p - Z.of_nat k) (skipn k U) Q a) u.
Proof.
  intros D L H HM Hf Hu. pose proof (higher_data U P n p D k Q H ltac:(lia)) as DQ.
  assert (K1 : knot (skipn k U) (p - Z.of_nat k) = knot U p) by (rewrite knot_skipn by lia; f_equal; lia).
  assert (K2 : knot (skipn k U) (n - Z.of_nat k + 1) = knot U (n + 1)) by (destruct D as (_ & ? & _); rewrite knot_skipn by lia; f_equal; lia).
  intros e He. destruct (C131_continuous (skipn k U) Q (n - Z.of_nat k) (p - Z.of_nat k) a u fuel DQ ltac:(lia)) with (e := e) as (d & Hd & C); [| | |exact He|].
  - intros j Hj1 Hj2. rewrite !knot_skipn by lia. replace (j + (p - Z.of_nat k) + Z.of_nat k)%Z with (j + Z.of_nat k + (p - Z.of_nat k))%Z by lia. apply HM; lia.
  - lia.
  - split; [rewrite K1, K2; lra|]. rewrite K2. intros; lra.
  - exists (Rmin d (Rmin (u - knot U p) (knot U (n + 1) - u))). split; [repeat apply Rmin_glb_lt; lra|].
    intros v (_ & Hv). cbn in Hv |- *. unfold R_dist in *. pose proof (Rmin_l d (Rmin (u - knot U p) (knot U (n + 1) - u))). pose proof (Rmin_r d (Rmin (u - knot U p) (knot U (n + 1) - u))).
    pose proof (Rmin_l (u - knot U p) (knot U (n + 1) - u)). pose proof (Rmin_r (u - knot U p) (knot U (n + 1) - u)).
    pose proof (Rle_abs (v - u)). pose proof (Rle_abs (- (v - u))) as B. rewrite Rabs_Ropp in B.
    apply C; [|lra]. split; [rewrite K1, K2; lra|]. rewrite K2. intros; lra.
Qed.
(** ** polynomial pieces *)
Lemma poly_const c : polynomial 0 (fun _ => c).
Proof. exists (fun _ => c). intros u. cbn. ring. Qed.
Lemma poly_ext d f g : (forall u, f u = g u) -> polynomial d f -> polynomial d g.
Proof. intros E (c & H). exists c. intros u. rewrite <- E. apply H. Qed.
Lemma poly_lin d f g (r s : R) : polynomial d f -> polynomial d g -> polynomial d (fun u => r * f u + s * g u).
Proof.
  intros (c & H) (c' & H'). exists (fun j => r * c j + s * c' j). intros u. rewrite H, H'. rewrite !scal_sum, <- plus_sum. apply sum_eq. intros j _. ring.
Qed.
Lemma poly_up d f : polynomial d f -> polynomial (S d) f.
Proof.
  intros (c & H). exists (fun j => if Nat.leb j d then c j else 0). intros u. cbn [sum_f_R0]. rewrite (proj2 (Nat.leb_gt (S d) d)) by lia. rewrite H, Rmult_0_l, Rplus_0_r.
  apply sum_eq. intros j Hj. rewrite (proj2 (Nat.leb_le j d)) by lia. reflexivity.
Qed.
Lemma poly_X d f : polynomial d f -> polynomial (S d) (fun u => u * f u).
Proof.
  intros (c & H). exists (fun j => match j with O => 0 | S j' => c j' end). intros u. rewrite H, (decomp_sum _ (S d)) by lia. cbn [pred]. rewrite scal_sum. rewrite Rmult_0_l, Rplus_0_l.
  apply sum_eq. intros j _. cbn [pow]. ring.
Qed.
Lemma deboor_poly t d : forall e (c : Z -> R -> R) i, (forall k, polynomial e (c k)) -> polynomial (e + d) (fun u => deboor t u d (fun k => c k u) i).
Proof.
  induction d as [|d IH]; intros e c i H; cbn [deboor]; [rewrite Nat.add_0_r; apply H|]. replace (e + S d)%nat with (S e + d)%nat by lia.
  apply (IH (S e) (fun k u => mix t u (S d) (fun k => c k u) k)). intros k. unfold mix. set (w := / (t (k + Z.of_nat (S d))%Z - t k)).
  apply (poly_ext (S e) (fun u => 1 * (w * (u * c k u) + - w * (u * c (k - 1)%Z u)) + 1 * (- (w * t k) * c k u + w * t (k + Z.of_nat (S d))%Z * c (k - 1)%Z u))).
  - intros u. unfold Rdiv. fold w. ring.
  - apply poly_lin; apply poly_lin; first [apply poly_X; apply H | apply poly_up; apply H].
Qed.
(** ** slopes at the ends *)
Lemma right_of f g x y l : x < y -> (forall v, x <= v < y -> f v = g v) -> derivable_pt_lim g x l -> right_slope f x l.
Proof.
  intros L E D e He. destruct (D e He) as (d & H). exists (Rmin d (y - x)). split; [apply Rmin_glb_lt; [apply cond_pos|lra]|]. intros h Hh.
  pose proof (Rmin_l d (y - x)). pose proof (Rmin_r d (y - x)). rewrite !E by lra. apply H; [lra|]. rewrite Rabs_pos_eq; lra.
Qed.
Lemma left_of f g x y l : y < x -> (forall v, y <= v <= x -> f v = g v) -> derivable_pt_lim g x l -> left_slope f x l.
Proof.
  intros L E D e He. destruct (D e He) as (d & H). exists (Rmin d (x - y)). split; [apply Rmin_glb_lt; [apply cond_pos|lra]|]. intros h Hh.
  pose proof (Rmin_l d (x - y)). pose proof (Rmin_r d (x - y)). rewrite !E by lra. specialize (H (- h) ltac:(lra)). rewrite Rabs_Ropp, Rabs_pos_eq in H by lra. specialize (H ltac:(lra)).
  replace ((g x - g (x - h)) / h) with ((g (x + - h) - g x) / - h); [exact H|]. replace (x + - h) with (x - h) by ring. field. lra.
Qed.
Lemma piece_derivative U P n p Q a u i : curve_data U P n p -> (1 <= p)%Z -> hodograph U P n p Q -> (p <= i <= n)%Z -> knot U i < knot U (i + 1) ->
  derivable_pt_lim (fun v => deboor (knot U) v (Z.to_nat p) (cp a P) i) u (deboor (knot (tl U)) u (Z.to_nat (p - 1)) (cp a Q) (i - 1)).
Proof.
  intros D Hp1 HQ Hi Hl. rewrite <- (hodograph_piece U P n p Q a u i D Hp1 HQ Hi Hl). pose proof (data_mono U P n p i D Hi) as DM.
  pose proof (deboor_derivative (knot U) i (Z.to_nat p) DM Hl (Z.to_nat p - 1) (cp a P) u ltac:(lia)) as H.
  replace (S (Z.to_nat p - 1)) with (Z.to_nat p) in H by lia. rewrite INR_IZR_INZ, Z2Nat.id in H by lia. exact H.
Qed.
(** ** at a knot of multiplicity p *)
Lemma deboor_lo t u : forall d c i, (forall k, (i - Z.of_nat d + 1 <= k <= i)%Z -> t k = u) -> (forall k, (i + 1 <= k <= i + Z.of_nat d)%Z -> u < t k) -> deboor t u d c i = c (i - Z.of_nat d)%Z.
Proof.
  induction d as [|d IH]; intros c i E L; cbn [deboor]; [f_equal; lia|]. rewrite (deboor_ext t u d _ (fun k => c (k - 1)%Z)).
  - rewrite (IH (fun k => c (k - 1)%Z)); [f_equal; lia|intros k Hk; apply E; lia|intros k Hk; apply L; lia].
  - intros k Hk. unfold mix. rewrite (E k) by lia. specialize (L (k + Z.of_nat (S d))%Z ltac:(lia)). field. lra.
Qed.
Lemma deboor_hi t u : forall d c i, (forall k, (i + 1 <= k <= i + Z.of_nat d)%Z -> t k = u) -> (forall k, (i - Z.of_nat d + 1 <= k <= i)%Z -> t k < u) -> deboor t u d c i = c i.
Proof.
  induction d as [|d IH]; intros c i E L; cbn [deboor]; [reflexivity|]. rewrite (deboor_ext t u d _ c).
  - apply IH; intros k Hk; [apply E; lia|apply L; lia].
  - intros k Hk. unfold mix. rewrite (E (k + Z.of_nat (S d))%Z) by lia. specialize (L k ltac:(lia)). field. lra.
Qed.
Lemma right_at U P n p a i u fuel : curve_data U P n p -> (1 <= p)%Z -> (Z.to_nat (n + 1 - p) <= fuel)%nat -> (0 <= i)%Z -> (i + p <= n)%Z ->
  (forall k, (i + 1 <= k <= i + p)%Z -> knot U k = u) -> u < knot U (i + p + 1) ->
  curve fuel n p U P a u = cp a P i /\ right_slope (curve fuel n p U P a) u (IZR p * (cp a P (i + 1) - cp a P i) / (knot U (i + p + 1) - u)).
Proof.
  intros D Hp1 Hf Hi0 Hin E L. pose proof D as (Mo & Hp & L1 & L2 & L3). set (j := (i + p)%Z) in *.
  assert (At : forall v, u <= v < knot U (j + 1) -> curve fuel n p U P a v = deboor (knot U) v (Z.to_nat p) (cp a P) j).
  { intros v Hv. apply coord_at; auto. pose proof (Mo (j + 1)%Z (n + 1)%Z ltac:(lia) ltac:(lia)). pose proof (E j ltac:(lia)). split; [lia|]. split; [lra|]. split; [lra|]. split; intros; lra. }
  assert (Up : forall k, (j + 1 <= k <= j + p)%Z -> u < knot U k) by (intros k Hk; pose proof (Mo (j + 1)%Z k ltac:(lia) ltac:(lia)); lra).
  split.
  - rewrite At by lra. rewrite deboor_lo; [f_equal; lia|intros k Hk; apply E; lia|intros k Hk; apply Up; lia].
  - pose proof (hodo_ok U P n p ltac:(lia)) as HQ. set (Q := hodo U P n p) in *.
    apply (right_of _ (fun v => deboor (knot U) v (Z.to_nat p) (cp a P) j) u (knot U (j + 1))); [exact L|exact At|].
    pose proof (E j ltac:(lia)) as Ej. pose proof (piece_derivative U P n p Q a u j D Hp1 HQ ltac:(lia) ltac:(lra)) as DV.
    rewrite deboor_lo in DV; [|intros k Hk; rewrite knot_tl by lia; apply E; lia|intros k Hk; rewrite knot_tl by lia; apply Up; lia].
    replace (j - 1 - Z.of_nat (Z.to_nat (p - 1)))%Z with i in DV by lia. rewrite (proj2 HQ a i ltac:(lia)) in DV by (rewrite (E (i + 1)%Z) by lia; replace (i + 1 + p)%Z with (j + 1)%Z by lia; exact L).
    rewrite (E (i + 1)%Z) in DV by lia. replace (i + 1 + p)%Z with (j + 1)%Z in DV by lia. exact DV.
Qed.
Lemma left_at U P n p a i u fuel : curve_data U P n p -> (1 <= p)%Z -> (Z.to_nat (n + 1 - p) <= fuel)%nat -> (p <= i <= n)%Z ->
  (forall k, (i + 1 <= k <= i + p)%Z -> knot U k = u) -> knot U i < u -> (i = n \/ (i + p <= n)%Z /\ u < knot U (i + p + 1)) ->
  curve fuel n p U P a u = cp a P i /\ left_slope (curve fuel n p U P a) u (IZR p * (cp a P i - cp a P (i - 1)) / (u - knot U i)).
Proof.
  intros D Hp1 Hf Hi E L R. pose proof D as (Mo & Hp & L1 & L2 & L3).
  assert (Lo : forall k, (i - p + 1 <= k <= i)%Z -> knot U k < u) by (intros k Hk; pose proof (Mo k i ltac:(lia) ltac:(lia)); lra).
  assert (B : deboor (knot U) u (Z.to_nat p) (cp a P) i = cp a P i) by (apply deboor_hi; intros k Hk; [apply E|apply Lo]; lia).
  assert (V : curve fuel n p U P a u = cp a P i).
  { destruct R as [->|(R1 & R2)]; [|apply (right_at U P n p a i u fuel D Hp1 Hf ltac:(lia) R1 E R2)].
    rewrite <- B. apply coord_at; auto. pose proof (E (n + 1)%Z ltac:(lia)) as En. split; [lia|]. rewrite En. split; [lra|]. split; [lra|]. split; [reflexivity|intros; lra]. }
  assert (At : forall v, knot U i <= v <= u -> curve fuel n p U P a v = deboor (knot U) v (Z.to_nat p) (cp a P) i).
  { intros v Hv. destruct (Req_dec v u) as [->|Nv]; [rewrite V, B; reflexivity|]. apply coord_at; auto. pose proof (Mo (i + 1)%Z (n + 1)%Z ltac:(lia) ltac:(lia)). pose proof (E (i + 1)%Z ltac:(lia)).
    split; [lia|]. split; [lra|]. split; [lra|]. split; intros; lra. }
  split; [exact V|]. pose proof (hodo_ok U P n p ltac:(lia)) as HQ. set (Q := hodo U P n p) in *.
  apply (left_of _ (fun v => deboor (knot U) v (Z.to_nat p) (cp a P) i) u (knot U i)); [exact L|exact At|].
  pose proof (E (i + 1)%Z ltac:(lia)) as Ei. pose proof (piece_derivative U P n p Q a u i D Hp1 HQ ltac:(lia) ltac:(lra)) as DV.
  rewrite deboor_hi in DV; [|intros k Hk; rewrite knot_tl by lia; apply E; lia|intros k Hk; rewrite knot_tl by lia; apply Lo; lia].
  rewrite (proj2 HQ a (i - 1)%Z ltac:(lia)) in DV by (replace (i - 1 + 1)%Z with i by lia; rewrite (E (i + p)%Z) by lia; exact L).
  replace (i - 1 + 1)%Z with i in DV by lia. rewrite (E (i + p)%Z) in DV by lia. exact DV.
Qed.
(** a function has a derivative exactly if both slopes exist and agree *)
Lemma two_sided f x l : left_slope f x l -> right_slope f x l -> derivable_pt_lim f x l.
Proof.
  intros A B e He. destruct (A e He) as (d1 & P1 & H1). destruct (B e He) as (d2 & P2 & H2). assert (Hd : 0 < Rmin d1 d2) by (apply Rmin_glb_lt; lra). exists (mkposreal _ Hd).
  intros h Hn Hh. cbn in Hh. pose proof (Rmin_l d1 d2). pose proof (Rmin_r d1 d2). destruct (Rlt_dec 0 h) as [Ps|Ng].
  - rewrite Rabs_pos_eq in Hh by lra. apply H2. lra.
  - rewrite Rabs_left in Hh by lra. specialize (H1 (- h) ltac:(lra)). replace (x - - h) with (x + h) in H1 by ring. replace ((f (x + h) - f x) / h) with ((f x - f (x + h)) / - h) by (field; lra). exact H1.
Qed.
Lemma one_sided f x l : derivable_pt_lim f x l -> left_slope f x l /\ right_slope f x l.
Proof. intros D. split; [apply (left_of f f x (x - 1)); auto; lra|apply (right_of f f x (x + 1)); auto; lra]. Qed.
Lemma right_unique f x l l' : right_slope f x l -> right_slope f x l' -> l = l'.
Proof.
  intros A B. destruct (Req_dec l l') as [|N]; [assumption|exfalso]. assert (He : 0 < Rabs (l - l') / 2) by (pose proof (Rabs_pos_lt (l - l') ltac:(lra)); lra).
  destruct (A _ He) as (d1 & P1 & H1). destruct (B _ He) as (d2 & P2 & H2). pose proof (Rmin_l d1 d2). pose proof (Rmin_r d1 d2). assert (Hd : 0 < Rmin d1 d2) by (apply Rmin_glb_lt; lra).
  specialize (H1 (Rmin d1 d2 / 2) ltac:(lra)). specialize (H2 (Rmin d1 d2 / 2) ltac:(lra)). set (q := (f (x + Rmin d1 d2 / 2) - f x) / (Rmin d1 d2 / 2)) in *.
  pose proof (Rabs_triang (l - q) (q - l')) as T. replace (l - q + (q - l')) with (l - l') in T by ring. rewrite (Rabs_minus_sym l q) in T. lra.
Qed.
Lemma left_unique f x l l' : left_slope f x l -> left_slope f x l' -> l = l'.
Proof.
  intros A B. destruct (Req_dec l l') as [|N]; [assumption|exfalso]. assert (He : 0 < Rabs (l - l') / 2) by (pose proof (Rabs_pos_lt (l - l') ltac:(lra)); lra).
  destruct (A _ He) as (d1 & P1 & H1). destruct (B _ He) as (d2 & P2 & H2). pose proof (Rmin_l d1 d2). pose proof (Rmin_r d1 d2). assert (Hd : 0 < Rmin d1 d2) by (apply Rmin_glb_lt; lra).
  specialize (H1 (Rmin d1 d2 / 2) ltac:(lra)). specialize (H2 (Rmin d1 d2 / 2) ltac:(lra)). set (q := (f x - f (x - Rmin d1 d2 / 2)) / (Rmin d1 d2 / 2)) in *.
  pose proof (Rabs_triang (l - q) (q - l')) as T. replace (l - q + (q - l')) with (l - l') in T by ring. rewrite (Rabs_minus_sym l q) in T. lra.
Qed.
