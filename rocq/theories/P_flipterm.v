(** Termination of legalize in any arithmetic; insertion sort. *)
From Coq Require Import ZArith Lia List Bool Permutation Sorted Reals Lra.
From Flocq Require Import Core BinarySingleNaN.
From Verif Require Import Base Arith M_r3 M_tri2 M_triangulator Spec_plane Spec_halfedge P_halfedge P_ring P_flip P_leg P_tstate P_legmodel.
Import ListNotations.
Open Scope Z_scope.

(** arithmetics in which some "zero or NaN" values absorb products and are never negative *)
Record null_like (A : Arith) (zn : A -> Prop) : Prop := {
  zn_diff : forall x, zn (fsub A x x);
  zn_mul : forall x y, zn x -> zn (fmul A x y);
  zn_add : forall x y, zn x -> zn y -> zn (fadd A x y);
  zn_sub : forall x y, zn x -> zn y -> zn (fsub A x y);
  zn_lt : forall x, zn x -> flt A x (fofZ A 0) = false }.
Lemma bad_self_zn (A : Arith) zn (vs : list (vec A)) : null_like A zn -> forall p b c, badA vs p b c p = false.
Proof.
  intros Z p b c. unfold badA, inCircle. apply (zn_lt _ _ Z).
  repeat first [apply (zn_diff _ _ Z) | apply (zn_add _ _ Z) | apply (zn_sub _ _ Z) | apply (zn_mul _ _ Z)].
Qed.
Lemma null_like_XR : null_like XR (fun x => x = Fin 0 \/ x = NaN).
Proof.
  constructor.
  - intros [r| | |]; simpl; auto. left. f_equal. lra.
  - intros x y [-> | ->]; [|right; destruct y; auto]. destruct y as [r| | |]; simpl; auto; try (left; f_equal; ring).
    all: right; unfold xinf_sign, Reqb, Rltb; repeat (destruct Req_EM_T || destruct Rlt_dec; try lra); auto.
  - intros x y [-> | ->] [-> | ->]; simpl; auto. left. f_equal. lra.
  - intros x y [-> | ->] [-> | ->]; simpl; auto. left. f_equal. lra.
  - intros x [-> | ->]; simpl; auto. unfold Rltb. destruct Rlt_dec; auto. lra.
Qed.
Definition b64_null (x : B64) : Prop := match x : binary_float 53 1024 with B754_zero _ | B754_nan => True | _ => False end.
Lemma b64_null_finite (x : b64) : is_finite x = true -> B2R x = 0%R -> b64_null x.
Proof.
  destruct x as [s|s| |s m e Hb]; simpl; try discriminate; auto. intros _ E.
  apply eq_0_F2R in E. destruct s; discriminate.
Qed.
Lemma null_like_B64 : null_like B64 b64_null.
Proof.
  constructor.
  - intros x. change (fsub B64 x x) with (@Bminus 53 1024 b64_prec b64_pe mode_NE x x).
    destruct (is_finite (x : b64)) eqn:Fx.
    + pose proof (Bminus_correct 53 1024 b64_prec b64_pe mode_NE x x Fx Fx) as C.
      rewrite Rminus_diag_eq in C by reflexivity. rewrite round_0 in C by (apply valid_rnd_round_mode).
      rewrite Rabs_R0, Rlt_bool_true in C by (apply bpow_gt_0). destruct C as (C1 & C2 & _).
      apply b64_null_finite; auto.
    + destruct (x : b64) as [s|s| |s m e Hb]; try discriminate; simpl; auto. destruct s; exact I.
  - intros x y Hx. destruct (x : b64) as [s|s| |s m e Hb]; try contradiction; destruct (y : b64); exact I.
  - intros x y Hx Hy. destruct (x : b64) as [s|s| |s m e Hb]; try contradiction; destruct (y : b64) as [s2|s2| |s2 m e Hb]; try contradiction; try exact I.
    destruct s, s2; exact I.
  - intros x y Hx Hy. destruct (x : b64) as [s|s| |s m e Hb]; try contradiction; destruct (y : b64) as [s2|s2| |s2 m e Hb]; try contradiction; try exact I.
    destruct s, s2; exact I.
  - intros x Hx. destruct (x : b64) as [s|s| |s m e Hb]; try contradiction; [destruct s|]; reflexivity.
Qed.

(** insertion sort is a good_sort *)
Fixpoint ins {T} (less : T -> T -> bool) (x : T) (l : list T) : list T :=
  match l with [] => [x] | y :: l' => if less y x then y :: ins less x l' else x :: l end.
Definition isort {T} (less : T -> T -> bool) (l : list T) : list T := fold_right (ins less) [] l.
Lemma ins_perm {T} less (x : T) l : Permutation (x :: l) (ins less x l).
Proof.
  induction l as [|y l IH]; simpl; [apply Permutation_refl|]. destruct (less y x); [|apply Permutation_refl].
  apply (perm_trans (perm_swap y x l)). apply perm_skip. exact IH.
Qed.
Lemma isort_perm {T} less (l : list T) : Permutation l (isort less l).
Proof. induction l as [|x l IH]; simpl; [apply Permutation_refl|]. apply (perm_trans (perm_skip x IH)). apply ins_perm. Qed.
Lemma isort_good : good_sort isort.
Proof.
  intros less l HA HT. split; [apply isort_perm|].
  induction l as [|x l IH]; simpl; [constructor|].
  assert (IHs : StronglySorted (fun a b => less b a = false) (isort less l)).
  { apply IH; [intros a b Ia Ib; apply HA; simpl; auto|intros a b c Ia Ib Ic; apply HT; simpl; auto]. }
  clear IH.
  assert (HI : forall z, In z (isort less l) -> In z l).
  { intros z Hz. apply (Permutation_in _ (Permutation_sym (isort_perm less l))). auto. }
  revert IHs HI. generalize (isort less l). intros m S HI.
  induction S as [|y m S IH F]; simpl; [repeat constructor|].
  rewrite Forall_forall in F.
  destruct (less y x) eqn:E.
  - constructor; [apply IH; intros; apply HI; simpl; auto|].
    apply Forall_forall. intros z Hz. apply (Permutation_in _ (Permutation_sym (ins_perm less x m))) in Hz.
    destruct Hz as [<-|Hz]; [|apply F; auto]. apply HA; simpl; auto. right. apply HI. simpl; auto.
  - assert (Hy : In y l) by (apply HI; simpl; auto).
    constructor; [constructor; auto; apply Forall_forall; auto|].
    apply Forall_forall. intros z [<-|Hz]; auto.
    apply (HT x y z); simpl; auto. right. apply HI. simpl; auto.
Qed.

(** the list form of a mesh *)
Lemma corner_next_nx e : corner_next e = nx e.
Proof.
  unfold corner_next. destruct (slot_cases e) as (q & [(-> & -> & _)|[(-> & -> & _)|(-> & -> & _)]]).
  - replace (3 * q) with (q * 3) by lia. rewrite Z.mod_mul by lia. destruct (Z.eqb_spec 0 2); lia.
  - replace (3 * q + 1) with (1 + q * 3) by lia. rewrite Z.mod_add by lia. change (1 mod 3) with 1. destruct (Z.eqb_spec 1 2); lia.
  - replace (3 * q + 2) with (2 + q * 3) by lia. rewrite Z.mod_add by lia. change (2 mod 3) with 2. destruct (Z.eqb_spec 2 2); lia.
Qed.
Lemma entry_firstn d l k e : 0 <= e < Z.of_nat k -> Z.of_nat k <= Ln l -> entry (firstn k l) e = getz d l e.
Proof.
  intros He Hk. unfold entry, getz. destruct (Z.ltb_spec e 0); [lia|].
  rewrite <- (firstn_skipn k l) at 2. rewrite app_nth1 by (rewrite firstn_length; lia).
  apply nth_indep. rewrite firstn_length; lia.
Qed.
Lemma nth_firstn_lt {X} (d : X) l k n : (k < n)%nat -> nth k (firstn n l) d = nth k l d.
Proof. revert l n. induction k as [|k IH]; intros [|x l] [|n] H; simpl; auto; try lia. apply IH. lia. Qed.
Definition live (s : tri) (l : list Z) : list Z := firstn (Z.to_nat (trianglesLen s)) l.
Lemma paired_mesh s : 0 <= trianglesLen s -> trianglesLen s <= Ln (triangles s) -> length (halfedges s) = length (triangles s) ->
  (paired (live s (triangles s)) (live s (halfedges s)) <-> mesh (trianglesLen s) (TT s) (HH s)).
Proof.
  intros H0 HL Hh. set (L := trianglesLen s) in *.
  assert (L1 : Z.of_nat (length (live s (triangles s))) = L) by (unfold live; rewrite firstn_length; fold L; lia).
  assert (E1 : forall e, 0 <= e < L -> entry (live s (triangles s)) e = TT s e).
  { intros e He. unfold live. apply entry_firstn; fold L; lia. }
  assert (E2 : forall e, 0 <= e < L -> entry (live s (halfedges s)) e = HH s e).
  { intros e He. unfold live. apply entry_firstn; fold L; lia. }
  split.
  - intros [P1 (k & P2) P3 P4]. rewrite L1 in *.
    assert (M3 : L mod 3 = 0).
    { rewrite <- L1, P2. replace (Z.of_nat (3 * k)) with (Z.of_nat k * 3) by lia. apply Z.mod_mul. lia. }
    constructor; auto.
    + intros e He. pose proof (nx_range L e M3 He). specialize (P4 e He). rewrite corner_next_nx in P4. rewrite E2 in P4 by auto.
      destruct P4 as [Q|(Q1 & Q2 & _ & Q4 & Q5)]; [left; auto|right].
      rewrite corner_next_nx in Q5. pose proof (nx_range L (HH s e) M3 Q1).
      rewrite E2 in Q2 by auto. rewrite !E1 in Q4, Q5 by auto. auto.
    + intros e He. pose proof (nx_range L e M3 He). specialize (P3 e He). rewrite corner_next_nx, !E1 in P3 by auto. auto.
  - intros M. pose proof (m_L3 _ _ _ M) as M3. constructor.
    + unfold live. rewrite !firstn_length. lia.
    + exists (Z.to_nat (L / 3)). pose proof (Z.div_mod L 3). lia.
    + intros e He. rewrite L1 in He. pose proof (nx_range L e M3 He). rewrite corner_next_nx, !E1 by auto. apply (m_ne _ _ _ M); auto.
    + intros e He. rewrite L1 in *. pose proof (nx_range L e M3 He). rewrite E2 by auto.
      destruct (m_pair _ _ _ M e He) as [Q|(Q1 & Q2 & Q3 & Q4)]; [left; auto|right]. pose proof (nx_range L (HH s e) M3 Q1).
      rewrite !corner_next_nx, E2, !E1 by auto. split; auto. split; auto. split; [|auto].
      intros S. symmetry in S. apply same_tri_div in S. destruct (mesh_distinct _ _ _ e M He) as (D1 & D2 & D3).
      destruct S as [S|[S|S]]; rewrite S in *; rewrite ?nx_nx in *; congruence.
Qed.

(** the nodes of R, in this order, are a doubly linked ring that contains the hull pointer *)
Record hull_ring (s : tri) (R : list Z) : Prop := {
  hr_nodup : NoDup R;
  hr_next : forall v w, In (v, w) (polygon_edges R) -> exists n, zget (nodes s) v = Ok n /\ nI n = v /\ nNext n = Some w;
  hr_prev : forall v w, In (v, w) (polygon_edges R) -> exists n, zget (nodes s) w = Ok n /\ nPrev n = Some v;
  hr_hull : exists h, hull s = Some h /\ In h R }.
Lemma zget_inv {X} (d : X) l i x : zget l i = Ok x -> 0 <= i < Ln l /\ getz d l i = x.
Proof.
  intros E. assert (R : 0 <= i < Ln l).
  { unfold zget in E. destruct (Z.ltb_spec i 0); [discriminate|]. split; [lia|].
    destruct (nth_error l (Z.to_nat i)) eqn:Q; [|discriminate]. assert (nth_error l (Z.to_nat i) <> None) as N by congruence.
    apply nth_error_Some in N. lia. }
  split; auto. rewrite (zget_getz d) in E by auto. congruence.
Qed.
Lemma hull_ring_ring s R : hull_ring s R <-> ring (Ln (nodes s)) (NN s) R /\ exists h, hull s = Some h /\ In h R.
Proof.
  split.
  - intros [A B C D]. split; auto.
    assert (I : forall v, In v R -> 0 <= v < Ln (nodes s) /\ nI (NN s v) = v).
    { intros v Hv. destruct (pe_succ R v Hv) as (w & Hw). destruct (B v w Hw) as (n & E & I & _).
      apply (zget_inv node0) in E. destruct E as [E1 E2]. unfold NN. rewrite E2. auto. }
    constructor; auto; try (intros v Hv; apply I; auto).
    + intros v w Hw. destruct (B v w Hw) as (n & E & _ & X). apply (zget_inv node0) in E. unfold NN. destruct E as [_ ->]. auto.
    + intros v w Hw. destruct (C v w Hw) as (n & E & X). apply (zget_inv node0) in E. unfold NN. destruct E as [_ ->]. auto.
  - intros [[A B C D E] Hh]. constructor; auto; intros v w Hw; destruct (pe_In _ _ _ Hw) as [Q1 Q2].
    + exists (NN s v). split; [apply zget_getz; auto|]. split; auto.
    + exists (NN s w). split; [apply zget_getz; auto|]. auto.
Qed.

Lemma flip_terminates (A : Arith) zn (vs : list (vec A)) s R a : null_like A zn ->
  0 <= trianglesLen s <= Ln (triangles s) -> length (halfedges s) = length (triangles s) ->
  paired (live s (triangles s)) (live s (halfedges s)) ->
  (forall v, In v (live s (triangles s)) -> 0 <= v < Ln vs) ->
  hull_ring s R -> 0 <= a < trianglesLen s ->
  exists s' r, legalize vs (legalizeFuel s) s a = Ok (s', r) /\
    trianglesLen s' = trianglesLen s /\ paired (live s' (triangles s')) (live s' (halfedges s')) /\ hull_ring s' R /\
    (forall v, In v (live s' (triangles s')) -> 0 <= v < Ln vs).
Proof.
  intros Z [L0 L1] L2 P V HR Ha. apply hull_ring_ring in HR. destruct HR as [RG HU].
  assert (W : wfs s R) by (constructor; auto).
  apply paired_mesh in P; auto.
  assert (VS : verts vs s).
  { intros e He. apply V. unfold live, TT, getz. destruct (Z.ltb_spec e 0); [lia|].
    rewrite <- (nth_firstn_lt 0 (triangles s) (Z.to_nat e) (Z.to_nat (trianglesLen s))) by lia. apply nth_In. rewrite firstn_length. lia. }
  destruct (legalize_ok vs (bad_self_zn A zn vs Z) R (legalizeFuel s) s a) as (s' & r & E & _ & F & M' & V' & _); auto.
  { unfold legalizeFuel. pose proof (nstar_bound (TT s (pv a)) (trianglesLen s) (TT s) L0). lia. }
  exists s', r. split; auto. split; [apply (lf_len _ _ F)|].
  pose proof (lframe_wfs _ _ R F W) as W'.
  assert (L0' : 0 <= trianglesLen s') by (rewrite (lf_len _ _ F); auto).
  split; [apply paired_mesh; auto; [apply (w_len _ _ W')|apply (w_len2 _ _ W')|rewrite (lf_len _ _ F); auto]|].
  split; [apply hull_ring_ring; split; [apply (w_ring _ _ W')|apply (w_hull _ _ W')]|].
  intros v Hv. unfold live in Hv. apply (In_nth _ _ 0) in Hv. destruct Hv as (k & Hk & <-).
  rewrite firstn_length in Hk.
  assert (Hr : 0 <= Z.of_nat k < trianglesLen s') by lia. specialize (V' _ Hr).
  unfold TT, getz in V'. destruct (Z.ltb_spec (Z.of_nat k) 0); [lia|]. rewrite Nat2Z.id in V'.
  rewrite nth_firstn_lt by lia. exact V'.
Qed.
