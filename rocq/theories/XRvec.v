(** Bridge between the model's vectors over [XR] and plain real vectors. *)
From Coq Require Import Reals Lra ZArith.
From Verif Require Import Base Arith M_r3 Spec_r3.
Open Scope R_scope.

(** a finite model vector *)
Definition fv (v : rv) : vec XR := @mkvec XR (Fin (rx v)) (Fin (ry v)) (Fin (rz v)).

Lemma rv_eta v : v = RV (rx v) (ry v) (rz v).
Proof. destruct v; reflexivity. Qed.
Lemma rv_ext a b : rx a = rx b -> ry a = ry b -> rz a = rz b -> a = b.
Proof. destruct a, b; simpl; intros; subst; reflexivity. Qed.
Lemma rv_neq_zero v : v <> rzero -> rx v <> 0 \/ ry v <> 0 \/ rz v <> 0.
Proof.
  intros H. destruct (Req_dec (rx v) 0) as [Hx|]; [|auto].
  destruct (Req_dec (ry v) 0) as [Hy|]; [|auto].
  destruct (Req_dec (rz v) 0) as [Hz|]; [|auto].
  exfalso; apply H; apply rv_ext; simpl; auto.
Qed.
Lemma fv_inj a b : fv a = fv b -> a = b.
Proof. unfold fv; intros [= H1 H2 H3]; apply rv_ext; auto. Qed.

Lemma rdot_nonneg v : 0 <= rdot v v.
Proof.
  unfold rdot. pose proof (Rle_0_sqr (rx v)); pose proof (Rle_0_sqr (ry v));
  pose proof (Rle_0_sqr (rz v)); unfold Rsqr in *; lra.
Qed.
Lemma rdot_zero v : rdot v v = 0 <-> v = rzero.
Proof.
  split.
  - intros H. unfold rdot in H.
    pose proof (Rle_0_sqr (rx v)); pose proof (Rle_0_sqr (ry v));
      pose proof (Rle_0_sqr (rz v)); unfold Rsqr in *.
    apply rv_ext; simpl; apply Rsqr_0_uniq; unfold Rsqr; lra.
  - intros ->; unfold rdot; simpl; ring.
Qed.
Lemma rdot_pos v : v <> rzero -> 0 < rdot v v.
Proof.
  intros H. destruct (rdot_nonneg v) as [|E]; auto.
  exfalso; apply H; apply rdot_zero; auto.
Qed.

Lemma Dot_fv a b : Dot (fv a) (fv b) = Fin (rdot a b).
Proof. reflexivity. Qed.
Lemma Norm2_fv a : Norm2 (fv a) = Fin (rdot a a).
Proof. reflexivity. Qed.
Lemma Sub_fv a b : Sub (fv a) (fv b) = fv (rsub a b).
Proof. reflexivity. Qed.
Lemma Add_fv a b : Add (fv a) (fv b) = fv (radd a b).
Proof. reflexivity. Qed.
Lemma Scaled_fv a k : @Scaled XR (fv a) (Fin k) = fv (rscale k a).
Proof. reflexivity. Qed.
Lemma SquaredDistance_fv a b : SquaredDistance (fv a) (fv b) = Fin (rdist2 a b).
Proof. reflexivity. Qed.
Lemma Distance_fv a b : Distance (fv a) (fv b) = Fin (rdist a b).
Proof.
  unfold Distance, Norm. rewrite Sub_fv, Dot_fv. cbn [fsqrt XR].
  unfold xsqrt. destruct (Rleb_spec 0 (rdot (rsub a b) (rsub a b))) as [H|H].
  - reflexivity.
  - pose proof (rdot_nonneg (rsub a b)); lra.
Qed.
Lemma Norm_fv a : Norm (fv a) = Fin (rnorm a).
Proof.
  unfold Norm. rewrite Dot_fv. cbn [fsqrt XR].
  unfold xsqrt. destruct (Rleb_spec 0 (rdot a a)) as [H|H].
  - reflexivity.
  - pose proof (rdot_nonneg a); lra.
Qed.
Lemma Normalize_fv a :
  Normalize (fv a) = fv (if Reqb (rdot a a) 0 then rzero else rscale (/ rnorm a) a).
Proof.
  unfold Normalize. rewrite Norm2_fv. xr_cbn.
  destruct (Reqb_spec (rdot a a) 0) as [H|H]; [reflexivity|].
  unfold xsqrt. destruct (Rleb_spec 0 (rdot a a)) as [H1|H1].
  2: pose proof (rdot_nonneg a); lra.
  unfold xdiv. destruct (Reqb_spec (sqrt (rdot a a)) 0) as [H2|H2].
  - apply sqrt_eq_0 in H2; [contradiction|auto].
  - unfold Rdiv. rewrite Rmult_1_l. reflexivity.
Qed.
