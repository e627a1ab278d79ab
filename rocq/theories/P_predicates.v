(** Proofs about package predicates (exact arithmetic and any arithmetic). *)
From Coq Require Import Reals Lra ZArith QArith Qreals Bool.
From Verif Require Import Base Arith M_r3 M_predicates Spec_r3 Spec_sphere XRvec P_r3.
Open Scope R_scope.

Lemma orient_fv a b c d : orient3dfast (fv a) (fv b) (fv c) (fv d) = Fin (signed_volume a b c d).
Proof.
  unfold orient3dfast, signed_volume, rdet3, rsub; simpl. f_equal. ring.
Qed.

Lemma rv_dec (v : rv) : v = rzero \/ v <> rzero.
Proof.
  destruct (Req_dec (rdot v v) 0) as [E|E].
  - left; apply rdot_zero; auto.
  - right; intros ->; apply E; unfold rdot; simpl; ring.
Qed.

(** a vector orthogonal to a given one *)
Lemma exists_orthogonal (v : rv) : exists n, n <> rzero /\ rdot n v = 0.
Proof.
  destruct v as [x y z].
  destruct (Req_dec x 0) as [->|Hx].
  - exists (RV 1 0 0). split; [intros [=]; lra|unfold rdot; simpl; ring].
  - exists (RV (- y) x 0). split; [intros [=]; lra|unfold rdot; simpl; ring].
Qed.

Lemma rcross_parallel_l u v w :
  rcross u v = rzero -> u <> rzero -> rdot w u = 0 -> rdot w v = 0.
Proof.
  intros Hc Hu Hw.
  (* |u|^2 v = (u.v) u *)
  assert (E : forall k, rdot u u * rdot k v = rdot u v * rdot k u).
  { intros k. unfold rcross, rzero in Hc. injection Hc as H1 H2 H3.
    apply Rminus_diag_uniq.
    transitivity ( (rx u * ry v - rx v * ry u) * (rx u * ry k - ry u * rx k)
                 + (ry u * rz v - ry v * rz u) * (ry u * rz k - rz u * ry k)
                 + (rz u * rx v - rz v * rx u) * (rz u * rx k - rx u * rz k)).
    - unfold rdot; ring.
    - rewrite H1, H2, H3; ring. }
  specialize (E w). rewrite Hw in E.
  pose proof (rdot_pos u Hu).
  apply Rmult_eq_reg_l with (rdot u u); lra.
Qed.

Lemma det_zero_dependent u v w :
  rdet3 u v w = 0 <-> exists n, n <> rzero /\ rdot n u = 0 /\ rdot n v = 0 /\ rdot n w = 0.
Proof.
  split.
  - intros D.
    destruct (rv_dec (rcross u v)) as [Cuv|Cuv].
    + destruct (rv_dec u) as [->|Hu].
      * destruct (rv_dec (rcross v w)) as [Cvw|Cvw].
        -- destruct (rv_dec v) as [->|Hv].
           ++ destruct (exists_orthogonal w) as (n & Hn & E).
              exists n. repeat split; auto; unfold rdot; simpl; ring.
           ++ destruct (exists_orthogonal v) as (n & Hn & E).
              exists n. repeat split; auto; [unfold rdot; simpl; ring|].
              exact (rcross_parallel_l v w n Cvw Hv E).
        -- exists (rcross v w). repeat split; auto; unfold rdot, rcross; simpl; ring.
      * destruct (rv_dec (rcross u w)) as [Cuw|Cuw].
        -- destruct (exists_orthogonal u) as (n & Hn & E).
           exists n. repeat split; auto.
           ++ exact (rcross_parallel_l u v n Cuv Hu E).
           ++ exact (rcross_parallel_l u w n Cuw Hu E).
        -- exists (rcross u w). repeat split; auto.
           ++ unfold rdot, rcross; simpl; ring.
           ++ apply (rcross_parallel_l u v); auto. unfold rdot, rcross; simpl; ring.
           ++ unfold rdot, rcross; simpl; ring.
    + exists (rcross u v). repeat split; auto.
      * unfold rdot, rcross; simpl; ring.
      * unfold rdot, rcross; simpl; ring.
      * rewrite <- D. unfold rdot, rcross, rdet3; simpl; ring.
  - intros (n & Hn & Eu & Ev & Ew).
    (* det * n_i is a combination of the three dot products *)
    assert (Hx : rdet3 u v w * rx n = rdot n u * (ry v * rz w - rz v * ry w)
       + rdot n v * (ry w * rz u - rz w * ry u) + rdot n w * (ry u * rz v - rz u * ry v))
      by (unfold rdet3, rdot; ring).
    assert (Hy : rdet3 u v w * ry n = rdot n u * (rz v * rx w - rx v * rz w)
       + rdot n v * (rz w * rx u - rx w * rz u) + rdot n w * (rz u * rx v - rx u * rz v))
      by (unfold rdet3, rdot; ring).
    assert (Hz : rdet3 u v w * rz n = rdot n u * (rx v * ry w - ry v * rx w)
       + rdot n v * (rx w * ry u - ry w * rx u) + rdot n w * (rx u * ry v - ry u * rx v))
      by (unfold rdet3, rdot; ring).
    rewrite Eu, Ev, Ew in Hx, Hy, Hz.
    destruct (rv_neq_zero n Hn) as [H|[H|H]];
      apply Rmult_eq_reg_r with (2 := H); lra.
Qed.

(** C09 *)
Lemma orient3d_laws a b c d t :
  exists o, orient3dfast (fv a) (fv b) (fv c) (fv d) = Fin o /\
    o = rdet3 (rsub a d) (rsub b d) (rsub c d) /\
    (o = 0 <-> coplanar a b c d) /\
    orient3dfast (fv b) (fv a) (fv c) (fv d) = Fin (- o) /\
    orient3dfast (fv a) (fv c) (fv b) (fv d) = Fin (- o) /\
    orient3dfast (fv a) (fv b) (fv d) (fv c) = Fin (- o) /\
    orient3dfast (fv (radd a t)) (fv (radd b t)) (fv (radd c t)) (fv (radd d t)) = Fin o.
Proof.
  exists (signed_volume a b c d). rewrite !orient_fv.
  split; [reflexivity|]. split; [reflexivity|]. split; [apply det_zero_dependent|].
  unfold signed_volume, rdet3, rsub, radd; simpl.
  repeat split; f_equal; ring.
Qed.

(** C10 *)
Definition insphere_poly (a b c d e : rv) : R :=
  let aex := rx a - rx e in let bex := rx b - rx e in
  let cex := rx c - rx e in let dex := rx d - rx e in
  let aey := ry a - ry e in let bey := ry b - ry e in
  let cey := ry c - ry e in let dey := ry d - ry e in
  let aez := rz a - rz e in let bez := rz b - rz e in
  let cez := rz c - rz e in let dez := rz d - rz e in
  let ab := aex * bey - bex * aey in
  let bc := bex * cey - cex * bey in
  let cd := cex * dey - dex * cey in
  let da := dex * aey - aex * dey in
  let ac := aex * cey - cex * aey in
  let bd := bex * dey - dex * bey in
  let abc := aez * bc - bez * ac + cez * ab in
  let bcd := bez * cd - cez * bd + dez * bc in
  let cda := cez * da + dez * ac + aez * cd in
  let dab := dez * ab + aez * bd + bez * da in
  let alift := aex * aex + aey * aey + aez * aez in
  let blift := bex * bex + bey * bey + bez * bez in
  let clift := cex * cex + cey * cey + cez * cez in
  let dlift := dex * dex + dey * dey + dez * dez in
  (clift * dab - dlift * abc) + (alift * bcd - blift * cda).

Lemma insphere_fv a b c d e :
  InSphereFast (fv a) (fv b) (fv c) (fv d) (fv e) = Fin (insphere_poly a b c d e).
Proof. reflexivity. Qed.

Lemma insphere_poly_det a b c d e : insphere_poly a b c d e = insphere_det a b c d e.
Proof.
  unfold insphere_poly, insphere_det, rdist2, rdet3, rdot, rsub; simpl. ring.
Qed.
Lemma insphere_fast_det a b c d e :
  InSphereFast (fv a) (fv b) (fv c) (fv d) (fv e) = Fin (insphere_det a b c d e).
Proof. rewrite insphere_fv, insphere_poly_det; reflexivity. Qed.

Lemma insphere_identity a b c d e o r2 :
  circumsphere o r2 a b c d ->
  insphere_poly a b c d e = - signed_volume a b c d * (r2 - rdist2 e o).
Proof.
  intros (Ha & Hb & Hc & Hd). unfold on_sphere in *.
  assert (L : forall p, rdist2 p o = r2 ->
     (rx p - rx e) * (rx p - rx e) + (ry p - ry e) * (ry p - ry e) + (rz p - rz e) * (rz p - rz e)
     = (r2 - rdist2 e o) + 2 * ((rx p - rx e) * (rx o - rx e) + (ry p - ry e) * (ry o - ry e)
                                + (rz p - rz e) * (rz o - rz e))).
  { intros p Hp. rewrite <- Hp. unfold rdist2, rdot, rsub; simpl. ring. }
  unfold insphere_poly. cbv zeta.
  rewrite (L a Ha), (L b Hb), (L c Hc), (L d Hd).
  unfold signed_volume, rdet3, rsub; simpl.
  generalize (r2 - rdist2 e o) as K. intros K.
  replace (rx a - rx d) with ((rx a - rx e) - (rx d - rx e)) by ring.
  replace (rx b - rx d) with ((rx b - rx e) - (rx d - rx e)) by ring.
  replace (rx c - rx d) with ((rx c - rx e) - (rx d - rx e)) by ring.
  replace (ry a - ry d) with ((ry a - ry e) - (ry d - ry e)) by ring.
  replace (ry b - ry d) with ((ry b - ry e) - (ry d - ry e)) by ring.
  replace (ry c - ry d) with ((ry c - ry e) - (ry d - ry e)) by ring.
  replace (rz a - rz d) with ((rz a - rz e) - (rz d - rz e)) by ring.
  replace (rz b - rz d) with ((rz b - rz e) - (rz d - rz e)) by ring.
  replace (rz c - rz d) with ((rz c - rz e) - (rz d - rz e)) by ring.
  generalize (rx a - rx e) (rx b - rx e) (rx c - rx e) (rx d - rx e)
    (ry a - ry e) (ry b - ry e) (ry c - ry e) (ry d - ry e)
    (rz a - rz e) (rz b - rz e) (rz c - rz e) (rz d - rz e)
    (rx o - rx e) (ry o - ry e) (rz o - rz e).
  intros. ring.
Qed.

Lemma circumsphere_exists a b c d :
  signed_volume a b c d <> 0 -> exists o r2, circumsphere o r2 a b c d.
Proof.
  intros H.
  set (u := rsub a d). set (v := rsub b d). set (w := rsub c d).
  assert (Hdet : rdet3 u v w <> 0) by exact H.
  set (D := 2 * rdet3 u v w).
  set (q := radd (radd (rscale (rdot u u / D) (rcross v w)) (rscale (rdot v v / D) (rcross w u)))
                 (rscale (rdot w w / D) (rcross u v))).
  assert (HD : D <> 0) by (unfold D; lra).
  assert (Qu : 2 * rdot u q = rdot u u).
  { transitivity (rdot u u * (2 * rdet3 u v w / D)).
    - unfold q, rdot, radd, rscale, rcross, rdet3; simpl. field. exact HD.
    - fold D. field. exact HD. }
  assert (Qv : 2 * rdot v q = rdot v v).
  { transitivity (rdot v v * (2 * rdet3 u v w / D)).
    - unfold q, rdot, radd, rscale, rcross, rdet3; simpl. field. exact HD.
    - fold D. field. exact HD. }
  assert (Qw : 2 * rdot w q = rdot w w).
  { transitivity (rdot w w * (2 * rdet3 u v w / D)).
    - unfold q, rdot, radd, rscale, rcross, rdet3; simpl. field. exact HD.
    - fold D. field. exact HD. }
  exists (radd d q), (rdot q q). unfold circumsphere, on_sphere.
  assert (G : forall p, 2 * rdot (rsub p d) q = rdot (rsub p d) (rsub p d) ->
            rdist2 p (radd d q) = rdot q q).
  { intros p Hp.
    transitivity (rdot (rsub p d) (rsub p d) - 2 * rdot (rsub p d) q + rdot q q).
    - unfold rdist2, rdot, rsub, radd; simpl; ring.
    - rewrite Hp; ring. }
  repeat split.
  - apply G; exact Qu.
  - apply G; exact Qv.
  - apply G; exact Qw.
  - unfold rdist2, rdot, rsub, radd; simpl; ring.
Qed.

Lemma insphere_sign a b c d e o r2 :
  circumsphere o r2 a b c d ->
  exists s, InSphereFast (fv a) (fv b) (fv c) (fv d) (fv e) = Fin s /\
   (signed_volume a b c d < 0 ->
      (s > 0 <-> inside_sphere o r2 e) /\ (s = 0 <-> on_sphere o r2 e) /\
      (s < 0 <-> outside_sphere o r2 e)) /\
   (signed_volume a b c d > 0 ->
      (s < 0 <-> inside_sphere o r2 e) /\ (s = 0 <-> on_sphere o r2 e) /\
      (s > 0 <-> outside_sphere o r2 e)) /\
   (signed_volume a b c d = 0 -> s = 0).
Proof.
  intros H. exists (insphere_poly a b c d e). split; [apply insphere_fv|].
  rewrite (insphere_identity a b c d e o r2 H).
  unfold inside_sphere, on_sphere, outside_sphere.
  set (V := signed_volume a b c d). set (q := rdist2 e o).
  assert (P : forall k, 0 < k -> (k * (r2 - q) > 0 <-> q < r2) /\ (k * (r2 - q) = 0 <-> q = r2)
                 /\ (k * (r2 - q) < 0 <-> q > r2)).
  { intros k Hk. repeat split; intros G; try nra.
    }
  split; [|split].
  - intros HV. apply P. lra.
  - intros HV. destruct (P V HV) as (P1 & P2 & P3). 
    replace (- V * (r2 - q)) with (- (V * (r2 - q))) by ring.
    split; [|split].
    + rewrite <- P1. lra.
    + rewrite <- P2. lra.
    + rewrite <- P3. lra.
  - intros ->. ring.
Qed.

(** C11 *)
Lemma inSphere_fast_or_zero {A : Arith} (a b c d e : vec A) :
  let r := inSphere (vx a) (vy a) (vz a) (vx b) (vy b) (vz b) (vx c) (vy c) (vz c)
                    (vx d) (vy d) (vz d) (vx e) (vy e) (vz e) in
  r = InSphereFast a b c d e \/ r = fneg A (fofQ A 0).
Proof.
  unfold inSphere. cbv zeta.
  match goal with |- (if ?c then _ else _) = _ \/ _ => destruct c end;
  [left|right]; reflexivity.
Qed.
(** in exact arithmetic: the determinant when it exceeds the error bound, else zero *)
Lemma inSphere_exact a b c d e :
  inSphere (A:=XR) (Fin (rx a)) (Fin (ry a)) (Fin (rz a)) (Fin (rx b)) (Fin (ry b)) (Fin (rz b))
     (Fin (rx c)) (Fin (ry c)) (Fin (rz c)) (Fin (rx d)) (Fin (ry d)) (Fin (rz d))
     (Fin (rx e)) (Fin (ry e)) (Fin (rz e)) =
  Fin (if Rltb (Q2R isperrboundAQ * permanent5 a b c d e) (Rabs (insphere_det a b c d e))
       then insphere_det a b c d e else 0).
Proof.
  rewrite <- insphere_poly_det.
  unfold inSphere. cbv zeta.
  match goal with |- (if (?c1 || ?c2) then ?x else ?z) = _ =>
    change x with (Fin (insphere_poly a b c d e)) end.
  match goal with |- (if (?c1 || ?c2) then ?x else ?z) = _ =>
    assert (E1 : c1 = Rltb (Q2R isperrboundAQ * permanent5 a b c d e) (insphere_poly a b c d e));
    [|assert (E2 : c2 = Rltb (Q2R isperrboundAQ * permanent5 a b c d e) (- insphere_poly a b c d e))] end.
  1,2: cbn [fabs XR xabs fsub fmul fadd xsub xmul xadd flt xltb fofQ fneg xneg];
    f_equal; f_equal; unfold permanent5, perm3, rdist2, rdot, rsub; cbn [rx ry rz];
    rewrite !Rabs_mult; ring.
  rewrite E1, E2. clear.
  set (q := Q2R isperrboundAQ * permanent5 a b c d e). set (x := insphere_poly a b c d e).
  replace (fneg XR (inSphereAdapt (A:=XR))) with (Fin 0).
  2:{ unfold inSphereAdapt. cbn. f_equal. unfold Q2R; simpl. lra. }
  destruct (Rltb_spec q x), (Rltb_spec q (- x)), (Rltb_spec q (Rabs x)); simpl; auto;
    exfalso; unfold Rabs in *; destruct (Rcase_abs x); lra.
Qed.
