(** polygonArea and polygonPerimeter (C32). *)
From Coq Require Import Reals Lra Lia ZArith Bool List Permutation.
From Verif Require Import Base Arith M_r3 M_tri2 Spec_r3 Spec_plane XRvec P_r3 P_tri2.
Import ListNotations.
Open Scope R_scope.

(** sum of [g] along a path *)
Fixpoint psum (g : rv -> rv -> R) (l : list rv) : R :=
  match l with
  | [] => 0
  | a :: l' => match l' with [] => 0 | b :: _ => g a b + psum g l' end
  end.
Lemma psum_cons2 g a b l : psum g (a :: b :: l) = g a b + psum g (b :: l).
Proof. reflexivity. Qed.
Lemma psum_app g l a m : psum g (l ++ a :: m) = psum g (l ++ [a]) + psum g (a :: m).
Proof.
  induction l as [|x l IH].
  - simpl. ring.
  - destruct l as [|y l].
    + simpl ([x] ++ a :: m). rewrite psum_cons2. simpl ([x] ++ [a]). simpl (psum g [x; a]). ring.
    + simpl app in *. rewrite !psum_cons2. rewrite IH. ring.
Qed.
Lemma psum_rev g l : psum g (rev l) = psum (fun a b => g b a) l.
Proof.
  induction l as [|x l IH]; [reflexivity|].
  destruct l as [|y l]; [reflexivity|].
  rewrite psum_cons2. simpl rev in *. rewrite <- app_assoc. simpl app.
  rewrite psum_app, IH. simpl (psum g [y; x]). ring.
Qed.
Lemma psum_ext g h l : (forall a b, g a b = h a b) -> psum g l = psum h l.
Proof.
  intros E. induction l as [|x [|y l] IH]; [reflexivity..|].
  rewrite !psum_cons2, E, IH. reflexivity.
Qed.
Lemma psum_nonneg g l : (forall a b, 0 <= g a b) -> 0 <= psum g l.
Proof.
  intros E. induction l as [|x [|y l] IH]; [simpl; lra..|].
  rewrite psum_cons2. specialize (E x y). lra.
Qed.
Lemma psum_map g (f : rv -> rv) l : psum g (map f l) = psum (fun a b => g (f a) (f b)) l.
Proof.
  induction l as [|x [|y l] IH]; [reflexivity..|].
  simpl map in *. rewrite !psum_cons2, IH. reflexivity.
Qed.
(** telescoping *)
Lemma psum_tele (f : rv -> R) a l b : psum (fun x y => f x - f y) (a :: l ++ [b]) = f a - f b.
Proof.
  revert a. induction l as [|x l IH]; intros a.
  - simpl. ring.
  - simpl app. rewrite psum_cons2, IH. ring.
Qed.
Lemma psum_add g h l : psum (fun a b => g a b + h a b) l = psum g l + psum h l.
Proof.
  induction l as [|x [|y l] IH]; [simpl; ring..|].
  rewrite !psum_cons2, IH. ring.
Qed.

(** sum over the edges of a closed polygon = sum along the closed path *)
Definition close (l : list rv) : list rv := match l with [] => [] | x :: _ => l ++ [x] end.
Lemma edges_psum (g : rv -> rv -> R) l :
  Rsum (map (fun e => g (fst e) (snd e)) (polygon_edges l)) = psum g (close l).
Proof.
  destruct l as [|x l]; [reflexivity|]. unfold polygon_edges, close.
  assert (G : forall m y, Rsum (map (fun e => g (fst e) (snd e)) (combine (y :: m) (m ++ [x])))
                          = psum g (y :: m ++ [x])).
  { induction m as [|z m IH]; intros y.
    - simpl. ring.
    - cbn [combine app map Rsum]. change ((z :: m) ++ [x]) with (z :: m ++ [x]).
      simpl fst; simpl snd. rewrite psum_cons2.
      rewrite <- (IH z). reflexivity. }
  apply G.
Qed.
Lemma close_rot g x l : psum g (close (x :: l)) = psum g (close (l ++ [x])).
Proof.
  destruct l as [|y l]; [reflexivity|].
  unfold close. simpl app. rewrite psum_cons2.
  replace (y :: (l ++ [x]) ++ [y]) with ((y :: l) ++ x :: [y])
    by (simpl; rewrite <- app_assoc; reflexivity).
  rewrite psum_app.
  simpl (psum g [x; y]). simpl app. ring.
Qed.
Lemma close_rot_app g l1 l2 : psum g (close (l1 ++ l2)) = psum g (close (l2 ++ l1)).
Proof.
  revert l2. induction l1 as [|x l1 IH]; intros l2.
  - rewrite app_nil_r. reflexivity.
  - simpl app. rewrite close_rot, <- app_assoc, IH, <- app_assoc. reflexivity.
Qed.
Lemma close_rev g l : psum g (close (rev l)) = psum (fun a b => g b a) (close l).
Proof.
  destruct l as [|x l]; [reflexivity|].
  simpl rev. rewrite <- close_rot. unfold close.
  change (fun a b => g b a) with (fun a b => (fun c d => g c d) b a).
  rewrite <- (psum_rev g). simpl app. simpl rev. rewrite rev_app_distr. reflexivity.
Qed.

Lemma last_indep {T} (x : T) l a b : last (x :: l) a = last (x :: l) b.
Proof. revert x. induction l as [|y l IH]; intros x; [reflexivity|]. apply (IH y). Qed.

(** ** polygonArea *)
Lemma polygonArea_loop vs (g : R) pre l :
  vs = pre ++ l ->
  range_loop (Z.of_nat (length pre)) (map fv l) (Fin g : XR) (fun i p result =>
    rbind (zget (map fv vs) ((i + 1) mod Z.of_nat (length (map fv vs)))) (fun q =>
    Ok (fadd XR result (fmul XR (fsub XR (vx p) (vx q)) (fadd XR (vy p) (vy q)))))) =
  Ok (Fin (g + psum (fun p q => (rx p - rx q) * (ry p + ry q))
        (l ++ match vs with [] => [] | x :: _ => [x] end))).
Proof.
  revert g pre. induction l as [|x l IH]; intros g pre H.
  - simpl. destruct vs as [|y vs]; simpl; do 2 f_equal; ring.
  - cbn [map range_loop].
    assert (Hq : zget (map fv vs) ((Z.of_nat (length pre) + 1) mod Z.of_nat (length (map fv vs)))
                 = Ok (fv (match l with y :: _ => y | [] => match vs with [] => x | y :: _ => y end end))).
    { rewrite map_length. assert (L : length vs = (length pre + S (length l))%nat)
        by (rewrite H, app_length; reflexivity).
      destruct l as [|y l].
      - replace (Z.of_nat (length pre) + 1)%Z with (Z.of_nat (length vs)) by (rewrite L; simpl; lia).
        rewrite Z_mod_same_full. destruct vs as [|y vs]; [destruct pre; discriminate|]. reflexivity.
      - rewrite Z.mod_small by (rewrite L; simpl; lia).
        replace (Z.of_nat (length pre) + 1)%Z with (Z.of_nat (S (length pre))) by lia.
        rewrite zget_nat. rewrite nth_error_map, H, nth_error_app2 by lia.
        replace (S (length pre) - length pre)%nat with 1%nat by lia. reflexivity. }
    rewrite Hq. cbn [rbind].
    replace (Z.of_nat (length pre) + 1)%Z with (Z.of_nat (length (pre ++ [x])))
      by (rewrite app_length; simpl; lia).
    set (y0 := match l with y :: _ => y | [] => match vs with [] => x | y :: _ => y end end).
    match goal with |- range_loop ?i ?m ?s ?f = _ =>
      change (range_loop i m s f) with
        (range_loop i m (Fin (g + (rx x - rx y0) * (ry x + ry y0)) : XR) f) end.
    rewrite (IH _ (pre ++ [x])) by (rewrite <- app_assoc; exact H). unfold y0.
    do 2 f_equal. destruct l as [|y l].
    + destruct vs as [|z vs]; [destruct pre; discriminate|]. simpl. ring.
    + change ((x :: y :: l) ++ ?t) with (x :: (y :: l) ++ t). simpl app. rewrite psum_cons2. ring.
Qed.
Lemma close_match (vs : list rv) : vs ++ match vs with [] => [] | x :: _ => [x] end = close vs.
Proof. destruct vs; reflexivity. Qed.

Lemma polygonArea_shoelace l : polygonArea (map fv l) = Ok (Fin (shoelace l)).
Proof.
  unfold polygonArea. cbn [fofZ XR].
  pose proof (polygonArea_loop l 0 [] l eq_refl) as H. cbn [length Z.of_nat] in H.
  setoid_rewrite H. clear H. cbn [rbind]. rewrite close_match.
  cbn [fdiv XR xdiv]. destruct (Reqb_spec 2 0); [lra|]. do 2 f_equal.
  unfold shoelace. rewrite (edges_psum (fun p q => rx p * ry q - rx q * ry p)). f_equal.
  transitivity (psum (fun p q => (rx p * ry q - rx q * ry p) + (rx p * ry p - rx q * ry q)) (close l)).
  { rewrite Rplus_0_l. apply psum_ext. intros; ring. }
  rewrite psum_add.
  replace (psum (fun p q => rx p * ry p - rx q * ry q) (close l)) with 0; [ring|].
  destruct l as [|x l]; [reflexivity|]. symmetry. unfold close. simpl app.
  rewrite (psum_tele (fun v => rx v * ry v)). ring.
Qed.
Lemma polygonPerimeter_spec l : polygonPerimeter (map fv l) = Ok (Fin (perimeter3 l)).
Proof.
  unfold perimeter3. rewrite edges_psum.
  destruct l as [|x0 l0] eqn:El; [reflexivity|]. rewrite <- El. unfold polygonPerimeter.
  rewrite map_length. assert (Hlen : (0 < length l)%nat) by (rewrite El; simpl; lia).
  destruct (Z.eqb_spec (Z.of_nat (length l)) 0); [lia|].
  assert (exists m z, l = m ++ [z]) as (m & z & Hz).
  { destruct (exists_last (l := l)) as (m & z & H); [rewrite El; discriminate|]. eauto. }
  replace (zget (map fv l) (Z.of_nat (length l) - 1)) with (Ok (fv z)).
  2:{ replace (Z.of_nat (length l) - 1)%Z with (Z.of_nat (length m))
        by (rewrite Hz, app_length; simpl; lia).
      rewrite zget_nat, nth_error_map, Hz, nth_error_app2, Nat.sub_diag by lia. reflexivity. }
  cbn [rbind].
  assert (G : forall k i s q,
    range_loop i (map fv k) (Fin s : XR, fv q) (fun _ p '(result, q) =>
       Ok (fadd XR result (Distance p q), p))
    = Ok (Fin (s + psum (fun a b => rdist b a) (q :: k)), fv (last k q))).
  { induction k as [|y k IH]; intros i s q.
    - simpl. do 3 f_equal. ring.
    - cbn [map range_loop rbind]. rewrite Distance_fv. xr_cbn. rewrite IH.
      rewrite psum_cons2. f_equal. f_equal.
      + f_equal. ring.
      + f_equal. destruct k as [|z' k]; [reflexivity|]. apply (last_indep z' k). }
  cbn [fofZ XR].
  setoid_rewrite G. cbn [rbind fst]. do 2 f_equal.
  assert (Sym : forall a b, rdist b a = rdist a b).
  { intros. unfold rdist, rdist2. f_equal. unfold rdot, rsub; simpl; ring. }
  rewrite Rplus_0_l. rewrite (psum_ext _ rdist) by auto.
  replace (close l) with (close (m ++ [z])) by (rewrite Hz; reflexivity).
  rewrite <- close_rot. rewrite Hz. unfold close. reflexivity.
Qed.

Definition rtranslate (t : rv) (l : list rv) : list rv := map (fun p => radd p t) l.

Lemma close_map f l : close (map f l) = map f (close l).
Proof. destruct l as [|x l]; [reflexivity|]. unfold close. simpl. rewrite map_app. reflexivity. Qed.

Lemma shoelace_psum l : shoelace l = psum (fun p q => rx p * ry q - rx q * ry p) (close l) / 2.
Proof. unfold shoelace. rewrite (edges_psum (fun p q => rx p * ry q - rx q * ry p)). reflexivity. Qed.

Lemma polygon_area_laws l1 l2 t :
  polygonArea (map fv (l1 ++ l2)) = polygonArea (map fv (l2 ++ l1)) /\
  polygonArea (map fv (rtranslate t l1)) = polygonArea (map fv l1) /\
  polygonArea (map fv l1) = Ok (Fin (shoelace l1)) /\
  polygonArea (map fv (rev l1)) = Ok (Fin (- shoelace l1)).
Proof.
  rewrite !polygonArea_shoelace, !shoelace_psum.
  split; [do 3 f_equal; apply close_rot_app|].
  split.
  { do 3 f_equal. unfold rtranslate. rewrite close_map, psum_map.
    transitivity (psum (fun a b => (rx a * ry b - rx b * ry a)
       + ((ry t * rx a - rx t * ry a) - (ry t * rx b - rx t * ry b))) (close l1)).
    - apply psum_ext. intros. unfold radd; simpl. ring.
    - rewrite psum_add.
      replace (psum (fun a b => (ry t * rx a - rx t * ry a) - (ry t * rx b - rx t * ry b)) (close l1)) with 0; [ring|].
      destruct l1 as [|x l]; [reflexivity|]. symmetry. unfold close; simpl app.
      rewrite (psum_tele (fun v => ry t * rx v - rx t * ry v)). ring. }
  split; [reflexivity|].
  do 2 f_equal. rewrite close_rev.
  transitivity (psum (fun a b => (-1) * (rx a * ry b - rx b * ry a)) (close l1) / 2).
  - f_equal. apply psum_ext. intros; ring.
  - assert (forall m, psum (fun a b => (-1) * (rx a * ry b - rx b * ry a)) m =
       - psum (fun a b => rx a * ry b - rx b * ry a) m) as ->.
    { induction m as [|x [|y m] IH]; [simpl; ring..|]. rewrite !psum_cons2, IH. ring. }
    lra.
Qed.
Lemma polygon_area_fan p l :
  polygonArea (map fv (p :: l)) = Ok (Fin (psum (fun a b => ccw p a b) l / 2)).
Proof.
  rewrite polygonArea_shoelace, shoelace_psum. do 3 f_equal.
  destruct l as [|a l]; [simpl; ring|].
  unfold close. simpl app. rewrite psum_cons2.
  set (g := fun p q : rv => rx p * ry q - rx q * ry p).
  assert (E : psum (fun a b => ccw p a b) (a :: l) =
    psum g (a :: l) + g p a + g (last (a :: l) p) p).
  { revert a. induction l as [|b l IH]; intros a.
    - simpl. unfold g. ring.
    - rewrite !psum_cons2, IH. change (last (a :: b :: l) p) with (last (b :: l) p).
      unfold g, ccw. ring. }
  rewrite E.
  assert (E2 : forall m b, psum g ((b :: m) ++ [p]) = psum g (b :: m) + g (last (b :: m) p) p).
  { induction m as [|c m IH]; intros b.
    - simpl. ring.
    - change ((b :: c :: m) ++ [p]) with (b :: (c :: m) ++ [p]).
      change (b :: (c :: m) ++ [p]) with (b :: c :: m ++ [p]).
      rewrite !psum_cons2. change (c :: m ++ [p]) with ((c :: m) ++ [p]). rewrite IH.
      change (last (b :: c :: m) p) with (last (c :: m) p). ring. }
  change (a :: l ++ [p]) with ((a :: l) ++ [p]). rewrite E2. fold (g p a). ring.
Qed.
Lemma polygon_perimeter_laws l1 l2 :
  polygonPerimeter (map fv l1) = Ok (Fin (perimeter3 l1)) /\ 0 <= perimeter3 l1 /\
  polygonPerimeter (map fv (l1 ++ l2)) = polygonPerimeter (map fv (l2 ++ l1)) /\
  polygonPerimeter (map fv (rev l1)) = polygonPerimeter (map fv l1).
Proof.
  rewrite !polygonPerimeter_spec. unfold perimeter3. rewrite !edges_psum.
  split; [reflexivity|]. split; [apply psum_nonneg; intros; apply sqrt_pos|].
  split; [do 2 f_equal; apply close_rot_app|].
  do 2 f_equal. rewrite close_rev. apply psum_ext. intros.
  unfold rdist, rdist2. f_equal. unfold rdot, rsub; simpl; ring.
Qed.
Lemma polygon_area_fan_pairs p l :
  polygonArea (map fv (p :: l)) =
  Ok (Fin (Rsum (map (fun e => ccw p (fst e) (snd e)) (combine l (tl l))) / 2)).
Proof.
  rewrite polygon_area_fan. do 3 f_equal.
  induction l as [|a [|b l] IH]; [reflexivity..|].
  rewrite psum_cons2, IH. reflexivity.
Qed.
