(** Property theorems C165-C167: packages mesh and triangulate3 in float64 away from degenerate positions. *)
From Coq Require Import Reals Lra Lia ZArith QArith Bool List Permutation.
From Flocq Require Import Core BinarySingleNaN.
From Verif Require Import Base Arith M_r3 M_predicates M_tri3 GoMap M_meshing Spec_r3 Spec_sphere Spec_mesh Spec_acc64 Spec_bw Spec_grid3 Spec_clear3 XRvec
  P_predicates P_insphere_err P_insphere_b64 P_meshing P_meshorder P_meshgeom P_tri3 P_acc64 P_bw P_b64grid3 P_clear3 Props_acc64 Props_meshing Props_grid3.
Import ListNotations.
Open Scope R_scope.

(** C165: the tetrahedron test in float64 *)
Theorem C165_test (a b c d p : vec B64) : Forall tame_vec [a; b; c; d; p] -> clear_tetra (rvec a) (rvec b) (rvec c) (rvec d) (rvec p) ->
  (vectorInTetrahedron a b c d p = true <-> in_tetra (rvec a) (rvec b) (rvec c) (rvec d) (rvec p)) /\
  (VectorInTetrahedron a b c d p = true <-> in_tetra (rvec a) (rvec b) (rvec c) (rvec d) (rvec p)).
Proof.
  intros H C. pose proof (clear_side_volume _ _ _ _ (proj1 (proj1 C))) as V.
  assert (E : vectorInTetrahedron a b c d p = true <-> in_tetra (rvec a) (rvec b) (rvec c) (rvec d) (rvec p)) by (rewrite tetra_clear by assumption; apply C40_point_in_tetrahedron, V).
  split; exact E.
Qed.
Print Assumptions C165_test.
(* such a point is not on the boundary *)
Theorem C165_strict (a b c d p : rv) : clear_tetra a b c d p -> (in_tetra a b c d p <-> strictly_in_tetra a b c d p).
Proof.
  intros (_ & C1 & C2 & C3 & C4). split; intros (l1 & l2 & l3 & l4 & L1 & L2 & L3 & L4 & S & E).
  - exists l1, l2, l3, l4. destruct (combine_triple a b c d l1 l2 l3 l4 S) as (T4 & T1 & T2 & T3). rewrite <- E in T1, T2, T3, T4.
    apply clear_side_volume in C1, C2, C3, C4. rewrite sv_triple in C1, C2, C3, C4.
    assert (l1 <> 0) by (intros ->; apply C2; rewrite T1; ring). assert (l2 <> 0) by (intros ->; apply C3; rewrite T2; ring).
    assert (l3 <> 0) by (intros ->; apply C4; rewrite T3; ring). assert (l4 <> 0) by (intros ->; apply C1; rewrite T4; ring).
    split; [lra|]. split; [lra|]. split; [lra|]. split; [lra|]. split; [exact S|exact E].
  - exists l1, l2, l3, l4. split; [lra|]. split; [lra|]. split; [lra|]. split; [lra|]. split; [exact S|exact E].
Qed.
Print Assumptions C165_strict.
(* the test is one of eight float determinants, each of them accurate *)
Theorem C165_determinant (a b c p : vec B64) : tame_vec a -> tame_vec b -> tame_vec c -> tame_vec p ->
  let u := rsub (rvec b) (rvec a) in let v := rsub (rvec c) (rvec a) in let w := rsub (rvec p) (rvec a) in
  accurate (Dot (Cross (Sub b a) (Sub c a)) (Sub p a)) (rdet3 u v w) (perm3 u v w) 8.
Proof. intros Ha Hb Hc Hp. eapply acc_accurate, side_acc; assumption. Qed.
Print Assumptions C165_determinant.

(** C166: the initial tetrahedron contains every point up to 2^-50 of the largest coordinate *)
Theorem C166_almost_contains (points : list (vec B64)) : points <> [] -> Forall modest points ->
  exists t p1 p2 p3 p4, englobe points = (t, p1 :: p2 :: p3 :: p4 :: points) /\ Forall tame_vec [p1; p2; p3; p4] /\
    forall M, all_below M (map rvec points) -> forall p, In p points -> exists q, within (/ 2 ^ 50 * M) (rvec p) q /\
      in_tetra (rvec p1) (rvec p2) (rvec p3) (rvec p4) q.
Proof. exact (englobe_near points). Qed.
Print Assumptions C166_almost_contains.

(** C167: bowyerWatson in float64 is incremental insertion with the sign of the exact in-sphere determinant *)
Theorem C167_run ordT ordF ordE (points : list (vec B64)) : points <> [] -> Forall modest points ->
  (forall n, order_ok (ordT n)) -> (forall n, order_ok (ordF n)) -> order_ok ordE ->
  let all := map rvec (snd (englobe points)) in clear_spheres all ->
  exists (T : list quad) tris, NoDup T /\
    bw_run (fun j => in_det all (nth j (map rvec points) rzero)) 0 (length points) (fun q => q = (0, 1, 2, 3)%Z) (fun q => In q T) /\
    bowyerWatson ordT ordF ordE points = Ok (flatten tris) /\
    Permutation tris (map renumber (filter outer (flat_map quad_faces T))).
Proof. exact (bowyerWatson_clear ordT ordF ordE points). Qed.
Print Assumptions C167_run.

(** ** cases with integer coordinates *)
Definition zpt := (Z * Z * Z)%type.
Definition z3 (p : zpt) : vec B64 := iv (fst (fst p)) (snd (fst p)) (snd p).
Definition r3 (p : zpt) : rv := RV (IZR (fst (fst p))) (IZR (snd (fst p))) (IZR (snd p)).
Definition zsmall (p : zpt) : bool := ((Z.abs (fst (fst p)) <=? 2 ^ 30) && (Z.abs (snd (fst p)) <=? 2 ^ 30) && (Z.abs (snd p) <=? 2 ^ 30))%Z.
Lemma z3_R p : zsmall p = true -> rvec (z3 p) = r3 p.
Proof. unfold zsmall. rewrite !andb_true_iff, !Z.leb_le. intros ((A & B) & C). apply iv_R; eapply Z.le_trans; try eassumption; discriminate. Qed.
Definition zsub (p q : zpt) : zpt := (fst (fst p) - fst (fst q), snd (fst p) - snd (fst q), snd p - snd q)%Z.
Definition zdet (u v w : zpt) : Z := let '(a, b, c) := u in let '(d, e, f) := v in let '(g, h, i) := w in
  (a * (e * i - f * h) - b * (d * i - f * g) + c * (d * h - e * g))%Z.
Definition zper (u v w : zpt) : Z := let '(a, b, c) := u in let '(d, e, f) := v in let '(g, h, i) := w in
  (Z.abs a * (Z.abs e * Z.abs i + Z.abs f * Z.abs h) + Z.abs b * (Z.abs d * Z.abs i + Z.abs f * Z.abs g) + Z.abs c * (Z.abs d * Z.abs h + Z.abs e * Z.abs g))%Z.
Definition zn2 (u : zpt) : Z := let '(a, b, c) := u in (a * a + b * b + c * c)%Z.
Ltac toR := rewrite ?plus_IZR, ?minus_IZR, ?mult_IZR, ?abs_IZR, ?minus_IZR.
Lemma r3_sub p q : rsub (r3 p) (r3 q) = r3 (zsub p q).
Proof. unfold rsub, r3, zsub. cbn [rx ry rz fst snd]. rewrite !minus_IZR. reflexivity. Qed.
Lemma zdet_R u v w : rdet3 (r3 u) (r3 v) (r3 w) = IZR (zdet u v w).
Proof. destruct u as [[a b] c], v as [[d e] f], w as [[g h] i]. unfold rdet3, r3, zdet. cbn [rx ry rz fst snd]. repeat (progress toR). ring. Qed.
Lemma zper_R u v w : perm3 (r3 u) (r3 v) (r3 w) = IZR (zper u v w).
Proof. destruct u as [[a b] c], v as [[d e] f], w as [[g h] i]. unfold perm3, r3, zper. cbn [rx ry rz fst snd]. repeat (progress toR). ring. Qed.
Lemma zn2_R p q : rdist2 (r3 p) (r3 q) = IZR (zn2 (zsub p q)).
Proof. unfold rdist2. rewrite r3_sub. destruct (zsub p q) as [[a b] c]. unfold rdot, r3, zn2. cbn [rx ry rz fst snd]. repeat (progress toR). reflexivity. Qed.
Definition zside (a b c p : zpt) : bool := (9 * zper (zsub b a) (zsub c a) (zsub p a) <? 2 ^ 53 * Z.abs (zdet (zsub b a) (zsub c a) (zsub p a)))%Z.
Lemma gamma_z k t d : (0 <= t)%Z -> (Z.of_nat k <= 2 ^ 26)%Z -> ((Z.of_nat k + 1) * t < 2 ^ 53 * Z.abs d)%Z -> gamma k * IZR t < Rabs (IZR d).
Proof.
  intros T K H. pose proof (gamma_lin k K) as G. apply IZR_lt in H. rewrite !mult_IZR, plus_IZR, <- INR_IZR_INZ, abs_IZR in H. replace (IZR (2 ^ 53)) with (2 ^ 53) in H by (rewrite (pow_IZR 2 53); reflexivity). apply IZR_le in T.
  assert (P : 0 < 2 ^ 53) by (apply pow_lt; lra). apply Rle_lt_trans with ((INR k + 1) / 2 ^ 53 * IZR t); [apply Rmult_le_compat_r; assumption|].
  apply Rmult_lt_reg_l with (2 ^ 53); [exact P|]. replace (2 ^ 53 * ((INR k + 1) / 2 ^ 53 * IZR t)) with ((INR k + 1) * IZR t) by (field; apply Rgt_not_eq, P). exact H.
Qed.
Lemma zper_nonneg u v w : (0 <= zper u v w)%Z.
Proof. destruct u as [[a b] c], v as [[d e] f], w as [[g h] i]. unfold zper. repeat first [apply Z.add_nonneg_nonneg | apply Z.mul_nonneg_nonneg | apply Z.abs_nonneg]. Qed.
Lemma zside_ok a b c p : zside a b c p = true -> clear_side (r3 a) (r3 b) (r3 c) (r3 p).
Proof.
  unfold zside, clear_side. rewrite Z.ltb_lt, !r3_sub, zdet_R, zper_R. intros H. apply gamma_z; [apply zper_nonneg|discriminate|exact H].
Qed.
Definition zins (a b c d e : zpt) : Z := let a := zsub a e in let b := zsub b e in let c := zsub c e in let d := zsub d e in
  (zn2 a * zdet b c d - zn2 b * zdet a c d + zn2 c * zdet a b d - zn2 d * zdet a b c)%Z.
Definition zinp (a b c d e : zpt) : Z := let a := zsub a e in let b := zsub b e in let c := zsub c e in let d := zsub d e in
  (zn2 a * zper b c d + zn2 b * zper a c d + zn2 c * zper a b d + zn2 d * zper a b c)%Z.
Definition zsphere (a b c d e : zpt) : bool := (17 * zinp a b c d e <? 2 ^ 53 * Z.abs (zins a b c d e))%Z.
Lemma zsphere_ok a b c d e : zsphere a b c d e = true -> clear_sphere (r3 a) (r3 b) (r3 c) (r3 d) (r3 e).
Proof.
  unfold zsphere, clear_sphere. rewrite Z.ltb_lt. intros H.
  replace (permanent5 (r3 a) (r3 b) (r3 c) (r3 d) (r3 e)) with (IZR (zinp a b c d e)) by (unfold permanent5, zinp; cbv zeta; rewrite !r3_sub, !zn2_R, !zper_R; repeat (progress toR); reflexivity).
  replace (insphere_det (r3 a) (r3 b) (r3 c) (r3 d) (r3 e)) with (IZR (zins a b c d e)) by (unfold insphere_det, zins; cbv zeta; rewrite !r3_sub, !zn2_R, !zdet_R; repeat (progress toR); reflexivity).
  apply gamma_z; [|discriminate|exact H]. unfold zinp. cbv zeta.
  assert (N : forall u, (0 <= zn2 u)%Z) by (intros [[x y] z]; unfold zn2; repeat apply Z.add_nonneg_nonneg; apply Z.square_nonneg).
  repeat first [apply N | apply zper_nonneg | apply Z.add_nonneg_nonneg | apply Z.mul_nonneg_nonneg].
Qed.
Definition ztame (p : zpt) : bool := (tame_chk (vx (z3 p)) && tame_chk (vy (z3 p)) && tame_chk (vz (z3 p)))%bool.
Lemma ztame_ok p : ztame p = true -> tame_vec (z3 p).
Proof. unfold ztame. rewrite !andb_true_iff. intros ((A & B) & C). split; [|split]; apply tame_chk_ok; assumption. Qed.
Lemma zmodest p : ztame p = true -> zsmall p = true -> modest (z3 p).
Proof.
  intros T S. split; [apply ztame_ok, T|]. pose proof (z3_R p S) as E. unfold zsmall in S. rewrite !andb_true_iff, !Z.leb_le in S.
  assert (G : forall n, (Z.abs n <= 2 ^ 30)%Z -> Rabs (IZR n) <= bpow radix2 197).
  { intros n Hn. rewrite <- abs_IZR. apply Rle_trans with (bpow radix2 30); [rewrite <- (IZR_Zpower radix2 30) by lia; apply IZR_le, Hn|apply bpow_le; lia]. }
  assert (Ex := f_equal rx E). assert (Ey := f_equal ry E). assert (Ez := f_equal rz E). unfold rvec, r3 in Ex, Ey, Ez. cbn [rx ry rz] in Ex, Ey, Ez.
  rewrite Ex, Ey, Ez. split; [|split]; apply G; tauto.
Qed.
(* large coordinates: no product is exact, the point is inside *)
Definition ex165 : list zpt := [(3, -7, 1000000007); (900000011, 13, -5); (-700000001, 800000009, 2); (-600000007, -750000037, -31); (4000037, 12345678, 300000001)]%Z.
Example C165_nonvacuous : match ex165 with
  | [a; b; c; d; p] => Forall tame_vec (map z3 ex165) /\ clear_tetra (rvec (z3 a)) (rvec (z3 b)) (rvec (z3 c)) (rvec (z3 d)) (rvec (z3 p)) /\
      vectorInTetrahedron (z3 a) (z3 b) (z3 c) (z3 d) (z3 p) = true
  | _ => False end.
Proof.
  unfold ex165. split; [|split].
  - apply Forall_forall. intros v Hv. apply in_map_iff in Hv. destruct Hv as (p & <- & Hp). apply ztame_ok.
    assert (A : forallb ztame ex165 = true) by (vm_compute; reflexivity). rewrite forallb_forall in A. apply A, Hp.
  - rewrite !z3_R by (vm_compute; reflexivity). split; (split; [|split; [|split]]); apply zside_ok; vm_compute; reflexivity.
  - vm_compute. reflexivity.
Qed.
(* floats are determined by their bits *)
Definition sfv (v : vec B64) := (sf (vx v), sf (vy v), sf (vz v)).
Lemma sfv_rvec v w : sfv v = sfv w -> rvec v = rvec w.
Proof.
  unfold sfv. intros H. pose proof (f_equal (fun q => fst (fst q)) H) as X. pose proof (f_equal (fun q => snd (fst q)) H) as Y. pose proof (f_equal snd H) as Z. cbn [fst snd] in X, Y, Z.
  assert (G : forall x y : b64, sf x = sf y -> B2R x = B2R y) by (intros x y E; rewrite <- !SF2R_B2SF; unfold sf in E; rewrite E; reflexivity).
  unfold rvec. rewrite (G _ _ X), (G _ _ Y), (G _ _ Z). reflexivity.
Qed.
Lemma sfv_map l l' : map sfv l = map sfv l' -> map rvec l = map rvec l'.
Proof. revert l'. induction l as [|v l IH]; intros [|w l'] H; try discriminate; [reflexivity|]. simpl in H. assert (H1 : sfv v = sfv w) by congruence. assert (H2 : map sfv l = map sfv l') by congruence. simpl. rewrite (sfv_rvec _ _ H1), (IH _ H2). reflexivity. Qed.
(* all the tests of a run *)
Definition zdistinct (l : list nat) : bool := forallb (fun p => negb (Nat.eqb (fst p) (snd p))) (match l with [a; b; c; d] => [(a, b); (a, c); (a, d); (b, c); (b, d); (c, d)] | _ => [] end).
Definition zspheres (all : list zpt) : bool :=
  forallb (fun j => forallb (fun a => forallb (fun b => forallb (fun c => forallb (fun d =>
    negb (zdistinct [a; b; c; d]) || let P i := nth i all (0, 0, 0)%Z in zsphere (P a) (P b) (P c) (P d) (P j))
    (seq 0 j)) (seq 0 j)) (seq 0 j)) (seq 0 j)) (seq 4 (length all - 4)).
Lemma zspheres_ok all : zspheres all = true -> clear_spheres (map r3 all).
Proof.
  intros H j a b c d Hj ((Ha & Hb & Hc & Hd) & N). cbv zeta. rewrite map_length in Hj.
  unfold zspheres in H. rewrite forallb_forall in H. specialize (H j). assert (J : In j (seq 4 (length all - 4))) by (apply in_seq; lia). specialize (H J).
  assert (S : forall x, (0 <= x < Z.of_nat j)%Z -> In (Z.to_nat x) (seq 0 j)) by (intros x Hx; apply in_seq; lia).
  rewrite forallb_forall in H. specialize (H _ (S a Ha)). rewrite forallb_forall in H. specialize (H _ (S b Hb)). rewrite forallb_forall in H. specialize (H _ (S c Hc)). rewrite forallb_forall in H. specialize (H _ (S d Hd)).
  apply orb_true_iff in H. destruct H as [H|H].
  - exfalso. apply negb_true_iff in H. assert (D : zdistinct [Z.to_nat a; Z.to_nat b; Z.to_nat c; Z.to_nat d] = true); [|congruence].
    unfold zdistinct. cbn [forallb fst snd].
    assert (Q : forall x y, (0 <= x)%Z -> (0 <= y)%Z -> x <> y -> negb (Nat.eqb (Z.to_nat x) (Z.to_nat y)) = true) by (intros x y X Y XY; apply negb_true_iff, Nat.eqb_neq; lia).
    repeat match goal with H : NoDup (_ :: _) |- _ => inversion H; clear H; subst end. simpl in *. rewrite !Q by (try lia; intuition congruence). reflexivity.
  - cbv zeta in H. replace rzero with (r3 (0, 0, 0)%Z) by reflexivity. rewrite !map_nth. apply zsphere_ok, H.
Qed.
Definition ex167 : list zpt := [(-200003, 500011, 900007); (800029, 800017, -300007); (3, -300011, 300043)]%Z.
Definition all167 : list zpt := ([(-200003, -300011, -300007); (2800093, -300011, -300007); (-200003, 3000073, -300007); (-200003, -300011, 3300035)] ++ ex167)%Z.
Lemma ex167_all : map rvec (snd (englobe (map z3 ex167))) = map r3 all167.
Proof.
  transitivity (map rvec (map z3 all167)).
  - apply sfv_map. vm_compute. reflexivity.
  - rewrite map_map. apply map_ext_in. intros p Hp. apply z3_R. assert (A : forallb zsmall all167 = true) by (vm_compute; reflexivity). rewrite forallb_forall in A. apply A, Hp.
Qed.
Lemma ex167_modest : Forall modest (map z3 ex167).
Proof.
  apply Forall_forall. intros v Hv. apply in_map_iff in Hv. destruct Hv as (p & <- & Hp).
  assert (A : forallb (fun p => ztame p && zsmall p)%bool ex167 = true) by (vm_compute; reflexivity). rewrite forallb_forall in A. specialize (A p Hp). apply andb_true_iff in A. apply zmodest; tauto.
Qed.
Example C167_nonvacuous : map z3 ex167 <> [] /\ Forall modest (map z3 ex167) /\ clear_spheres (map rvec (snd (englobe (map z3 ex167)))) /\
  match bw (map z3 ex167) with Ok (_ :: _) => true | _ => false end = true.
Proof.
  split; [discriminate|]. split; [exact ex167_modest|]. split; [rewrite ex167_all; apply zspheres_ok|]; vm_compute; reflexivity.
Qed.
(* the hypotheses hold for the two points of C112_refuted, one of which is outside the tetrahedron *)
Example C166_nonvacuous : Forall modest [origin64; p07] /\ all_below 1 (map rvec [origin64; p07]).
Proof.
  assert (X : B2R (fofQ B64 (7 # 10) : b64) = IZR 6305039478318694 * bpow radix2 (-53)).
  { rewrite <- SF2R_B2SF. replace (B2SF (fofQ B64 (7 # 10) : b64)) with (SpecFloat.S754_finite false 6305039478318694 (-53)) by (vm_compute; reflexivity). reflexivity. }
  assert (B : 0 <= B2R (fofQ B64 (7 # 10) : b64) <= 1) by (rewrite X; replace (bpow radix2 (-53)) with (/ IZR (2 ^ 53)) by reflexivity; lra).
  assert (Z0 : B2R (fofZ B64 0 : b64) = 0) by reflexivity.
  assert (P : 1 <= bpow radix2 197) by (replace 1 with (bpow radix2 0) by reflexivity; apply bpow_le; lia).
  split.
  - repeat apply Forall_cons; try apply Forall_nil; (split; [split; [|split]; apply tame_chk_ok; vm_compute; reflexivity|]); unfold origin64, p07; cbn [vx vy vz].
    + rewrite Z0, Rabs_R0. lra.
    + rewrite Rabs_pos_eq by apply B. lra.
  - intros p [<-|[<-|[]]]; unfold rvec, origin64, p07; cbn [vx vy vz rx ry rz].
    + rewrite Z0, Rabs_R0. lra.
    + rewrite Rabs_pos_eq by apply B. lra.
Qed.
