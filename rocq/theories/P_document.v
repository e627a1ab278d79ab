(** Proofs about Export and its document (property C175). *)
From Coq Require Import Reals Lra Lia ZArith List String.
From Flocq Require Import Core Relative BinarySingleNaN.
From Verif Require Import Base Arith M_r3 M_shape M_gltf M_document Spec_r3 Spec_document Spec_shape64 P_meshgeom P_gltf P_b64clamp.
Import ListNotations.
Open Scope R_scope.
Local Instance p24d : Prec_gt_0 24 := eq_refl.

Definition to32 (v : vec B64) : b32 * b32 * b32 := (b32_of_b64 (vx v), b32_of_b64 (vy v), b32_of_b64 (vz v)).
Lemma Export_value mesh : Export mesh = Ok (mkDocument
  [APositions (map to32 (mVertices mesh)); AIndices (mIndices mesh); AColors (repeat (255, 255, 255)%Z (List.length (mVertices mesh)))]
  [mkGMesh "drawTriangle" [mkPrimitive (Some 1%Z) [("POSITION"%string, 0%Z); ("COLOR_0"%string, 2%Z)]]]
  [mkNode "Root" (Some 0%Z)] [[0%Z]] (Some 0%Z)).
Proof. unfold Export. rewrite transferModel_value, exportColors_value. reflexivity. Qed.

Lemma at_fun {X} (l : list X) i a b : at_ l i a -> at_ l i b -> a = b.
Proof. intros (_ & H) (_ & K). congruence. Qed.
Lemma Export_shows mesh d : Export mesh = Ok d -> forall P I, shows d P I <-> P = map to32 (mVertices mesh) /\ I = mIndices mesh.
Proof.
  rewrite Export_value. intros E. assert (d = _) as -> by (symmetry; exact (f_equal (fun r => match r with Ok x => x | _ => d end) E)). clear E.
  intros P I. split.
  - intros (k & n & m & p & Hk & Hs & (nd & Hn & Hm) & (g & Hg & Hp) & Hsh).
    cbn [dScene dScenes dNodes dMeshes] in *. injection Hk as <-.
    destruct Hs as (_ & Hs). injection Hs as <-. destruct Hn as (_ & Hn). injection Hn as <-. injection Hm as <-.
    destruct Hg as (_ & Hg). injection Hg as <-. injection Hp as <-.
    destruct Hsh as ((i & Hi & Ai) & (j & Hj & Aj) & _). cbn [pIndices pAttributes dAccessors] in *.
    injection Hj as <-. destruct Aj as (_ & Aj). injection Aj as <-.
    destruct Hi as [Hi|[Hi|[]]]; [|discriminate]. injection Hi as <-. destruct Ai as (_ & Ai). injection Ai as <-. auto.
  - intros (-> & ->). exists 0%Z, 0%Z, 0%Z. eexists. split; [reflexivity|]. split; [split; [lia|reflexivity]|].
    split; [eexists; split; [split; [lia|reflexivity]|reflexivity]|]. split; [eexists; split; [split; [lia|reflexivity]|reflexivity]|].
    split; [|split].
    + exists 0%Z. split; [left; reflexivity|]. split; [lia|reflexivity].
    + exists 1%Z. split; [reflexivity|]. split; [lia|reflexivity].
    + intros name k [E|[E|[]]]; injection E as <- <-; [left; reflexivity|right]. split; [reflexivity|].
      eexists. split; [split; [lia|reflexivity]|]. rewrite repeat_length, map_length. reflexivity.
Qed.
Lemma Export_valid mesh d : Export mesh = Ok d -> (valid_doc d <-> prim_data (map to32 (mVertices mesh)) (mIndices mesh)).
Proof.
  intros E. pose proof (Export_shows mesh d E) as S. pose proof E as E'. rewrite Export_value in E'.
  assert (d = _) as D by (symmetry; exact (f_equal (fun r => match r with Ok x => x | _ => d end) E')). clear E'.
  split.
  - intros (_ & _ & _ & H). destruct (S (map to32 (mVertices mesh)) (mIndices mesh)) as (_ & S2).
    destruct (S2 (conj eq_refl eq_refl)) as (k & n & m & p & Hk & Hs & Hn & (g & Hg & Hp) & Hsh).
    destruct (H g) as (_ & K). { destruct Hg as (_ & Hg). eapply nth_error_In; eauto. }
    destruct (K p) as (P & I & Hsh' & Hd). { rewrite Hp. left. reflexivity. }
    destruct (S P I) as (S1 & _). destruct S1 as (-> & ->); [|exact Hd].
    exists k, n, m, p. split; [exact Hk|]. split; [exact Hs|]. split; [exact Hn|]. split; [exists g; auto|exact Hsh'].
  - intros Hd. destruct (S (map to32 (mVertices mesh)) (mIndices mesh)) as (_ & S2).
    destruct (S2 (conj eq_refl eq_refl)) as (k & n & m & p & Hk & Hs & Hn & (g & Hg & Hp) & Hsh).
    rewrite D in *. split; [|split; [|split]].
    + exists 0%Z. eexists. split; [reflexivity|]. split; [lia|reflexivity].
    + intros s i [<-|[]] [<-|[]]. eexists. split; [lia|reflexivity].
    + intros nd i [<-|[]] Hi. injection Hi as <-. eexists. split; [lia|reflexivity].
    + intros gm [<-|[]]. split; [discriminate|]. intros q [<-|[]]. cbn [dMeshes] in Hg.
      destruct Hn as (nd & (_ & Hn) & Hm). cbn [dScene dScenes dNodes] in *. injection Hk as <-. destruct Hs as (_ & Hs). injection Hs as <-.
      injection Hn as <-. injection Hm as <-. destruct Hg as (_ & Hg). injection Hg as <-. injection Hp as <-.
      exists (map to32 (mVertices mesh)), (mIndices mesh). auto.
Qed.

(** float32 rounding: relative 2^-24, absolute 2^-150 *)
Lemma b32_err (x : B64) : bfin x -> Rabs (bR x) < lim32 ->
  bfin32 (b32_of_b64 x) /\ Rabs (bR32 (b32_of_b64 x) - bR x) <= / 16777216 * Rabs (bR x) + bpow radix2 (-150).
Proof.
  intros Hx Hl. assert (F : bfin32 (b32_of_b64 x)) by (apply b32_finite_iff; assumption). split; [exact F|].
  pose proof (b32_correct x Hx) as C. destruct (Rlt_bool _ _).
  - destruct C as (-> & _). change (SpecFloat.fexp 24 128) with (FLT_exp (-149) 24).
    destruct (error_N_FLT radix2 (-149) 24 eq_refl (fun x => negb (Z.even x)) (bR x)) as (e & h & He & Hh & _ & Hr).
    rewrite Hr. replace (bR x * (1 + e) + h - bR x) with (e * bR x + h) by ring.
    eapply Rle_trans; [apply Rabs_triang|]. rewrite Rabs_mult.
    assert (E24 : /2 * bpow radix2 (-24 + 1) = / 16777216) by (simpl; lra).
    assert (E150 : /2 * bpow radix2 (-149) = bpow radix2 (-150)) by (change (-150)%Z with (-1 + -149)%Z; rewrite bpow_plus; simpl (bpow radix2 (-1)); lra).
    assert (He' : Rabs e <= / 16777216) by (rewrite <- E24; exact He). clear He. rename He' into He. assert (Hh' : Rabs h <= bpow radix2 (-150)) by (rewrite <- E150; exact Hh). clear Hh. rename Hh' into Hh. apply Rplus_le_compat; [|exact Hh]. apply Rmult_le_compat_r; [apply Rabs_pos|exact He].
  - destruct C as (s & E & _). rewrite E in F. discriminate.
Qed.

Lemma within32 (x : B64) q rho e B : Spec_shape64.within x q e -> Rabs q <= rho -> rho + e < lim32 ->
  e + / 16777216 * (rho + e) + bpow radix2 (-150) <= B -> is_finite (b32_of_b64 x) = true /\ Rabs (B2R (b32_of_b64 x) - q) <= B.
Proof.
  intros (F & H) Hq Hl HB. assert (X : Rabs (bR x) <= rho + e).
  { unfold bR. replace (B2R (x : b64)) with (q + (B2R (x : b64) - q)) by ring. eapply Rle_trans; [apply Rabs_triang|]. lra. }
  destruct (b32_err x F ltac:(lra)) as (F2 & E). split; [exact F2|].
  unfold bR32, bR in *. replace (B2R (b32_of_b64 x) - q) with ((B2R (b32_of_b64 x) - B2R (x : b64)) + (B2R (x : b64) - q)) by ring.
  eapply Rle_trans; [apply Rabs_triang|]. lra.
Qed.
Lemma lim32_big : bpow radix2 127 * (3 / 2) < lim32.
Proof.
  unfold lim32. change 128%Z with (1 + 127)%Z. rewrite bpow_plus. change (bpow radix2 1) with 2.
  assert (bpow radix2 103 < bpow radix2 126) by (apply bpow_lt; lia). change 127%Z with (1 + 126)%Z. rewrite bpow_plus. change (bpow radix2 1) with 2. lra.
Qed.
Lemma tiny_1074 : 0 < 50 * bpow radix2 (-1074) <= / 4 * bpow radix2 (-150).
Proof.
  pose proof (bpow_gt_0 radix2 (-1074)). pose proof (bpow_gt_0 radix2 (-150)). split; [lra|].
  change (-1074)%Z with (-924 + -150)%Z. rewrite bpow_plus.
  assert (bpow radix2 (-924) <= bpow radix2 (-10)) by (apply bpow_le; lia). assert (E : bpow radix2 (-10) = / 1024) by (simpl; lra). rewrite E in H1.
  assert (bpow radix2 (-924) * bpow radix2 (-150) <= / 1024 * bpow radix2 (-150)) by (apply Rmult_le_compat_r; lra). lra.
Qed.
(** a vertex within the tolerance of C148, after rounding to float32 *)
Lemma vertex32 (v : vec B64) q rho eps : 0 <= eps <= / 1000 -> 0 <= rho <= bpow radix2 127 ->
  Rabs (rx q) <= rho -> Rabs (ry q) <= rho -> Rabs (rz q) <= rho ->
  vwithin v q (rho * (3 * eps + 130 * P_insphere_err.u53) + 50 * bpow radix2 (-1074)) ->
  near32 (to32 v) (rx q) (ry q) (rz q) (rho * (4 * eps + / 8388608) + bpow radix2 (-149)).
Proof.
  intros He Hr Bx By Bz (X & Y & Z). pose proof tiny_1074 as T. pose proof lim32_big as L.
  assert (U : P_insphere_err.u53 = / 9007199254740992) by apply P_b64err.u_val. rewrite U in X, Y, Z.
  assert (E149 : bpow radix2 (-149) = 2 * bpow radix2 (-150)) by (change (-149)%Z with (1 + -150)%Z; rewrite bpow_plus; reflexivity).
  assert (T2 : bpow radix2 (-150) <= bpow radix2 120) by (apply bpow_le; lia).
  assert (T3 : bpow radix2 127 = 128 * bpow radix2 120) by (change 127%Z with (7 + 120)%Z; rewrite bpow_plus; reflexivity).
  pose proof (bpow_gt_0 radix2 120).
  set (e := rho * (3 * eps + 130 * / 9007199254740992) + 50 * bpow radix2 (-1074)) in *.
  assert (RE : rho * eps <= rho * / 1000) by (apply Rmult_le_compat_l; lra).
  assert (RE0 : 0 <= rho * eps) by (apply Rmult_le_pos; lra).
  assert (E1 : rho + e < lim32) by (unfold e; lra).
  assert (E2 : e + / 16777216 * (rho + e) + bpow radix2 (-150) <= rho * (4 * eps + / 8388608) + bpow radix2 (-149)) by (unfold e; lra).
  destruct (within32 _ _ _ _ _ X Bx E1 E2) as (F1 & K1). destruct (within32 _ _ _ _ _ Y By E1 E2) as (F2 & K2). destruct (within32 _ _ _ _ _ Z Bz E1 E2) as (F3 & K3).
  unfold near32, to32, finite3. auto.
Qed.
