(** Proofs about package step: UTF-8, argument splitting, lexing. *)
From Coq Require Import Ascii String ZArith List Bool Lia.
From Verif Require Import Base GoMap M_step Spec_step.
Import ListNotations.
Open Scope Z_scope.

Lemma bv_range b : 0 <= bv b < 256.
Proof. unfold bv. pose proof (N_ascii_bounded b). lia. Qed.
Lemma bv_chr z : 0 <= z < 256 -> bv (chr z) = z.
Proof. intros H. unfold bv, chr. rewrite N_ascii_embedding by lia. lia. Qed.
Lemma chr_bv b : chr (bv b) = b.
Proof. unfold bv, chr. rewrite N2Z.id. apply ascii_N_embedding. Qed.
Lemma byte_in_bv lo hi b : byte_in lo hi b <-> Z.of_N lo <= bv b <= Z.of_N hi.
Proof. unfold byte_in, bv. lia. Qed.

Lemma ltb_t a b : a < b -> (a <? b) = true. Proof. apply Z.ltb_lt. Qed.
Lemma ltb_f a b : b <= a -> (a <? b) = false. Proof. apply Z.ltb_ge. Qed.

Lemma leb_t a b : a <= b -> (a <=? b) = true. Proof. apply Z.leb_le. Qed.
Lemma leb_f a b : b < a -> (a <=? b) = false. Proof. apply Z.leb_gt. Qed.
Lemma eqb_t a b : a = b -> (a =? b) = true. Proof. apply Z.eqb_eq. Qed.
Lemma eqb_f a b : a <> b -> (a =? b) = false. Proof. apply Z.eqb_neq. Qed.
Ltac zb := repeat match goal with
  | |- context [?a <? ?b] => first [rewrite (ltb_t a b) by lia | rewrite (ltb_f a b) by lia]
  | |- context [?a <=? ?b] => first [rewrite (leb_t a b) by lia | rewrite (leb_f a b) by lia]
  | |- context [?a =? ?b] => first [rewrite (eqb_t a b) by lia | rewrite (eqb_f a b) by lia] end; cbn [andb orb negb].

(** decoding one character *)
Lemma dec1 a t : bv a < 128 -> runes (a :: t) = bv a :: runes t.
Proof. intros H. cbn [runes]. rewrite ltb_t by lia. reflexivity. Qed.
Lemma dec2 a b t : 194 <= bv a <= 223 -> 128 <= bv b <= 191 ->
  runes (a :: b :: t) = ((bv a - 192) * 64 + (bv b - 128)) :: runes t.
Proof. intros H1 H2. cbn [runes]. unfold utf8_2, between, cont. zb. reflexivity. Qed.
Definition lead3 (a b : Z) : Prop :=
  (a = 224 /\ 160 <= b <= 191) \/ (225 <= a <= 236 /\ 128 <= b <= 191) \/
  (a = 237 /\ 128 <= b <= 159) \/ (238 <= a <= 239 /\ 128 <= b <= 191).
Lemma dec3 a b c t : lead3 (bv a) (bv b) -> 128 <= bv c <= 191 ->
  runes (a :: b :: c :: t) = ((bv a - 224) * 4096 + (bv b - 128) * 64 + (bv c - 128)) :: runes t.
Proof.
  intros H1 H2. 
  assert (E : (bv a <? 128) = false /\ utf8_2 a b = false /\ utf8_3 a b c = true).
  { unfold utf8_2, utf8_3, between, cont. destruct H1 as [H1|[H1|[H1|H1]]]; destruct H1; zb; auto. }
  destruct E as (E1 & E2 & E3). cbn [runes]. rewrite E1, E2, E3. reflexivity.
Qed.
Definition lead4 (a b : Z) : Prop :=
  (a = 240 /\ 144 <= b <= 191) \/ (241 <= a <= 243 /\ 128 <= b <= 191) \/ (a = 244 /\ 128 <= b <= 143).
Lemma dec4 a b c d t : lead4 (bv a) (bv b) -> 128 <= bv c <= 191 -> 128 <= bv d <= 191 ->
  runes (a :: b :: c :: d :: t) =
    ((bv a - 240) * 262144 + (bv b - 128) * 4096 + (bv c - 128) * 64 + (bv d - 128)) :: runes t.
Proof.
  intros H1 H2 H3.
  assert (E : (bv a <? 128) = false /\ utf8_2 a b = false /\ utf8_3 a b c = false /\ utf8_4 a b c d = true).
  { unfold utf8_2, utf8_3, utf8_4, between, cont. destruct H1 as [H1|[H1|H1]]; destruct H1; zb; auto. }
  destruct E as (E1 & E2 & E3 & E4). cbn [runes]. rewrite E1, E2, E3, E4. reflexivity.
Qed.
Lemma divmod64 a b : 0 <= b < 64 -> (a * 64 + b) / 64 = a /\ (a * 64 + b) mod 64 = b.
Proof. intros H. split; [rewrite Z.div_add_l, Z.div_small; lia|rewrite Z.add_comm, Z_mod_plus_full; apply Z.mod_small; lia]. Qed.
Lemma chr_eq z b : z = bv b -> chr z = b.
Proof. intros ->. apply chr_bv. Qed.
Lemma scalar_iff r : scalar r = true <-> (0 <= r < 55296 \/ 57343 < r < 1114112).
Proof.
  unfold scalar. rewrite !andb_true_iff, negb_true_iff, andb_false_iff, Z.leb_le, Z.ltb_lt, !Z.leb_gt. lia.
Qed.
(** encoding, given the digits in base 64 *)
Lemma enc1 r : 0 <= r < 128 -> encodeRune r = [chr r].
Proof. intros H. unfold encodeRune. rewrite (proj2 (scalar_iff r)) by lia. zb. reflexivity. Qed.
Lemma enc2 q m : 2 <= q < 32 -> 0 <= m < 64 -> encodeRune (q * 64 + m) = [chr (192 + q); chr (128 + m)].
Proof.
  intros H1 H2. unfold encodeRune. rewrite (proj2 (scalar_iff _)) by lia.
  destruct (divmod64 q m H2) as [-> ->]. zb. reflexivity.
Qed.
Lemma enc3 q m1 m0 : 0 <= m1 < 64 -> 0 <= m0 < 64 -> lead3 (224 + q) (128 + m1) ->
  encodeRune (q * 4096 + m1 * 64 + m0) = [chr (224 + q); chr (128 + m1); chr (128 + m0)].
Proof.
  intros H1 H0 L. assert (B : 2048 <= q * 4096 + m1 * 64 + m0 < 65536) by (unfold lead3 in L; lia).
  unfold encodeRune. rewrite (proj2 (scalar_iff _)) by (unfold lead3 in L; lia). clear L.
  change 4096 with (64 * 64). rewrite <- !Z.div_div by lia.
  replace (q * (64 * 64) + m1 * 64 + m0) with ((q * 64 + m1) * 64 + m0) in * by ring.
  destruct (divmod64 (q * 64 + m1) m0 H0) as [-> ->]. destruct (divmod64 q m1 H1) as [-> ->]. zb. reflexivity.
Qed.
Lemma enc4 q m2 m1 m0 : 0 <= m2 < 64 -> 0 <= m1 < 64 -> 0 <= m0 < 64 -> lead4 (240 + q) (128 + m2) ->
  encodeRune (q * 262144 + m2 * 4096 + m1 * 64 + m0) = [chr (240 + q); chr (128 + m2); chr (128 + m1); chr (128 + m0)].
Proof.
  intros H2 H1 H0 L. assert (B : 65536 <= q * 262144 + m2 * 4096 + m1 * 64 + m0 < 1114112) by (unfold lead4 in L; lia).
  unfold encodeRune. rewrite (proj2 (scalar_iff _)) by lia. clear L.
  change 262144 with (64 * 64 * 64). change 4096 with (64 * 64). rewrite <- !Z.div_div by lia.
  replace (q * (64 * 64 * 64) + m2 * (64 * 64) + m1 * 64 + m0) with (((q * 64 + m2) * 64 + m1) * 64 + m0) in * by ring.
  destruct (divmod64 ((q * 64 + m2) * 64 + m1) m0 H0) as [-> ->]. destruct (divmod64 (q * 64 + m2) m1 H1) as [-> ->].
  destruct (divmod64 q m2 H2) as [-> ->]. zb. reflexivity.
Qed.
(** every scalar value has base-64 digits of one of the four shapes *)
Lemma scalar_shape r : scalar r = true -> (0 <= r < 128) \/
  (exists q m, r = q * 64 + m /\ 2 <= q < 32 /\ 0 <= m < 64) \/
  (exists q m1 m0, r = q * 4096 + m1 * 64 + m0 /\ 0 <= m1 < 64 /\ 0 <= m0 < 64 /\ lead3 (224 + q) (128 + m1)) \/
  (exists q m2 m1 m0, r = q * 262144 + m2 * 4096 + m1 * 64 + m0 /\ 0 <= m2 < 64 /\ 0 <= m1 < 64 /\ 0 <= m0 < 64 /\
     lead4 (240 + q) (128 + m2)).
Proof.
  intros S. apply scalar_iff in S. destruct (Z_lt_ge_dec r 128); [left; lia|]. right.
  pose proof (Z.div_mod r 64 ltac:(lia)) as D0. pose proof (Z.mod_pos_bound r 64 ltac:(lia)) as M0.
  set (q0 := r / 64) in *. set (m0 := r mod 64) in *. clearbody q0 m0.
  destruct (Z_lt_ge_dec r 2048); [left; exists q0, m0; lia|]. right.
  pose proof (Z.div_mod q0 64 ltac:(lia)) as D1. pose proof (Z.mod_pos_bound q0 64 ltac:(lia)) as M1.
  set (q1 := q0 / 64) in *. set (m1 := q0 mod 64) in *. clearbody q1 m1.
  destruct (Z_lt_ge_dec r 65536); [left; exists q1, m1, m0; unfold lead3; lia|]. right.
  pose proof (Z.div_mod q1 64 ltac:(lia)) as D2. pose proof (Z.mod_pos_bound q1 64 ltac:(lia)) as M2.
  set (q2 := q1 / 64) in *. set (m2 := q1 mod 64) in *. clearbody q2 m2.
  exists q2, m2, m1, m0. unfold lead4. lia.
Qed.
Lemma runes_encodeRune r l : scalar r = true -> runes (encodeRune r ++ l) = r :: runes l.
Proof.
  intros S. destruct (scalar_shape r S) as [H|[(q & m & -> & H1 & H2)|[(q & m1 & m0 & -> & H1 & H0 & L)|(q & m2 & m1 & m0 & -> & H2 & H1 & H0 & L)]]].
  - rewrite enc1 by lia. cbn [app]. rewrite dec1 by (rewrite bv_chr; lia). now rewrite bv_chr by lia.
  - rewrite enc2 by lia. cbn [app]. rewrite dec2 by (rewrite bv_chr; lia). rewrite !bv_chr by lia. f_equal. lia.
  - rewrite enc3 by assumption. assert (Q : 0 <= q < 16) by (unfold lead3 in L; lia). cbn [app].
    rewrite dec3 by (rewrite ?bv_chr by lia; auto; lia). rewrite !bv_chr by lia. f_equal. lia.
  - rewrite enc4 by assumption. assert (Q : 0 <= q < 5) by (unfold lead4 in L; lia). cbn [app].
    rewrite dec4 by (rewrite ?bv_chr by lia; auto; lia). rewrite !bv_chr by lia. f_equal. lia.
Qed.
Lemma runes_encode rs : forallb scalar rs = true -> runes (encode rs) = rs.
Proof.
  induction rs as [|r rs IH]; intros H; [reflexivity|]. simpl in H. apply andb_prop in H. destruct H as [H1 H2].
  change (encode (r :: rs)) with (encodeRune r ++ encode rs). rewrite runes_encodeRune by exact H1. now rewrite IH.
Qed.

Lemma utf8_char_shape c : utf8_char c ->
  (exists a, c = [a] /\ bv a < 128) \/
  (exists a b, c = [a; b] /\ 194 <= bv a <= 223 /\ 128 <= bv b <= 191) \/
  (exists a b d, c = [a; b; d] /\ lead3 (bv a) (bv b) /\ 128 <= bv d <= 191) \/
  (exists a b d e, c = [a; b; d; e] /\ lead4 (bv a) (bv b) /\ 128 <= bv d <= 191 /\ 128 <= bv e <= 191).
Proof.
  unfold lead3, lead4. intros H. destruct H; unfold tail in *; repeat match goal with
    | H : byte_in _ _ _ |- _ => apply byte_in_bv in H; simpl Z.of_N in H end.
  - left. exists a. split; [reflexivity|lia].
  - right. left. exists a, b. split; [reflexivity|lia].
  - right. right. left. exists a, b, c. split; [reflexivity|lia].
  - right. right. left. exists a, b, c. split; [reflexivity|lia].
  - right. right. left. exists a, b, c. split; [reflexivity|lia].
  - right. right. left. exists a, b, c. split; [reflexivity|lia].
  - right. right. right. exists a, b, c, d. split; [reflexivity|lia].
  - right. right. right. exists a, b, c, d. split; [reflexivity|lia].
  - right. right. right. exists a, b, c, d. split; [reflexivity|lia].
Qed.
Lemma utf8_char_rune c : utf8_char c -> exists r, (forall t, runes (c ++ t) = r :: runes t) /\ encodeRune r = c /\
  ((r < 128 /\ exists a, c = [a] /\ r = bv a) \/
   (128 <= r /\ (1 < length c)%nat /\ Forall (fun b => 128 <= bv b) c)).
Proof.
  intros H. destruct (utf8_char_shape c H) as [(a & -> & H1)|[(a & b & -> & H1 & H2)|[(a & b & d & -> & L & H2)|(a & b & d & e & -> & L & H2 & H3)]]].
  - exists (bv a). split; [intros t; apply dec1; exact H1|]. pose proof (bv_range a). rewrite enc1 by lia. rewrite chr_bv.
    split; [reflexivity|]. left. split; [lia|]. exists a. auto.
  - eexists. split; [intros t; cbn [app]; apply dec2; assumption|]. rewrite enc2 by lia.
    split; [repeat f_equal; apply chr_eq; lia|]. right. split; [lia|]. split; [simpl; lia|repeat constructor; lia].
  - eexists. split; [intros t; cbn [app]; apply dec3; assumption|].
    assert (B : 224 <= bv a <= 239 /\ 128 <= bv b <= 191) by (unfold lead3 in L; lia).
    rewrite enc3 by (first [lia | replace (224 + (bv a - 224)) with (bv a) by lia; replace (128 + (bv b - 128)) with (bv b) by lia; exact L]).
    split; [repeat f_equal; apply chr_eq; lia|]. right. split; [unfold lead3 in L; lia|]. split; [simpl; lia|repeat constructor; lia].
  - eexists. split; [intros t; cbn [app]; apply dec4; assumption|].
    assert (B : 240 <= bv a <= 244 /\ 128 <= bv b <= 191) by (unfold lead4 in L; lia).
    rewrite enc4 by (first [lia | replace (240 + (bv a - 240)) with (bv a) by lia; replace (128 + (bv b - 128)) with (bv b) by lia; exact L]).
    split; [repeat f_equal; apply chr_eq; lia|]. right. split; [unfold lead4 in L; lia|]. split; [simpl; lia|repeat constructor; lia].
Qed.
Lemma utf8_app n m s t : utf8 n s -> utf8 m t -> utf8 (n + m) (s ++ t).
Proof. intros H Ht. induction H; [exact Ht|]. rewrite <- app_assoc. simpl. constructor; assumption. Qed.
Lemma runes_app n s t : utf8 n s -> runes (s ++ t) = runes s ++ runes t.
Proof.
  intros H. revert t. induction H as [|n c s Hc Hs IH]; intros t; [reflexivity|].
  destruct (utf8_char_rune c Hc) as (r & E & _). rewrite <- app_assoc, !E, IH. reflexivity.
Qed.
Lemma utf8_roundtrip n s : utf8 n s -> encode (runes s) = s /\ length (runes s) = n.
Proof.
  induction 1 as [|n c s Hc Hs (IH1 & IH2)]; [auto|].
  destruct (utf8_char_rune c Hc) as (r & E & E2 & _). rewrite E. simpl. rewrite E2, IH1, IH2. auto.
Qed.
Lemma encode_app a b : encode (a ++ b) = encode a ++ encode b.
Proof. apply flat_map_app. Qed.
Lemma utf8_ascii s : ascii_text s -> utf8 (length s) s.
Proof. induction 1 as [|a s Ha Hs IH]; [constructor|]. simpl. change (a :: s) with ([a] ++ s). constructor; [constructor; exact Ha|exact IH]. Qed.
(** a well-formed text is ASCII exactly when it has as many characters as bytes *)
Lemma utf8_ascii_iff n s : utf8 n s -> (n <= length s)%nat /\ (ascii_text s <-> n = length s).
Proof.
  intros H. split.
  - induction H as [|n c s Hc Hs IH]; [simpl; lia|]. rewrite app_length.
    destruct (utf8_char_rune c Hc) as (r & _ & _ & [(_ & a & -> & _)|(_ & L & _)]); simpl; lia.
  - assert (L : (n <= length s)%nat).
    { clear -H. induction H as [|n c s Hc Hs IH]; [simpl; lia|]. rewrite app_length.
      destruct (utf8_char_rune c Hc) as (r & _ & _ & [(_ & a & -> & _)|(_ & L & _)]); simpl; lia. }
    split.
    + intros A. destruct (utf8_roundtrip _ _ (utf8_ascii s A)) as (_ & E1). destruct (utf8_roundtrip _ _ H) as (_ & E2). lia.
    + intros E. induction H as [|n c s Hc Hs IH]; [constructor|].
      assert (L' : (n <= length s)%nat).
      { clear -Hs. induction Hs as [|n c s Hc Hs IH]; [simpl; lia|]. rewrite app_length.
        destruct (utf8_char_rune c Hc) as (r & _ & _ & [(_ & a & -> & _)|(_ & L & _)]); simpl; lia. }
      rewrite app_length in *.
      destruct (utf8_char_rune c Hc) as (r & _ & _ & [(R & a & -> & Er)|(_ & Lc & _)]); [|lia].
      simpl in *. constructor; [|apply IH; lia]. apply byte_in_bv. pose proof (bv_range a). simpl. lia.
Qed.

(** ** Splitting at top-level commas *)
Definition depth (d r : Z) : Z := if r =? 40 then d + 1 else if r =? 41 then d - 1 else d.
(* Some depth after the text, None if it has a comma at depth 0 *)
Fixpoint rscan (d : Z) (l : list Z) : option Z :=
  match l with
  | [] => Some d
  | r :: t => if (depth d r =? 0) && (r =? 44) then None else rscan (depth d r) t
  end.
Lemma splitStep_depth args d cur r : splitStep (args, d, cur) r =
  if (depth d r =? 0) && (r =? 44) then (args ++ [encode cur], depth d r, []) else (args, depth d r, cur ++ [r]).
Proof.
  unfold splitStep, depth. destruct (Z.eqb_spec r 40) as [->|H]; [simpl; reflexivity|].
  destruct (Z.eqb_spec r 41) as [->|H']; reflexivity.
Qed.
Lemma rscan_fold l : forall args d cur d', rscan d l = Some d' ->
  fold_left splitStep l (args, d, cur) = (args, d', cur ++ l).
Proof.
  induction l as [|r l IH]; intros args d cur d' H; simpl in H.
  - injection H as ->. simpl. now rewrite app_nil_r.
  - cbn [fold_left]. rewrite splitStep_depth. destruct ((depth d r =? 0) && (r =? 44)) eqn:E; [discriminate|].
    rewrite (IH _ _ _ _ H), <- app_assoc. reflexivity.
Qed.
Lemma rscan_app l1 : forall d l2, rscan d (l1 ++ l2) = match rscan d l1 with Some d' => rscan d' l2 | None => None end.
Proof. induction l1 as [|r l1 IH]; intros d l2; simpl; [reflexivity|]. destruct (_ && _); [reflexivity|apply IH]. Qed.
(* the same on bytes *)
Definition bscan (d : Z) (l : bytes) : option Z := rscan d (map bv l).
Lemma rscan_high l : forall d, Forall (fun r => 128 <= r) l -> rscan d l = Some d.
Proof.
  induction l as [|r l IH]; intros d H; [reflexivity|]. inversion H; subst. simpl. unfold depth. zb.
  rewrite andb_false_r. apply IH. assumption.
Qed.
Lemma utf8_scan n s : utf8 n s -> forall d, rscan d (runes s) = bscan d s.
Proof.
  induction 1 as [|n c s Hc Hs IH]; intros d; [reflexivity|].
  destruct (utf8_char_rune c Hc) as (r & E & _ & [(R & a & -> & ->)|(R & _ & F)]).
  - rewrite E. unfold bscan. simpl. destruct (_ && _); [reflexivity|]. apply IH.
  - rewrite E. unfold bscan. rewrite map_app, rscan_app, (rscan_high (map bv c)) by (apply Forall_map; exact F).
    change (r :: runes s) with ([r] ++ runes s). rewrite rscan_app, (rscan_high [r]) by (repeat constructor; exact R).
    apply IH.
Qed.
Lemma bscan_app l1 d l2 : bscan d (l1 ++ l2) = match bscan d l1 with Some d' => bscan d' l2 | None => None end.
Proof. unfold bscan. rewrite map_app. apply rscan_app. Qed.
Lemma bv_inj a b : bv a = bv b -> a = b.
Proof. intros H. rewrite <- (chr_bv a), <- (chr_bv b), H. reflexivity. Qed.
Lemma bscan_char d c : c <> "("%char -> c <> ")"%char -> (d <> 0 \/ c <> ","%char) -> bscan d [c] = Some d.
Proof.
  intros H1 H2 H3. unfold bscan, depth. simpl. unfold depth.
  rewrite (eqb_f (bv c) 40) by (intros E; apply H1, bv_inj; rewrite E; reflexivity).
  rewrite (eqb_f (bv c) 41) by (intros E; apply H2, bv_inj; rewrite E; reflexivity).
  destruct (Z.eqb_spec d 0) as [->|N]; [|reflexivity].
  rewrite (eqb_f (bv c) 44); [reflexivity|]. intros E. destruct H3 as [H3|H3]; [lia|]. apply H3, bv_inj. rewrite E. reflexivity.
Qed.
Lemma bscan_open d : bscan d ["("%char] = Some (d + 1).
Proof. unfold bscan. simpl. unfold depth. change (bv "(") with 40. simpl. rewrite andb_false_r. reflexivity. Qed.
Lemma bscan_close d : bscan d [")"%char] = Some (d - 1).
Proof. unfold bscan. simpl. unfold depth. change (bv ")") with 41. simpl. rewrite andb_false_r. reflexivity. Qed.
Lemma bscan_paren d w : bscan (d + 1) w = Some (d + 1) -> bscan d (parens w) = Some d.
Proof.
  intros H. unfold parens. change ("("%char :: w ++ [")"%char]) with (["("%char] ++ w ++ [")"%char]).
  rewrite !bscan_app, bscan_open, bscan_app, H, bscan_close. f_equal. lia.
Qed.
Lemma nested_scan w : nested w -> forall d, 0 < d -> bscan d w = Some d.
Proof.
  induction 1 as [|c H1 H2|w Hw IH|u w Hu IHu Hw IHw]; intros d Hd.
  - reflexivity.
  - apply bscan_char; auto. left. lia.
  - apply bscan_paren, IH. lia.
  - rewrite bscan_app, IHu by exact Hd. apply IHw. exact Hd.
Qed.
Lemma one_arg_scan a : one_arg a -> bscan 0 a = Some 0.
Proof.
  induction 1 as [|c H1 H2|w Hw|u w Hu IHu Hw IHw].
  - reflexivity.
  - apply bscan_char; auto.
  - apply bscan_paren, nested_scan; [exact Hw|lia].
  - rewrite bscan_app, IHu. exact IHw.
Qed.
Definition arg_ok (a : bytes) : Prop := one_arg a /\ exists n, utf8 n a.
Lemma comma_ascii t : runes (","%char :: t) = 44 :: runes t.
Proof. apply dec1. reflexivity. Qed.
(* folding over a comma-separated list *)
Lemma fold_join args : forall done last, Forall arg_ok args -> arg_ok last ->
  forall tl, fold_left splitStep (runes (join (args ++ [last]) ++ tl)) (done, 0, []) =
    fold_left splitStep (runes tl) (done ++ args, 0, runes last).
Proof.
  induction args as [|a args IH]; intros done last Ha Hl tl.
  - simpl join. destruct Hl as (O & n & U). rewrite (runes_app n) by exact U. rewrite fold_left_app.
    rewrite (rscan_fold (runes last) done 0 [] 0) by (rewrite (utf8_scan n) by exact U; apply one_arg_scan, O).
    rewrite app_nil_r. reflexivity.
  - inversion Ha as [|? ? (O & n & U) Ha']; subst.
    assert (E : join ((a :: args) ++ [last]) = a ++ ","%char :: join (args ++ [last])).
    { simpl. destruct (args ++ [last]) eqn:E; [destruct args; discriminate|reflexivity]. }
    rewrite E, <- app_assoc. cbn [app]. rewrite (runes_app n) by exact U. rewrite fold_left_app.
    rewrite (rscan_fold (runes a) done 0 [] 0) by (rewrite (utf8_scan n) by exact U; apply one_arg_scan, O).
    rewrite comma_ascii. cbn [fold_left app]. rewrite splitStep_depth. change (depth 0 44) with 0.
    change ((0 =? 0) && (44 =? 44)) with true. cbv iota.
    rewrite (IH _ _ Ha' Hl tl). destruct (utf8_roundtrip n a U) as (-> & _). rewrite <- app_assoc. reflexivity.
Qed.
Lemma getArguments_value args last n : Forall arg_ok args -> one_arg last -> utf8 n last ->
  getArguments (join (args ++ [last]) ++ [")"; ";"]%char) = Ok (args ++ [firstn n last]).
Proof.
  intros Ha Hl U. unfold getArguments. rewrite fold_join by (auto; split; eauto).
  assert (E : runes [")"; ";"]%char = [41; 59]) by reflexivity. rewrite E. cbn [fold_left].
  rewrite splitStep_depth. change (depth 0 41) with (-1). cbn [Z.eqb andb]. rewrite splitStep_depth.
  change (depth (-1) 59) with (-1). cbn [Z.eqb andb]. rewrite <- app_assoc. cbn [app].
  destruct (utf8_roundtrip n last U) as (R & L). rewrite app_length, L. simpl length.
  rewrite ltb_f by lia. replace (n + 2 - 2)%nat with n by lia. rewrite encode_app, R.
  do 3 f_equal. destruct (utf8_ascii_iff n last U) as (Le & _).
  rewrite firstn_app. replace (n - length last)%nat with 0%nat by lia. simpl. apply app_nil_r.
Qed.
Lemma getArray_value es last : Forall arg_ok es -> arg_ok last ->
  getArray (parens (join (es ++ [last]))) = Ok (es ++ [last]).
Proof.
  intros He Hl. unfold getArray, parens. cbn [length]. rewrite app_length. cbn [length].
  rewrite ltb_f by lia. cbn [skipn].
  replace (S (length (join (es ++ [last])) + 1) - 2)%nat with (length (join (es ++ [last]))) by lia.
  rewrite firstn_app, Nat.sub_diag, firstn_all. cbn [firstn].
  rewrite (fold_join es [] last He Hl []). cbn [runes fold_left app].
  destruct Hl as (_ & n & U). destruct (utf8_roundtrip n last U) as (-> & _). reflexivity.
Qed.

(** ** Lexing *)
Lemma splitN2_found sep a t : ~ In sep a -> splitN2 sep (a ++ sep :: t) = [a; t].
Proof.
  induction a as [|b a IH]; intros H; simpl.
  - rewrite Ascii.eqb_refl. reflexivity.
  - destruct (Ascii.eqb_spec b sep) as [->|N]; [exfalso; apply H; left; reflexivity|].
    rewrite IH by (intros Hi; apply H; right; exact Hi). reflexivity.
Qed.
Lemma splitN2_none sep a : ~ In sep a -> splitN2 sep a = [a].
Proof.
  induction a as [|b a IH]; intros H; simpl; [reflexivity|].
  destruct (Ascii.eqb_spec b sep) as [->|N]; [exfalso; apply H; left; reflexivity|].
  rewrite IH by (intros Hi; apply H; right; exact Hi). reflexivity.
Qed.
Lemma contains_iff c s : contains c s = true <-> In c s.
Proof.
  unfold contains. rewrite existsb_exists. split.
  - intros (x & Hx & E). apply Ascii.eqb_eq in E. subst. exact Hx.
  - intros H. exists c. split; [exact H|apply Ascii.eqb_refl].
Qed.
Lemma contains_false c s : contains c s = false <-> ~ In c s.
Proof. rewrite <- contains_iff. destruct (contains c s); split; congruence. Qed.
Lemma zget0 {T} (x : T) l : zget (x :: l) 0 = Ok x. Proof. reflexivity. Qed.
Lemma zget1 {T} (x y : T) l : zget (x :: y :: l) 1 = Ok y. Proof. reflexivity. Qed.
Lemma zget1_none {T} (x : T) : zget [x] 1 = Panic. Proof. reflexivity. Qed.
(* add *)
Lemma add_no_eq tab t : ~ In "="%char t -> add tab t = Panic.
Proof. intros H. unfold add. rewrite splitN2_none by exact H. reflexivity. Qed.
Lemma add_no_paren tab a t : ~ In "="%char a -> ~ In "("%char t -> add tab (a ++ "="%char :: t) = Panic.
Proof.
  intros Ha Ht. unfold add. rewrite splitN2_found by exact Ha. rewrite zget0, zget1. cbn [rbind]. unfold tokenize.
  rewrite splitN2_none by exact Ht. reflexivity.
Qed.
Lemma getArguments_no_div t : getArguments t <> Diverge.
Proof. unfold getArguments. destruct (fold_left _ _ _) as [[a d] c]. destruct (_ <? _); discriminate. Qed.
Lemma splitN2_shape sep t : (exists a, splitN2 sep t = [a]) \/ (exists a b, splitN2 sep t = [a; b]).
Proof.
  induction t as [|c t IH]; simpl; [left; eauto|]. destruct (Ascii.eqb c sep); [right; eauto|].
  destruct IH as [(a & ->)|(a & b & ->)]; eauto.
Qed.
Lemma tokenize_no_div t : tokenize t <> Diverge.
Proof.
  unfold tokenize. destruct (splitN2_shape "(" t) as [(a & ->)|(a & b & ->)]; [discriminate|]. rewrite zget0, zget1. cbn [rbind].
  pose proof (getArguments_no_div b). destruct (getArguments b); cbn; congruence.
Qed.
Lemma add_no_div tab t : add tab t <> Diverge.
Proof.
  unfold add. destruct (splitN2_shape "=" t) as [(a & ->)|(a & b & ->)]; [discriminate|]. rewrite zget0, zget1. cbn [rbind].
  pose proof (tokenize_no_div b). destruct (tokenize b); cbn; congruence.
Qed.

(* white space *)
Lemma strip_app n s t : utf8 n s -> stripWhiteSpaces (s ++ t) = stripWhiteSpaces s ++ stripWhiteSpaces t.
Proof. intros U. unfold stripWhiteSpaces. rewrite (runes_app n) by exact U. apply flat_map_app. Qed.
Lemma blank_ascii s : blank_text s -> ascii_text s.
Proof. intros H. eapply Forall_impl; [|exact H]. intros a [->| ->]; apply byte_in_bv; simpl; unfold bv; simpl; lia. Qed.
Lemma keyword_bv c : keyword_char c -> 48 <= bv c <= 57 \/ 65 <= bv c <= 90 \/ bv c = 95 \/ 97 <= bv c <= 122.
Proof. intros [H|[H|[->|H]]]; try (apply byte_in_bv in H; simpl Z.of_N in H); [lia|lia|right; right; left; reflexivity|lia]. Qed.
Lemma keyword_ascii s : keyword s -> ascii_text s.
Proof. intros H. eapply Forall_impl; [|exact H]. intros a Ha. apply keyword_bv in Ha. apply byte_in_bv. simpl. lia. Qed.
Lemma strip_blank s : blank_text s -> stripWhiteSpaces s = [].
Proof.
  induction 1 as [|c s Hc Hs IH]; [reflexivity|]. unfold stripWhiteSpaces.
  destruct Hc as [->| ->]; rewrite dec1 by reflexivity; exact IH.
Qed.
Lemma isSpace_keyword c : keyword_char c -> isSpace (bv c) = false.
Proof. intros H. apply keyword_bv in H. unfold isSpace. destruct H as [H|[H|[H|H]]]; zb; reflexivity. Qed.
Lemma strip_keyword s : keyword s -> stripWhiteSpaces s = s.
Proof.
  induction 1 as [|c s Hc Hs IH]; [reflexivity|]. unfold stripWhiteSpaces.
  pose proof (keyword_bv c Hc) as K. rewrite dec1 by lia. cbn [flat_map]. rewrite isSpace_keyword by exact Hc.
  cbn [negb]. rewrite enc1 by lia. rewrite chr_bv. cbn [app]. f_equal. exact IH.
Qed.
Lemma strip_type sp1 ty sp2 : blank_text sp1 -> keyword ty -> blank_text sp2 -> stripWhiteSpaces (sp1 ++ ty ++ sp2) = ty.
Proof.
  intros H1 Ht H2. rewrite (strip_app (length sp1)) by (apply utf8_ascii, blank_ascii, H1).
  rewrite (strip_app (length ty)) by (apply utf8_ascii, keyword_ascii, Ht).
  rewrite (strip_blank sp1), (strip_blank sp2), strip_keyword by assumption. apply app_nil_r.
Qed.

(* a printed entity is stored as it is *)
Definition entity_def (e : entity) : Definition_ := mkDef (eType e) (eArgs e).
Definition add_entity (tab : SymbolTable) (e : entity) : SymbolTable := mset tab (str (eId e)) (entity_def e).
Lemma no_paren_type sp1 ty sp2 : blank_text sp1 -> keyword ty -> blank_text sp2 -> ~ In "("%char (sp1 ++ ty ++ sp2).
Proof.
  intros H1 Ht H2 H. rewrite !in_app_iff in H. unfold blank_text, keyword in *. rewrite Forall_forall in *.
  destruct H as [H|[H|H]].
  - apply H1 in H. destruct H; discriminate.
  - apply Ht, keyword_bv in H. change (bv "(") with 40 in H. lia.
  - apply H2 in H. destruct H; discriminate.
Qed.
Lemma last_split (args : list bytes) : args <> [] -> exists a l, args = a ++ [l] /\ last args [] = l.
Proof.
  intros H. destruct (exists_last H) as (a & l & ->). exists a, l. split; [reflexivity|]. apply last_last.
Qed.
Lemma getArguments_print args : args <> [] -> Forall arg_ok args -> ascii_text (last args []) ->
  getArguments (join args ++ [")"; ";"]%char) = Ok args.
Proof.
  intros N F L. destruct (last_split args N) as (a & l & -> & E). rewrite E in L. clear E.
  apply Forall_app in F. destruct F as (Fa & Fl). inversion Fl as [|? ? (O & _) _]; subst.
  rewrite (getArguments_value a l (length l) Fa O (utf8_ascii l L)). rewrite firstn_all. reflexivity.
Qed.
Lemma add_print tab sp1 sp2 e : wf_entity e -> blank_text sp1 -> blank_text sp2 ->
  add tab (print_entity sp1 sp2 e) = Ok (add_entity tab e).
Proof.
  intros (Hid & Hty & Hne & Hargs & Hlast) H1 H2. unfold add, print_entity.
  rewrite splitN2_found by exact Hid. rewrite zget0, zget1. cbn [rbind]. unfold tokenize.
  replace (sp1 ++ eType e ++ sp2 ++ "("%char :: join (eArgs e) ++ [")"%char; ";"%char])
    with ((sp1 ++ eType e ++ sp2) ++ "("%char :: join (eArgs e) ++ [")"%char; ";"%char])
    by (rewrite <- !app_assoc; reflexivity).
  rewrite splitN2_found by (apply no_paren_type; assumption). rewrite zget0, zget1. cbn [rbind].
  rewrite getArguments_print by assumption. cbn [rbind].
  rewrite strip_type by assumption. reflexivity.
Qed.

(** *** Physical lines *)
Lemma cutLF_found p : forall n q, ~ In LF p -> (length p < n)%nat -> cutLF n (p ++ LF :: q) = Some (p, q).
Proof.
  induction p as [|b p IH]; intros n q H L.
  - destruct n; [simpl in L; lia|]. reflexivity.
  - destruct n as [|n]; [simpl in L; lia|]. cbn [app cutLF].
    destruct (Ascii.eqb_spec b LF) as [->|N]; [exfalso; apply H; left; reflexivity|].
    rewrite IH; [reflexivity|intros Hi; apply H; right; exact Hi|simpl in L; lia].
Qed.
Lemma cutLF_none n : forall l, ~ In LF (firstn n l) -> cutLF n l = None.
Proof.
  induction n as [|n IH]; intros l H; [reflexivity|]. destruct l as [|b l]; [reflexivity|]. cbn [cutLF].
  cbn [firstn] in H. destruct (Ascii.eqb_spec b LF) as [->|N]; [exfalso; apply H; left; reflexivity|].
  rewrite IH; [reflexivity|]. intros Hi. apply H. right. exact Hi.
Qed.
Lemma dropCR_keep l : (forall p, l <> p ++ [CR]) -> dropCR l = l.
Proof.
  intros H. unfold dropCR. destruct (rev l) as [|b t] eqn:E; [reflexivity|].
  destruct (Ascii.eqb_spec b CR) as [->|N]; [|reflexivity]. exfalso. apply (H (rev t)).
  rewrite <- (rev_involutive l), E. reflexivity.
Qed.
Lemma dropCR_drop l : dropCR (l ++ [CR]) = l.
Proof. unfold dropCR. rewrite rev_app_distr. cbn [rev app]. rewrite Ascii.eqb_refl. apply rev_involutive. Qed.
Lemma bufSize_Z : Z.of_nat bufSize = 4096.
Proof. reflexivity. Qed.
Global Opaque bufSize.
Lemma readLine_line l e f : line_ok l -> eol_ok e -> readLine (l ++ e ++ f) = Some (l, f).
Proof.
  intros (H1 & H2 & H3) He. unfold readLine.
  destruct (l ++ e ++ f) as [|x y] eqn:E; [destruct l; destruct He; subst; discriminate|]. rewrite <- E. clear x y E.
  destruct He as [-> | ->].
  - change (["010"%char] ++ f) with (LF :: f). rewrite cutLF_found; [|exact H1|pose proof bufSize_Z; lia].
    rewrite dropCR_keep by exact H2. reflexivity.
  - replace (l ++ ["013"%char; "010"%char] ++ f) with ((l ++ [CR]) ++ LF :: f) by (rewrite <- app_assoc; reflexivity).
    rewrite cutLF_found.
    + rewrite dropCR_drop. reflexivity.
    + rewrite in_app_iff. intros [Hi|[Hi|[]]]; [exact (H1 Hi)|discriminate].
    + rewrite app_length. cbn [length]. pose proof bufSize_Z. lia.
Qed.
Lemma cutLF_length n : forall l p q, cutLF n l = Some (p, q) -> (length q < length l)%nat.
Proof.
  induction n as [|n IH]; intros l p q H; [discriminate|]. destruct l as [|b l]; [discriminate|]. cbn [cutLF] in H.
  destruct (Ascii.eqb b LF); [injection H as <- <-; simpl; lia|].
  destruct (cutLF n l) as [[p' q']|] eqn:E; [|discriminate]. injection H as <- <-. specialize (IH _ _ _ E). simpl. lia.
Qed.
Lemma readLine_length l b rest : readLine l = Some (b, rest) -> (length rest < length l)%nat.
Proof.
  unfold readLine. destruct l as [|x l]; [discriminate|]. set (L := x :: l).
  destruct (cutLF bufSize L) as [[p q]|] eqn:E.
  - intros [= <- <-]. apply (cutLF_length _ _ _ _ E).
  - destruct (Nat.leb_spec bufSize (length L)) as [H|H].
    + pose proof bufSize_Z. destruct (endsCR _); intros [= <- <-]; rewrite skipn_length; lia.
    + intros [= <- <-]. simpl. lia.
Qed.

(** *** The loop over lines *)
Fixpoint lexLs (ls : list bytes) (txt : bytes) (tab : SymbolTable) : res SymbolTable :=
  match ls with
  | [] => add tab txt
  | b :: ls' =>
    if (Z.of_nat (length b) =? 0) then lexLs ls' txt tab
    else if contains "=" b then
      rbind (if 0 <? Z.of_nat (length txt) then add tab txt else Ok tab) (fun tab => lexLs ls' b tab)
    else lexLs ls' (txt ++ b) tab
  end.
Lemma lexLoop_lines ls f : lines_of ls f -> forall fuel txt tab, (length f < fuel)%nat ->
  lexLoop fuel f txt tab = lexLs ls txt tab.
Proof.
  induction 1 as [|l e ls f Hl He Hf IH]; intros fuel txt tab Hfuel.
  - destruct fuel; [lia|]. reflexivity.
  - destruct fuel as [|fuel]; [lia|]. cbn [lexLoop lexLs]. rewrite readLine_line by assumption.
    assert (L : (length f < fuel)%nat).
    { rewrite !app_length in Hfuel. destruct He; subst e; cbn [length] in Hfuel; lia. }
    destruct (_ =? 0); [apply IH; exact L|]. destruct (contains "=" l); [|apply IH; exact L].
    destruct (if 0 <? Z.of_nat (length txt) then add tab txt else Ok tab); cbn [rbind]; [apply IH; exact L|reflexivity|reflexivity].
Qed.
Lemma lexLs_rest rest : Forall (fun l => ~ In "="%char l) rest -> forall ls txt tab,
  lexLs (rest ++ ls) txt tab = lexLs ls (txt ++ concat rest) tab.
Proof.
  induction 1 as [|l rest Hl Hr IH]; intros ls txt tab; cbn [app lexLs concat]; [now rewrite app_nil_r|].
  destruct (Z.eqb_spec (Z.of_nat (length l)) 0) as [E|E].
  - destruct l; [|simpl in E; lia]. apply IH.
  - rewrite (proj2 (contains_false _ _) Hl). rewrite IH, <- app_assoc. reflexivity.
Qed.
Lemma lexLs_first first ls txt tab : In "="%char first -> lexLs (first :: ls) txt tab =
  rbind (if 0 <? Z.of_nat (length txt) then add tab txt else Ok tab) (fun tab => lexLs ls first tab).
Proof.
  intros H. cbn [lexLs]. rewrite (proj2 (contains_iff _ _) H).
  destruct first; [destruct H|]. reflexivity.
Qed.
Lemma print_nonempty sp1 sp2 e : 0 < Z.of_nat (length (print_entity sp1 sp2 e)).
Proof. unfold print_entity. rewrite app_length. cbn [length]. lia. Qed.
Lemma lexLs_entities es lss : Forall2 entity_lines es lss -> Forall wf_entity es ->
  forall e sp1 sp2 tab, wf_entity e -> blank_text sp1 -> blank_text sp2 ->
  lexLs (concat lss) (print_entity sp1 sp2 e) tab = Ok (fold_left add_entity (e :: es) tab).
Proof.
  induction 1 as [|e1 ls es lss He Hes IH]; intros W e sp1 sp2 tab We H1 H2.
  - cbn [concat lexLs fold_left]. apply add_print; assumption.
  - inversion W as [|? ? W1 W2]; subst. destruct He as (s1 & s2 & first & rest & B1 & B2 & -> & Hin & Hr & E).
    cbn [concat]. rewrite <- app_comm_cons, lexLs_first by exact Hin.
    rewrite ltb_t by apply print_nonempty. rewrite add_print by assumption. cbn [rbind].
    rewrite lexLs_rest by exact Hr. cbn [concat] in E. rewrite E.
    rewrite (IH W2) by assumption. reflexivity.
Qed.
Lemma Lex_entities es f fuel : es <> [] -> step_file es f -> Forall wf_entity es -> (length f < fuel)%nat ->
  Lex fuel f = Ok (fold_left add_entity es []).
Proof.
  intros Hne H W Hfuel. inversion H as [es' lss f' F L]; subst. unfold Lex. rewrite (lexLoop_lines _ _ L) by exact Hfuel.
  destruct F as [|e ls es lss He F]; [congruence|]. inversion W as [|? ? W1 W2]; subst.
  destruct He as (s1 & s2 & first & rest & B1 & B2 & -> & Hin & Hr & E).
  cbn [concat]. rewrite <- app_comm_cons, lexLs_first by exact Hin. cbn [length Z.of_nat Z.ltb Z.compare rbind].
  rewrite lexLs_rest by exact Hr. cbn [concat] in E. rewrite E. apply lexLs_entities; assumption.
Qed.
Lemma str_inj a b : str a = str b -> a = b.
Proof.
  intros H. rewrite <- (list_ascii_of_string_of_list_ascii a), <- (list_ascii_of_string_of_list_ascii b).
  unfold str in H. rewrite H. reflexivity.
Qed.
Lemma fold_add_lookup es : forall tab id, mget (fold_left add_entity es tab) (str id) =
  match lookup_last es id with Some e => Some (entity_def e) | None => mget tab (str id) end.
Proof.
  induction es as [|e es IH]; intros tab id; [reflexivity|]. cbn [fold_left lookup_last]. rewrite IH.
  destruct (lookup_last es id); [reflexivity|]. unfold add_entity.
  destruct (list_eq_dec ascii_dec id (eId e)) as [->|N]; [apply mget_mset_same|].
  apply mget_mset_other. intros E. apply N, str_inj, E.
Qed.
Lemma fold_add_keys es : forall tab, NoDup (map fst tab) -> NoDup (map fst (fold_left add_entity es tab)).
Proof. induction es as [|e es IH]; intros tab H; [exact H|]. cbn [fold_left]. apply IH, mset_keys, H. Qed.

(** *** A first line without an equals sign *)
Lemma lexLoop_no_eq fuel : forall f txt tab, (length f < fuel)%nat -> (0 < length txt)%nat -> ~ In "="%char txt ->
  lexLoop fuel f txt tab = Panic.
Proof.
  induction fuel as [|fuel IH]; intros f txt tab Hf Ht Hn; [lia|]. cbn [lexLoop].
  destruct (readLine f) as [[b rest]|] eqn:E; [|apply add_no_eq; exact Hn].
  apply readLine_length in E.
  destruct (_ =? 0); [apply IH; (lia || assumption)|]. destruct (contains "=" b) eqn:C.
  - rewrite ltb_t by lia. rewrite add_no_eq by exact Hn. reflexivity.
  - apply IH; [lia|rewrite app_length; lia|]. rewrite in_app_iff. apply contains_false in C. tauto.
Qed.

(** *** Long lines *)
Lemma readLine_eq l : l <> [] -> readLine l =
    match cutLF bufSize l with
    | Some (p, q) => Some (dropCR p, q)
    | None =>
      if (bufSize <=? length l)%nat then
        let line := firstn bufSize l in
        if endsCR line then Some (firstn (bufSize - 1) l, skipn (bufSize - 1) l)
        else Some (line, skipn bufSize l)
      else Some (l, [])
    end.
Proof. destruct l; [congruence|reflexivity]. Qed.
Definition no_CR_end (l : bytes) : Prop := forall p, l <> p ++ [CR].
Lemma no_CR_suffix a b : no_CR_end (a ++ b) -> b <> [] -> no_CR_end b.
Proof. intros H N p E. apply (H (a ++ p)). rewrite E, app_assoc. reflexivity. Qed.
Lemma endsCR_iff l : endsCR l = true -> exists p, l = p ++ [CR].
Proof.
  unfold endsCR. destruct (rev l) as [|b t] eqn:E; [discriminate|]. intros H. apply Ascii.eqb_eq in H. subst b.
  exists (rev t). rewrite <- (rev_involutive l), E. reflexivity.
Qed.
Lemma In_firstn {T} (x : T) n l : In x (firstn n l) -> In x l.
Proof. intros H. rewrite <- (firstn_skipn n l). apply in_or_app. left. exact H. Qed.
Lemma In_skipn {T} (x : T) n l : In x (skipn n l) -> In x l.
Proof. intros H. rewrite <- (firstn_skipn n l). apply in_or_app. right. exact H. Qed.
(* one ReadLine on a line without newline inside *)
Lemma readLine_chunk r f : ~ In LF r -> no_CR_end r ->
  (length r < bufSize /\ readLine (r ++ LF :: f) = Some (r, f))%nat \/
  (bufSize <= length r /\ exists b r', r = b ++ r' /\ readLine (r ++ LF :: f) = Some (b, r' ++ LF :: f) /\
     (b = firstn bufSize r \/ b ++ [CR] = firstn bufSize r))%nat.
Proof.
  intros Hn Hc. destruct (Nat.lt_ge_cases (length r) bufSize) as [L|L].
  - left. split; [exact L|]. rewrite readLine_eq by (destruct r; discriminate).
    rewrite cutLF_found by (assumption). rewrite dropCR_keep by exact Hc. reflexivity.
  - right. split; [exact L|].
    assert (F : forall n, (n <= bufSize)%nat -> firstn n (r ++ LF :: f) = firstn n r /\ skipn n (r ++ LF :: f) = skipn n r ++ LF :: f).
    { intros n Hle. rewrite firstn_app, skipn_app. replace (n - length r)%nat with 0%nat by (pose proof bufSize_Z; lia). simpl. now rewrite app_nil_r. }
    rewrite readLine_eq by (destruct r; discriminate).
    rewrite cutLF_none by (rewrite (proj1 (F bufSize (le_n _))); intros Hi; apply Hn, (In_firstn _ _ _ Hi)).
    rewrite (proj2 (Nat.leb_le _ _)) by (rewrite app_length; (pose proof bufSize_Z; lia)).
    rewrite (proj1 (F bufSize (le_n _))), (proj2 (F bufSize (le_n _))).
    cbv zeta. destruct (endsCR (firstn bufSize r)) eqn:C.
    + assert (H5 : (bufSize - 1 <= bufSize)%nat) by (pose proof bufSize_Z; lia).
      rewrite (proj1 (F _ H5)), (proj2 (F _ H5)).
      exists (firstn (bufSize - 1) r), (skipn (bufSize - 1) r). split; [symmetry; apply firstn_skipn|]. split; [reflexivity|]. right.
      apply endsCR_iff in C. destruct C as (p & C). rewrite C. f_equal.
      assert (Lp : length p = (bufSize - 1)%nat).
      { apply (f_equal (@length ascii)) in C. rewrite firstn_length_le, app_length in C by exact L. cbn [length] in C. (pose proof bufSize_Z; lia). }
      apply (f_equal (firstn (bufSize - 1))) in C. rewrite firstn_firstn, Nat.min_l in C by (pose proof bufSize_Z; lia). rewrite C.
      rewrite firstn_app, Lp, Nat.sub_diag, firstn_all2 by (pose proof bufSize_Z; lia). apply app_nil_r.
    + exists (firstn bufSize r), (skipn bufSize r). split; [symmetry; apply firstn_skipn|]. auto.
Qed.
(* the tail of a line, without equals sign, is appended whatever its length *)
Lemma lexLoop_tail m : forall r, (length r <= m)%nat -> ~ In LF r -> ~ In "="%char r -> (r = [] \/ no_CR_end r) ->
  forall fuel txt tab, (length r + 1 < fuel)%nat -> lexLoop fuel (r ++ [LF]) txt tab = add tab (txt ++ r).
Proof.
  induction m as [|m IH]; intros r Hm Hn He Hc fuel txt tab Hf.
  { destruct r; [|simpl in Hm; (pose proof bufSize_Z; lia)]. destruct fuel as [|[|fuel]]; [simpl in Hf; (pose proof bufSize_Z; lia)|simpl in Hf; (pose proof bufSize_Z; lia)|].
    cbn [lexLoop app]. rewrite readLine_eq by discriminate. change [LF] with ([] ++ [LF]). rewrite (cutLF_found [] bufSize []) by (cbn; pose proof bufSize_Z; ((pose proof bufSize_Z; lia) || tauto)).
    cbn. now rewrite app_nil_r. }
  destruct fuel as [|fuel]; [(pose proof bufSize_Z; lia)|].
  assert (Hc' : no_CR_end r) by (destruct Hc as [->|Hc]; [intros p E; destruct p; discriminate|exact Hc]).
  destruct (readLine_chunk r [] Hn Hc') as [(L & E)|(L & b & r' & -> & E & Eb)].
  - cbn [lexLoop]. rewrite E. destruct fuel as [|fuel]; [(pose proof bufSize_Z; lia)|].
    rewrite (proj2 (contains_false _ _) He).
    destruct (Z.eqb_spec (Z.of_nat (length r)) 0) as [Z|Z].
    + destruct r; [|simpl in Z; (pose proof bufSize_Z; lia)]. rewrite app_nil_r. reflexivity.
    + reflexivity.
  - cbn [lexLoop]. rewrite E.
    assert (Lb : (0 < length b)%nat).
    { destruct Eb as [Eb|Eb]; apply (f_equal (@length ascii)) in Eb; rewrite ?app_length, firstn_length_le in Eb by exact L; cbn [length] in Eb; (pose proof bufSize_Z; lia). }
    rewrite (eqb_f (Z.of_nat (length b)) 0) by (pose proof bufSize_Z; lia). rewrite in_app_iff in Hn, He.
    rewrite (proj2 (contains_false _ _)) by tauto.
    rewrite app_length in Hm, Hf. rewrite (IH r'); [now rewrite <- app_assoc|(pose proof bufSize_Z; lia)|tauto|tauto| |(pose proof bufSize_Z; lia)].
    destruct r' as [|x r']; [left; reflexivity|right]. apply (no_CR_suffix b _ Hc'). discriminate.
Qed.
(* a line whose equals signs are all in its first bufSize bytes *)
Lemma lexLoop_line t fuel txt tab : ~ In LF t -> no_CR_end t -> In "="%char (firstn bufSize t) ->
  ~ In "="%char (skipn bufSize t) -> (length t + 2 < fuel)%nat ->
  lexLoop fuel (t ++ [LF]) txt tab =
    rbind (if 0 <? Z.of_nat (length txt) then add tab txt else Ok tab) (fun tab => add tab t).
Proof.
  intros Hn Hc H1 H2 Hf. destruct fuel as [|fuel]; [(pose proof bufSize_Z; lia)|]. cbn [lexLoop].
  destruct (readLine_chunk t [] Hn Hc) as [(L & E)|(L & b & r' & Et & E & Eb)].
  - rewrite E. assert (In "="%char t) by apply (In_firstn _ _ _ H1).
    rewrite (proj2 (contains_iff _ _) H). rewrite (eqb_f (Z.of_nat (length t)) 0) by (destruct t; [destruct H|simpl; (pose proof bufSize_Z; lia)]).
    destruct fuel as [|fuel]; [(pose proof bufSize_Z; lia)|]. reflexivity.
  - rewrite E. assert (Hb : In "="%char b /\ ~ In "="%char r').
    { destruct Eb as [Eb|Eb].
      - rewrite Eb. split; [exact H1|]. assert (r' = skipn bufSize t); [|congruence].
        rewrite <- (firstn_skipn bufSize t), Eb in Et. apply app_inv_head in Et. symmetry. exact Et.
      - rewrite <- Eb in H1. apply in_app_or in H1. destruct H1 as [H1|[H1|[]]]; [|discriminate]. split; [exact H1|].
        assert (r' = CR :: skipn bufSize t).
        { rewrite <- (firstn_skipn bufSize t), <- Eb, <- app_assoc in Et. apply app_inv_head in Et. symmetry. exact Et. }
        subst r'. intros [Hx|Hx]; [discriminate|exact (H2 Hx)]. }
    destruct Hb as (Hb & Hr). rewrite (proj2 (contains_iff _ _) Hb).
    rewrite (eqb_f (Z.of_nat (length b)) 0) by (destruct b; [destruct Hb|simpl; (pose proof bufSize_Z; lia)]).
    destruct (if 0 <? Z.of_nat (length txt) then add tab txt else Ok tab); cbn [rbind]; try reflexivity.
    rewrite (lexLoop_tail (length r') r'); [now rewrite <- Et|(pose proof bufSize_Z; lia)| |exact Hr| |].
    + intros Hi. apply Hn. rewrite Et. apply in_or_app. right. exact Hi.
    + destruct r' as [|x r']; [left; reflexivity|right]. rewrite Et in Hc. apply (no_CR_suffix b _ Hc). discriminate.
    + rewrite Et, app_length in Hf. (pose proof bufSize_Z; lia).
Qed.
(* a second equals sign beyond the buffer *)
Definition aaa (n : nat) : bytes := repeat "a"%char n.
Definition eqtail : bytes := lit "=b);".
Lemma aaa_not c n : c <> "a"%char -> ~ In c (aaa n).
Proof. intros N H. apply repeat_spec in H. congruence. Qed.
Lemma lexLoop_aaa k : forall m, (m <= k)%nat -> forall fuel txt tab, (m + 6 < fuel)%nat ->
  lexLoop fuel ((aaa m ++ eqtail) ++ [LF]) txt tab = Panic.
Proof.
  induction k as [k IH] using (well_founded_induction lt_wf). intros m Hm fuel txt tab Hf.
  assert (Hn : ~ In LF (aaa m ++ eqtail)).
  { rewrite in_app_iff. intros [H|H]; [revert H; apply aaa_not; discriminate|].
    cbn in H. repeat (destruct H as [H|H]; [discriminate|]). destruct H. }
  assert (Hc : no_CR_end (aaa m ++ eqtail)).
  { intros p E. apply (f_equal (@rev ascii)) in E. rewrite !rev_app_distr in E. cbn in E. discriminate. }
  destruct (Nat.lt_ge_cases m bufSize) as [L|L].
  - rewrite lexLoop_line; auto.
    + pose proof (add_no_div tab txt) as D.
      assert (P : forall tab, add tab (aaa m ++ eqtail) = Panic).
      { intros tab'. change eqtail with ("="%char :: lit "b);"). apply add_no_paren; [apply aaa_not; discriminate|].
        cbn. intros H. repeat (destruct H as [H|H]; [discriminate|]). destruct H. }
      destruct (0 <? Z.of_nat (length txt)).
      * destruct (add tab txt); cbn [rbind]; [apply P|reflexivity|congruence].
      * cbn [rbind]. apply P.
    + rewrite firstn_app. apply in_or_app. right. unfold aaa. rewrite repeat_length.
      destruct (bufSize - m)%nat eqn:E; [(pose proof bufSize_Z; lia)|]. left. reflexivity.
    + rewrite skipn_app. unfold aaa. rewrite repeat_length. intros H. apply in_app_or in H. destruct H as [H|H].
      * apply In_skipn in H. revert H. apply aaa_not. discriminate.
      * destruct (bufSize - m)%nat eqn:E; [(pose proof bufSize_Z; lia)|]. cbn [skipn] in H. change eqtail with ("="%char :: lit "b);") in H.
        apply In_skipn in H. cbn in H. repeat (destruct H as [H|H]; [discriminate|]). destruct H.
    + rewrite app_length. unfold aaa. rewrite repeat_length. cbn. (pose proof bufSize_Z; lia).
  - destruct fuel as [|fuel]; [(pose proof bufSize_Z; lia)|]. cbn [lexLoop].
    destruct (readLine_chunk _ [] Hn Hc) as [(L' & _)|(_ & b & r' & Et & E & Eb)].
    { rewrite app_length in L'. unfold aaa in L'. rewrite repeat_length in L'. (pose proof bufSize_Z; lia). }
    assert (F : firstn bufSize (aaa m ++ eqtail) = aaa bufSize).
    { rewrite firstn_app. unfold aaa at 2. rewrite repeat_length. replace (bufSize - m)%nat with 0%nat by (pose proof bufSize_Z; lia).
      rewrite firstn_O, app_nil_r. unfold aaa.
      replace m with (bufSize + (m - bufSize))%nat by (pose proof bufSize_Z; lia). rewrite repeat_app, firstn_app, repeat_length, Nat.sub_diag, firstn_O, app_nil_r.
      apply firstn_all2. rewrite repeat_length. (pose proof bufSize_Z; lia). }
    rewrite F in Eb. destruct Eb as [->|Eb].
    2:{ exfalso. apply (aaa_not CR bufSize); [discriminate|]. rewrite <- Eb. apply in_or_app. right. left. reflexivity. }
    assert (r' = aaa (m - bufSize) ++ eqtail).
    { replace m with (bufSize + (m - bufSize))%nat in Et by (pose proof bufSize_Z; lia). unfold aaa at 1 in Et. rewrite repeat_app, <- app_assoc in Et.
      apply app_inv_head in Et. symmetry. exact Et. }
    subst r'. rewrite E.
    rewrite (proj2 (contains_false _ _)) by (apply aaa_not; discriminate).
    rewrite (eqb_f (Z.of_nat (length (aaa bufSize))) 0) by (unfold aaa; rewrite repeat_length; (pose proof bufSize_Z; lia)).
    apply (IH (m - bufSize)%nat); (pose proof bufSize_Z; lia).
Qed.
Lemma Lex_long n fuel : ((bufSize - 5) <= n)%nat -> (n + 12 < fuel)%nat ->
  Lex fuel (lit "#1=T(" ++ aaa n ++ eqtail ++ [LF]) = Panic.
Proof.
  intros L Hf. unfold Lex.
  set (t := lit "#1=T(" ++ aaa n ++ eqtail).
  replace (lit "#1=T(" ++ aaa n ++ eqtail ++ [LF]) with (t ++ [LF]) by (unfold t; rewrite <- !app_assoc; reflexivity).
  assert (Hn : ~ In LF t).
  { unfold t. rewrite !in_app_iff. intros [H|[H|H]].
    - cbn in H. repeat (destruct H as [H|H]; [discriminate|]). destruct H.
    - revert H. apply aaa_not. discriminate.
    - cbn in H. repeat (destruct H as [H|H]; [discriminate|]). destruct H. }
  assert (Hc : no_CR_end t).
  { intros p E. unfold t in E. apply (f_equal (@rev ascii)) in E. rewrite !rev_app_distr in E. cbn in E. discriminate. }
  destruct fuel as [|fuel]; [(pose proof bufSize_Z; lia)|]. cbn [lexLoop].
  destruct (readLine_chunk t [] Hn Hc) as [(L' & _)|(_ & b & r' & Et & E & Eb)].
  { unfold t in L'. rewrite !app_length in L'. unfold aaa in L'. rewrite repeat_length in L'. cbn in L'. (pose proof bufSize_Z; lia). }
  set (h := lit "#1=T(" ++ aaa (bufSize - 5)).
  assert (Lh : length h = bufSize) by (unfold h, aaa; rewrite app_length, repeat_length; reflexivity).
  assert (Et' : t = h ++ aaa (n - (bufSize - 5)) ++ eqtail).
  { unfold t, h. replace n with ((bufSize - 5) + (n - (bufSize - 5)))%nat at 1 by (pose proof bufSize_Z; lia). unfold aaa at 1. rewrite repeat_app, <- !app_assoc. reflexivity. }
  assert (F : firstn bufSize t = h).
  { rewrite Et', firstn_app, Lh, Nat.sub_diag, firstn_O, app_nil_r. apply firstn_all2. rewrite Lh. (pose proof bufSize_Z; lia). }
  rewrite F in Eb. destruct Eb as [Eb|Eb].
  2:{ exfalso. assert (In CR h) by (rewrite <- Eb; apply in_or_app; right; left; reflexivity).
      apply Hn. exfalso. unfold h in H. apply in_app_or in H. destruct H as [H|H].
      - cbn in H. repeat (destruct H as [H|H]; [discriminate|]). destruct H.
      - revert H. apply aaa_not. discriminate. }
  subst b. rewrite Et' in Et. apply app_inv_head in Et. subst r'. rewrite E.
  rewrite (eqb_f (Z.of_nat (length h)) 0) by (rewrite Lh; (pose proof bufSize_Z; lia)).
  rewrite (proj2 (contains_iff _ _)) by (unfold h; apply in_or_app; left; cbn; tauto).
  cbn [length Z.of_nat Z.ltb Z.compare rbind]. apply (lexLoop_aaa (n - (bufSize - 5))); (pose proof bufSize_Z; lia).
Qed.

(** ** White space *)
Lemma runes_scalar s : forallb scalar (runes s) = true.
Proof.
  remember (length s) as n eqn:E. assert (L : (length s <= n)%nat) by (pose proof bufSize_Z; lia). clear E. revert s L.
  induction n as [|n IH]; intros s L; [destruct s; [reflexivity|simpl in L; (pose proof bufSize_Z; lia)]|].
  destruct s as [|b0 t0]; [reflexivity|]. cbn [runes length] in *.
  assert (R0 : forallb scalar (runeError :: runes t0) = true) by (cbn [forallb]; rewrite IH by (pose proof bufSize_Z; lia); reflexivity).
  pose proof (bv_range b0). destruct (Z.ltb_spec (bv b0) 128).
  { cbn [forallb]. rewrite IH by (pose proof bufSize_Z; lia). rewrite (proj2 (scalar_iff _)) by (pose proof bufSize_Z; lia). reflexivity. }
  destruct t0 as [|b1 t1]; [exact R0|]. destruct (utf8_2 b0 b1) eqn:E2.
  { cbn [forallb length] in *. rewrite IH by (pose proof bufSize_Z; lia). unfold utf8_2, between, cont in E2.
    rewrite !andb_true_iff, !Z.leb_le, Z.ltb_lt in E2. rewrite (proj2 (scalar_iff _)) by (pose proof bufSize_Z; lia). reflexivity. }
  destruct t1 as [|b2 t2]; [exact R0|]. destruct (utf8_3 b0 b1 b2) eqn:E3.
  { cbn [forallb length] in *. rewrite IH by (pose proof bufSize_Z; lia). unfold utf8_3, between, cont in E3.
    rewrite !andb_true_iff, !orb_true_iff, !andb_true_iff, !Z.leb_le, !Z.ltb_lt, !Z.eqb_eq in E3. rewrite (proj2 (scalar_iff _)) by (pose proof bufSize_Z; lia). reflexivity. }
  destruct t2 as [|b3 t3]; [exact R0|]. destruct (utf8_4 b0 b1 b2 b3) eqn:E4; [|exact R0].
  cbn [forallb length] in *. rewrite IH by (pose proof bufSize_Z; lia). unfold utf8_4, between, cont in E4.
  rewrite !andb_true_iff, !orb_true_iff, !andb_true_iff, !Z.leb_le, !Z.ltb_lt, !Z.eqb_eq in E4. rewrite (proj2 (scalar_iff _)) by (pose proof bufSize_Z; lia). reflexivity.
Qed.
Lemma strip_encode s : stripWhiteSpaces s = encode (filter (fun r => negb (isSpace r)) (runes s)).
Proof.
  unfold stripWhiteSpaces. induction (runes s) as [|r l IH]; [reflexivity|]. cbn [flat_map filter].
  destruct (negb (isSpace r)); [|exact IH]. cbn [encode flat_map]. f_equal. exact IH.
Qed.
Lemma strip_runes s : runes (stripWhiteSpaces s) = filter (fun r => negb (isSpace r)) (runes s).
Proof.
  rewrite strip_encode. apply runes_encode. pose proof (runes_scalar s) as H. rewrite forallb_forall in *.
  intros x Hx. apply filter_In in Hx. apply H, Hx.
Qed.
Lemma filter_idem {T} (f : T -> bool) l : filter f (filter f l) = filter f l.
Proof. induction l as [|x l IH]; simpl; [reflexivity|]. destruct (f x) eqn:E; simpl; rewrite ?E, IH; reflexivity. Qed.
Lemma strip_idem s : stripWhiteSpaces (stripWhiteSpaces s) = stripWhiteSpaces s.
Proof. rewrite (strip_encode (stripWhiteSpaces s)), strip_runes, filter_idem, <- strip_encode. reflexivity. Qed.
