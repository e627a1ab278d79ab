(** C72, byte by byte: stripWhiteSpaces on every byte string, well-formed or not. *)
From Coq Require Import Ascii String ZArith List Bool Lia.
From Verif Require Import Base GoMap M_step Spec_step Spec_utf8 P_step Props_step.
Import ListNotations.
Open Scope Z_scope.

Lemma byte_of_bv lo hi a : (Z.of_N lo <= bv a <= Z.of_N hi)%Z -> byte_in lo hi a.
Proof. unfold bv, byte_in. lia. Qed.
(* the decoder takes a well-formed character if there is one *)
Lemma head_bad b0 t0 : 128 <= bv b0 -> (forall b1 t1, t0 = b1 :: t1 -> utf8_2 b0 b1 = false) -> (forall b1 b2 t2, t0 = b1 :: b2 :: t2 -> utf8_3 b0 b1 b2 = false) ->
  (forall b1 b2 b3 t3, t0 = b1 :: b2 :: b3 :: t3 -> utf8_4 b0 b1 b2 b3 = false) -> forall c u, utf8_char c -> b0 :: t0 <> c ++ u.
Proof.
  intros L H2 H3 H4 c u Hc E. destruct (utf8_char_shape c Hc) as [(a & -> & R)|[(a & b & -> & R1 & R2)|[(a & b & d & -> & R1 & R2)|(a & b & d & e & -> & R1 & R2 & R3)]]]; cbn [app] in E.
  - injection E as -> _. lia.
  - injection E as -> ->. specialize (H2 b u eq_refl). assert (X : utf8_2 a b = true) by (unfold utf8_2, between, cont; zb; reflexivity). congruence.
  - injection E as -> ->. specialize (H3 b d u eq_refl). assert (X : utf8_3 a b d = true) by (unfold utf8_3, between, cont; destruct R1 as [R1|[R1|[R1|R1]]]; destruct R1; zb; reflexivity). congruence.
  - injection E as -> ->. specialize (H4 b d e u eq_refl). assert (X : utf8_4 a b d e = true) by (unfold utf8_4, between, cont; destruct R1 as [R1|[R1|R1]]; destruct R1; zb; reflexivity). congruence.
Qed.
Lemma runes_head b0 t0 : (exists c u, utf8_char c /\ b0 :: t0 = c ++ u) \/ (runes (b0 :: t0) = 65533 :: runes t0 /\ forall c u, utf8_char c -> b0 :: t0 <> c ++ u).
Proof.
  destruct (Z.ltb_spec (bv b0) 128) as [L|L].
  { left. exists [b0], t0. split; [|reflexivity]. constructor. apply byte_of_bv. pose proof (bv_range b0). simpl. lia. }
  assert (L' : (bv b0 <? 128) = false) by (apply Z.ltb_ge, L).
  destruct t0 as [|b1 t1]; [right; split; [cbn [runes]; rewrite L'; reflexivity|apply head_bad; [exact L|discriminate..]]|]. destruct (utf8_2 b0 b1) eqn:E2.
  { left. exists [b0; b1], t1. split; [|reflexivity]. unfold utf8_2, between, cont in E2. rewrite !andb_true_iff, !Z.leb_le, Z.ltb_lt in E2. constructor; apply byte_of_bv; simpl; lia. }
  destruct t1 as [|b2 t2]; [right; split; [cbn [runes]; rewrite L', E2; reflexivity|apply head_bad; [exact L|intros x t E; injection E as -> _; exact E2|discriminate..]]|]. destruct (utf8_3 b0 b1 b2) eqn:E3.
  { left. exists [b0; b1; b2], t2. split; [|reflexivity]. unfold utf8_3, between, cont in E3. rewrite !andb_true_iff, !orb_true_iff, !andb_true_iff, !Z.leb_le, !Z.ltb_lt, !Z.eqb_eq in E3.
    destruct E3 as ([[[H|H]|H]|H] & H3); [apply utf8_char3a|apply utf8_char3b|apply utf8_char3c|apply utf8_char3d]; apply byte_of_bv; simpl; lia. }
  destruct t2 as [|b3 t3]; [right; split; [cbn [runes]; rewrite L', E2, E3; reflexivity|apply head_bad; [exact L|intros x t E; injection E as -> _; exact E2|intros x y t E; injection E as -> -> _; exact E3|discriminate]]|].
  destruct (utf8_4 b0 b1 b2 b3) eqn:E4; [|right; split; [change (runes (b0 :: b1 :: b2 :: b3 :: t3)) with (if bv b0 <? 128 then bv b0 :: runes (b1 :: b2 :: b3 :: t3) else if utf8_2 b0 b1 then ((bv b0 - 192) * 64 + (bv b1 - 128)) :: runes (b2 :: b3 :: t3) else if utf8_3 b0 b1 b2 then ((bv b0 - 224) * 4096 + (bv b1 - 128) * 64 + (bv b2 - 128)) :: runes (b3 :: t3) else if utf8_4 b0 b1 b2 b3 then ((bv b0 - 240) * 262144 + (bv b1 - 128) * 4096 + (bv b2 - 128) * 64 + (bv b3 - 128)) :: runes t3 else runeError :: runes (b1 :: b2 :: b3 :: t3)); rewrite L', E2, E3, E4; reflexivity|]].
  - left. exists [b0; b1; b2; b3], t3. split; [|reflexivity]. unfold utf8_4, between, cont in E4. rewrite !andb_true_iff, !orb_true_iff, !andb_true_iff, !Z.leb_le, !Z.ltb_lt, !Z.eqb_eq in E4.
    destruct E4 as (([[H|H]|H] & H3) & H4); [apply utf8_char4a|apply utf8_char4b|apply utf8_char4c]; apply byte_of_bv; simpl; lia.
  - apply head_bad; [exact L|intros x t E; injection E as -> _; exact E2|intros x y t E; injection E as -> -> _; exact E3|intros x y z t E; injection E as -> -> -> _; exact E4].
Qed.
(* a text cannot start with two different characters *)
Lemma char_prefix c c' u u' : utf8_char c -> utf8_char c' -> c ++ u = c' ++ u' -> c = c' /\ u = u'.
Proof.
  intros H H' E. destruct (utf8_char_rune c H) as (r & R & Ec & _). destruct (utf8_char_rune c' H') as (r' & R' & Ec' & _).
  assert (X : r :: runes u = r' :: runes u') by (rewrite <- R, <- R', E; reflexivity). injection X as X _. subst r'. rewrite Ec in Ec'. subst c'. split; [reflexivity|]. apply app_inv_head in E. exact E.
Qed.
Lemma pieces_unique s l : pieces s l -> forall l', pieces s l' -> l = l'.
Proof.
  induction 1 as [|c t l Hc Ht IH|b t l Hb Ht IH]; intros l' H'.
  - remember [] as z eqn:Ez. destruct H' as [|c t l' Hc Ht|]; [reflexivity| |discriminate]. exfalso. destruct Hc; discriminate.
  - remember (c ++ t) as z eqn:Ez. destruct H' as [|c' t' l' Hc' Ht'|b t' l' Hb Ht'].
    + exfalso. destruct Hc; discriminate.
    + destruct (char_prefix c' c t' t Hc' Hc Ez) as (-> & ->). f_equal. apply IH, Ht'.
    + exfalso. exact (Hb c t Hc Ez).
  - remember (b :: t) as z eqn:Ez. destruct H' as [|c' t' l' Hc' Ht'|b' t' l' Hb' Ht'].
    + discriminate.
    + exfalso. exact (Hb c' t' Hc' eq_refl).
    + injection Ez as -> ->. f_equal. apply IH, Ht'.
Qed.
Lemma white_encode : map encodeRune white_space = white_chars. Proof. vm_compute. reflexivity. Qed.
Lemma white_scalar r : In r white_space -> scalar r = true.
Proof. intros H. assert (A : forallb scalar white_space = true) by reflexivity. rewrite forallb_forall in A. apply A, H. Qed.
Lemma space_white r c : (forall t, runes (c ++ t) = r :: runes t) -> encodeRune r = c -> (isSpace r = true <-> In c white_chars).
Proof.
  intros R E. rewrite C72_white_space, <- white_encode. split; intros H.
  - rewrite <- E. apply in_map, H.
  - apply in_map_iff in H. destruct H as (r' & E' & H). replace r with r'; [exact H|].
    pose proof (runes_encodeRune r' [] (white_scalar r' H)) as X. rewrite E' in X. rewrite (R []) in X. congruence.
Qed.
Theorem C72_bytes s : exists l ks, pieces s l /\ Forall2 kept l ks /\ stripWhiteSpaces s = concat ks.
Proof.
  rewrite strip_encode. remember (length s) as n eqn:E. assert (L : (length s <= n)%nat) by lia. clear E. revert s L. induction n as [|n IH]; intros s L.
  - destruct s; [|simpl in L; lia]. exists [], []. split; [constructor|]. split; [constructor|reflexivity].
  - destruct s as [|b0 t0]; [exists [], []; split; [constructor|]; split; [constructor|reflexivity]|].
    destruct (runes_head b0 t0) as [(c & u & Hc & Eq)|(Eq & Bad)].
    + rewrite Eq in *. destruct (utf8_char_rune c Hc) as (r & R & Ec & _).
      assert (Lc : (0 < length c)%nat) by (destruct Hc; simpl; lia). rewrite app_length in L. destruct (IH u ltac:(lia)) as (l & ks & P & K & F).
      rewrite R. cbn [filter]. destruct (isSpace r) eqn:S; cbn [negb].
      * exists (Some c :: l), ([] :: ks). split; [apply pieces_char; assumption|]. split; [constructor; [apply kept_white, (space_white r c R Ec), S|exact K]|exact F].
      * exists (Some c :: l), (c :: ks). split; [apply pieces_char; assumption|]. split.
        -- constructor; [|exact K]. apply kept_other. intros W. apply (space_white r c R Ec) in W. congruence.
        -- cbn [encode flat_map concat]. rewrite Ec. f_equal. exact F.
    + simpl in L. destruct (IH t0 ltac:(lia)) as (l & ks & P & K & F). rewrite Eq. exists (None :: l), (replacement :: ks). split; [apply pieces_bad; assumption|].
      split; [constructor; [apply kept_bad|exact K]|]. change (filter (fun r => negb (isSpace r)) (65533 :: runes t0)) with (65533 :: filter (fun r => negb (isSpace r)) (runes t0)).
      cbn [encode flat_map concat]. f_equal. exact F.
Qed.
Print Assumptions C72_bytes.
(* there is only one way to cut a text *)
Theorem C72_pieces_unique s l l' : pieces s l -> pieces s l' -> l = l'.
Proof. intros H H'. exact (pieces_unique s l H l' H'). Qed.
Print Assumptions C72_pieces_unique.
(* a space, an A, an overlong NUL (two damaged bytes), a no-break space, an e acute, a stray continuation byte *)
Example C72_damaged : stripWhiteSpaces (bs [32; 65; 192; 128; 194; 160; 195; 169; 128]%nat) = bs [65; 239; 191; 189; 239; 191; 189; 195; 169; 239; 191; 189]%nat.
Proof. vm_compute. reflexivity. Qed.
