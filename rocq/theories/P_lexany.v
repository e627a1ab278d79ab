From Coq Require Import Ascii String ZArith List Bool Lia.
From Verif Require Import Base GoMap M_step Spec_step P_step Spec_lexany.
Import ListNotations.
Open Scope Z_scope.

(** ** pieces and readLine *)
Lemma no_LF_cons l : ~ In newline l -> ~ In LF l. Proof. exact (fun H => H). Qed.
Lemma firstn_app_exact {T} (l f : list T) n : length l = n -> firstn n (l ++ f) = l.
Proof. intros <-. rewrite firstn_app, Nat.sub_diag, firstn_all. apply app_nil_r. Qed.
Lemma skipn_app_exact {T} (l f : list T) n : length l = n -> skipn n (l ++ f) = f.
Proof. intros <-. rewrite skipn_app, Nat.sub_diag, skipn_all. reflexivity. Qed.
Lemma endsCR_false l : no_CR_end l -> endsCR l = false.
Proof. intros H. destruct (endsCR l) eqn:E; [|reflexivity]. destruct (endsCR_iff l E) as (p & Ep). destruct (H p Ep). Qed.
Lemma endsCR_true l : endsCR (l ++ [CR]) = true.
Proof. unfold endsCR. rewrite rev_app_distr. cbn [rev app]. apply Ascii.eqb_refl. Qed.
Lemma app_cr l (f : bytes) : l ++ return_ :: f = (l ++ [CR]) ++ f.
Proof. rewrite <- app_assoc. reflexivity. Qed.
Lemma pieces_read f ps : pieces f ps ->
  match ps with [] => f = [] | p :: ps' => exists rest, readLine f = Some (p, rest) /\ pieces rest ps' end.
Proof.
  pose proof bufSize_Z as BZ. intros H. destruct H as [|l f ps N C L H|l f ps N L H|l E N L|l f ps N C L H|l f ps N L H]; [reflexivity|..].
  - exists f. split; [|exact H]. rewrite readLine_eq by (destruct l; discriminate).
    change newline with LF. rewrite cutLF_found; [|exact N|lia]. rewrite dropCR_keep by exact C. reflexivity.
  - exists f. split; [|exact H]. rewrite app_cr. rewrite readLine_eq by (destruct l; discriminate).
    change newline with LF. rewrite cutLF_found; [|rewrite in_app_iff; intros [Q|[Q|[]]]; [exact (N Q)|discriminate]|rewrite app_length; cbn [length]; lia].
    rewrite dropCR_drop. reflexivity.
  - exists []. split; [|constructor]. rewrite readLine_eq by exact E. rewrite cutLF_none by (intros Q; apply N, (In_firstn _ _ _ Q)).
    destruct (Nat.leb_spec bufSize (length l)) as [Q|Q]; [lia|reflexivity].
  - exists f. split; [|exact H]. rewrite readLine_eq by (destruct l; [simpl in L; lia|discriminate]).
    assert (Ln : length l = bufSize) by lia. rewrite cutLF_none by (rewrite firstn_app_exact by exact Ln; exact N).
    rewrite (proj2 (Nat.leb_le _ _)) by (rewrite app_length; lia). cbv zeta. rewrite (firstn_app_exact l f bufSize), (skipn_app_exact l f bufSize) by exact Ln.
    rewrite endsCR_false by exact C. reflexivity.
  - exists (return_ :: f). split; [|exact H]. rewrite app_cr. rewrite readLine_eq by (destruct l; discriminate).
    assert (Ln : length (l ++ [CR]) = bufSize) by (rewrite app_length; cbn [length]; lia).
    rewrite cutLF_none by (rewrite firstn_app_exact by exact Ln; rewrite in_app_iff; intros [Q|[Q|[]]]; [exact (N Q)|discriminate]).
    rewrite (proj2 (Nat.leb_le _ _)) by (rewrite app_length; lia). cbv zeta. rewrite (firstn_app_exact (l ++ [CR])) by exact Ln.
    rewrite endsCR_true. rewrite <- app_cr. assert (Ll : length l = (bufSize - 1)%nat) by lia.
    rewrite (firstn_app_exact l _ (bufSize - 1)), (skipn_app_exact l _ (bufSize - 1)) by exact Ll. reflexivity.
Qed.
Lemma pieces_unique f ps : pieces f ps -> forall ps', pieces f ps' -> ps = ps'.
Proof.
  remember (length f) as n eqn:En. revert f ps En. induction n as [n IH] using lt_wf_ind. intros f ps En H ps' H'.
  apply pieces_read in H. apply pieces_read in H'. destruct ps as [|p ps], ps' as [|p' ps'].
  - reflexivity.
  - subst f. destruct H' as (rest & E & _). discriminate.
  - subst f. destruct H as (rest & E & _). discriminate.
  - destruct H as (r & E & H). destruct H' as (r' & E' & H'). rewrite E in E'. injection E' as <- <-. f_equal.
    apply (IH (length r)) with (f := r); auto. subst n. apply (readLine_length _ _ _ E).
Qed.
Lemma cutLF_some n : forall l p q, cutLF n l = Some (p, q) -> l = p ++ LF :: q /\ ~ In LF p /\ (length p < n)%nat.
Proof.
  induction n as [|n IH]; intros l p q H; [discriminate|]. destruct l as [|b l]; [discriminate|]. cbn [cutLF] in H.
  destruct (Ascii.eqb_spec b LF) as [->|N].
  - injection H as <- <-. split; [reflexivity|]. split; [intros []|simpl; lia].
  - destruct (cutLF n l) as [[p' q']|] eqn:E; [|discriminate]. injection H as <- <-. destruct (IH _ _ _ E) as (-> & A & B).
    split; [reflexivity|]. split; [intros [Q|Q]; [congruence|auto]|simpl; lia].
Qed.
Lemma cutLF_none_iff n : forall l, cutLF n l = None -> ~ In LF (firstn n l).
Proof.
  induction n as [|n IH]; intros l H; [intros []|]. destruct l as [|b l]; [intros []|]. cbn [cutLF] in H. cbn [firstn].
  destruct (Ascii.eqb_spec b LF) as [->|N]; [discriminate|]. destruct (cutLF n l) as [[p' q']|] eqn:E; [discriminate|].
  intros [Q|Q]; [congruence|exact (IH l E Q)].
Qed.
Lemma CR_end_dec l : (exists p, l = p ++ [CR]) \/ no_CR_end l.
Proof.
  destruct (endsCR l) eqn:E; [left; apply endsCR_iff, E|right]. intros p ->. rewrite endsCR_true in E. discriminate.
Qed.
Lemma pieces_total f : exists ps, pieces f ps.
Proof.
  pose proof bufSize_Z as BZ. remember (length f) as n eqn:En. revert f En. induction n as [n IH] using lt_wf_ind. intros f En. subst n.
  assert (IH' : forall r, (length r < length f)%nat -> exists ps, pieces r ps) by (intros r Hr; apply (IH (length r)); auto). clear IH.
  destruct f as [|x f0] eqn:Ef; [exists []; constructor|]. rewrite <- Ef in *. assert (Nf : f <> []) by (subst f; discriminate). clear x f0 Ef.
  destruct (cutLF bufSize f) as [[p q]|] eqn:E.
  - destruct (cutLF_some _ _ _ _ E) as (Ep & N & L). destruct (IH' q) as (ps & H).
    { rewrite Ep, app_length. cbn [length]. lia. }
    destruct (CR_end_dec p) as [(p' & ->)|C].
    + exists (p' :: ps). rewrite Ep, <- app_assoc. apply pieces_crlf; auto.
      * intros Q. apply N, in_or_app. auto.
      * rewrite app_length in L. cbn [length] in L. lia.
    + exists (p :: ps). rewrite Ep. apply pieces_lf; auto. lia.
  - apply cutLF_none_iff in E. destruct (Nat.ltb_spec (length f) bufSize) as [L|L].
    + exists [f]. apply pieces_end; auto; [|lia]. rewrite firstn_all2 in E by lia. exact E.
    + pose proof (firstn_skipn bufSize f) as S. assert (Ln : length (firstn bufSize f) = bufSize) by (rewrite firstn_length; lia).
      set (l := firstn bufSize f) in *. set (r := skipn bufSize f) in *.
      destruct (CR_end_dec l) as [(p' & Ep)|C].
      * destruct (IH' (return_ :: r)) as (ps & H).
        { rewrite <- S, app_length. cbn [length]. lia. }
        rewrite Ep in *. exists (p' :: ps). rewrite <- S, <- app_cr. apply pieces_full_cr; auto.
        -- intros Q. apply E, in_or_app. auto.
        -- rewrite app_length in Ln. cbn [length] in Ln. lia.
      * destruct (IH' r) as (ps & H). { rewrite <- S, app_length. lia. }
        exists (l :: ps). rewrite <- S. apply pieces_full; auto. lia.
Qed.
Lemma eq_dec_piece (p : bytes) : In "="%char p \/ ~ In "="%char p.
Proof. destruct (contains "=" p) eqn:E; [left; apply contains_iff, E|right; apply contains_false, E]. Qed.
Lemma group_pieces ps : exists head gs, ps = head ++ concat gs /\ Forall (fun p => ~ In "="%char p) head /\ Forall definition_pieces gs.
Proof.
  induction ps as [|p ps (head & gs & -> & H & G)]; [exists [], []; repeat split; constructor|].
  destruct (eq_dec_piece p) as [E|E].
  - exists [], ((p :: head) :: gs). split; [reflexivity|]. split; [constructor|]. constructor; auto. exists p, head. auto.
  - exists (p :: head), gs. repeat split; auto.
Qed.
Lemma layout_total f : exists head gs, layout f head gs.
Proof. destruct (pieces_total f) as (ps & H). destruct (group_pieces ps) as (head & gs & -> & A & B). exists head, gs. repeat split; auto. Qed.
Lemma group_unique head gs : Forall (fun p => ~ In "="%char p) head -> Forall definition_pieces gs -> forall head' gs',
  Forall (fun p => ~ In "="%char p) head' -> Forall definition_pieces gs' -> head ++ concat gs = head' ++ concat gs' -> head = head' /\ gs = gs'.
Proof.
  remember (length (head ++ concat gs)) as n eqn:En. revert head gs En. induction n as [n IH] using lt_wf_ind. intros head gs En H G head' gs' H' G' E. subst n.
  assert (B : forall hd (ggs : list (list bytes)), Forall definition_pieces ggs -> hd = [] -> match hd ++ concat ggs with [] => ggs = [] | p :: _ => In "="%char p end).
  { intros hd ggs Q ->. destruct Q as [|g ggs (first & rest & -> & F & _)]; [reflexivity|exact F]. }
  destruct head as [|p head], head' as [|p' head'].
  - split; [reflexivity|]. cbn [app] in E. destruct G as [|g gs (first & rest & -> & F & R) G], G' as [|g' gs' (first' & rest' & -> & F' & R') G']; try reflexivity; try discriminate.
    cbn [concat app] in E. injection E as E1 E. subst first'. destruct (IH (length (rest ++ concat gs))) with (head := rest) (gs := gs) (head' := rest') (gs' := gs') as (-> & ->); auto.
  - exfalso. pose proof (B [] gs G eq_refl) as Q. rewrite E in Q. cbn [app] in Q. inversion H'; contradiction.
  - exfalso. pose proof (B [] gs' G' eq_refl) as Q. rewrite <- E in Q. cbn [app] in Q. inversion H; contradiction.
  - cbn [app] in E. injection E as E1 E. subst p'. inversion H; subst. inversion H'; subst. destruct (IH (length (head ++ concat gs))) with (head := head) (gs := gs) (head' := head') (gs' := gs') as (-> & ->); auto.
Qed.
Lemma layout_unique f head gs head' gs' : layout f head gs -> layout f head' gs' -> head = head' /\ gs = gs'.
Proof. intros (A & B & C) (A' & B' & C'). apply group_unique; auto. apply (pieces_unique f _ A _ A'). Qed.

Lemma lexLoop_pieces fuel : forall f ps txt tab, pieces f ps -> (length f < fuel)%nat -> lexLoop fuel f txt tab = lexLs ps txt tab.
Proof.
  induction fuel as [|fuel IH]; intros f ps txt tab H Hf; [lia|]. apply pieces_read in H. destruct ps as [|p ps].
  - subst f. reflexivity.
  - destruct H as (rest & E & H). cbn [lexLoop lexLs]. rewrite E. apply readLine_length in E.
    destruct (_ =? 0); [apply IH; [exact H|lia]|]. destruct (contains "=" p); [|apply IH; [exact H|lia]].
    destruct (if 0 <? Z.of_nat (length txt) then add tab txt else Ok tab); cbn [rbind]; [apply IH; [exact H|lia]|reflexivity|reflexivity].
Qed.

(** ** cutting arguments *)
Lemma level_app a b : level (a ++ b) = level a + level b.
Proof. induction a as [|x a IH]; [reflexivity|]. cbn [app]. unfold level in *. cbn [fold_right]. rewrite IH. ring. Qed.
Lemma depth_level d r : depth d r = d + level [r].
Proof. unfold depth, level. cbn [fold_right]. destruct (r =? 40); [lia|]. destruct (r =? 41); lia. Qed.
Lemma rscan_level p : forall d, (forall u v, p = u ++ 44 :: v -> d + level u <> 0) -> rscan d p = Some (d + level p).
Proof.
  induction p as [|r p IH]; intros d H; [simpl; f_equal; unfold level; simpl; lia|]. cbn [rscan].
  assert (D : depth d r = d + level [r]) by apply depth_level.
  destruct ((depth d r =? 0) && (r =? 44)) eqn:E.
  - apply andb_true_iff in E. destruct E as (E1 & E2). apply Z.eqb_eq in E1, E2. subst r. exfalso. apply (H [] p eq_refl).
    unfold level in *. cbn [fold_right] in *. rewrite D in E1. simpl in E1. lia.
  - rewrite IH, D.
    + f_equal. rewrite <- Z.add_assoc, <- level_app. reflexivity.
    + intros u v ->. rewrite D, <- Z.add_assoc, <- level_app. apply (H ([r] ++ u) v). reflexivity.
Qed.
Lemma no_top_scan p : no_top_comma p -> rscan 0 p = Some (level p).
Proof. intros H. rewrite rscan_level; [f_equal; lia|]. intros u v E. specialize (H u v E). lia. Qed.
Lemma cut_fold rs ps last : cut rs ps last -> forall args, fold_left splitStep rs (args, 0, []) = (args ++ map encode ps, level last, last).
Proof.
  intros (-> & F & N). induction F as [|p ps (Lp & Np) F IH]; intros args; cbn [flat_map app map].
  - rewrite app_nil_r. apply (rscan_fold _ args 0 [] _ (no_top_scan _ N)).
  - rewrite <- !app_assoc. rewrite fold_left_app.
    rewrite (rscan_fold _ args 0 [] _ (no_top_scan _ Np)), Lp. cbn [app fold_left]. rewrite splitStep_depth. cbn [depth Z.eqb Z.compare andb].
    change (depth 0 44) with 0. cbn [Z.eqb andb Pos.eqb]. rewrite IH, <- app_assoc. reflexivity.
Qed.
Lemma cut_total rs : exists ps last, cut rs ps last.
Proof.
  induction rs as [|r rs (ps & last & E & F & N)] using rev_ind.
  - exists [], []. split; [reflexivity|]. split; [constructor|]. intros [|? ?] v; discriminate.
  - destruct (Z.eq_dec r 44) as [->|Hr]; [destruct (Z.eq_dec (level last) 0) as [L|L]|].
    + exists (ps ++ [last]), []. split; [|split].
      * rewrite E, flat_map_app. cbn [flat_map]. rewrite <- !app_assoc. cbn [app]. reflexivity.
      * apply Forall_app. split; auto.
      * intros [|? ?] v; discriminate.
    + exists ps, (last ++ [44]). split; [rewrite E, <- app_assoc; reflexivity|]. split; [exact F|].
      intros u v Q. destruct (exists_last (l := 44 :: v)) as (v' & x & Ev); [discriminate|]. rewrite Ev, app_assoc in Q.
      apply app_inj_tail in Q. destruct Q as (Q & <-). destruct v' as [|y v'].
      * rewrite app_nil_r in Q. subst u. exact L.
      * cbn [app] in Ev. injection Ev as <- _. apply (N u v' Q).
    + exists ps, (last ++ [r]). split; [rewrite E, <- app_assoc; reflexivity|]. split; [exact F|].
      intros u v Q. destruct (exists_last (l := 44 :: v)) as (v' & x & Ev); [discriminate|]. rewrite Ev, app_assoc in Q.
      apply app_inj_tail in Q. destruct Q as (Q & <-). destruct v' as [|y v'].
      * cbn [app] in Ev. congruence.
      * cbn [app] in Ev. injection Ev as <- _. apply (N u v' Q).
Qed.
Lemma getArguments_cut a ps last : cut (runes a) ps last ->
  getArguments a = if (length last <? 2)%nat then Panic else Ok (map encode ps ++ [firstn (length last - 2) (encode last)]).
Proof.
  intros H. unfold getArguments. rewrite (cut_fold _ _ _ H []). cbn [app].
  destruct (Nat.ltb_spec (length last) 2) as [L|L]; [rewrite ltb_t by lia|rewrite ltb_f by lia]; reflexivity.
Qed.

(** ** one definition *)
Lemma add_defines t e tab : defines t e -> add tab t = Ok (add_entity tab e).
Proof.
  intros (w & a & ps & last & -> & N1 & N2 & Ty & C & L & Ar). unfold add. rewrite splitN2_found by exact N1.
  rewrite zget0, zget1. cbn [rbind]. unfold tokenize. rewrite splitN2_found by exact N2. rewrite zget0, zget1. cbn [rbind].
  rewrite (getArguments_cut _ _ _ C). rewrite (proj2 (Nat.ltb_ge _ _)) by exact L. cbn [rbind].
  unfold add_entity, entity_def. rewrite strip_encode, Ty, Ar. reflexivity.
Qed.
Lemma split_first (c : ascii) (t : bytes) : ~ In c t \/ exists a b, t = a ++ c :: b /\ ~ In c a.
Proof.
  induction t as [|x t [IH|(a & b & -> & IH)]]; [left; intros []| |].
  - destruct (ascii_dec x c) as [->|N]; [right; exists [], t; split; [reflexivity|intros []]|left; intros [Q|Q]; auto].
  - right. destruct (ascii_dec x c) as [->|N]; [exists [], (a ++ c :: b); split; [reflexivity|intros []]|].
    exists (x :: a), b. split; [reflexivity|]. intros [Q|Q]; auto.
Qed.
Lemma defines_or t : (exists e, defines t e) \/ ((forall e, ~ defines t e) /\ forall tab, add tab t = Panic).
Proof.
  assert (P : (exists e, defines t e) \/ forall tab, add tab t = Panic).
  { destruct (split_first "=" t) as [N|(id & s & -> & N1)]; [right; intros tab; apply add_no_eq, N|].
    destruct (split_first "(" s) as [N|(w & a & -> & N2)]; [right; intros tab; apply add_no_paren; auto|].
    destruct (cut_total (runes a)) as (ps & last & C). destruct (Nat.ltb_spec (length last) 2) as [L|L].
    - right. intros tab. unfold add. rewrite splitN2_found by exact N1. rewrite zget0, zget1. cbn [rbind].
      unfold tokenize. rewrite splitN2_found by exact N2. rewrite zget1. cbn [rbind].
      rewrite (getArguments_cut _ _ _ C). rewrite (proj2 (Nat.ltb_lt _ _)) by exact L. reflexivity.
    - left. exists (mkEntity id (encode (filter (fun r => negb (isSpace r)) (runes w))) (map encode ps ++ [firstn (length last - 2) (encode last)])).
      exists w, a, ps, last. cbn [eId eType eArgs]. repeat split; auto; apply C. }
  destruct P as [P|P]; [left; exact P|right]. split; [|exact P]. intros e D. pose proof (add_defines t e [] D) as Q. rewrite (P []) in Q. discriminate.
Qed.

(** ** the whole file *)
Lemma lexLs_groups gs : Forall definition_pieces gs -> forall txt tab, txt <> [] ->
  (forall e es, defines txt e -> Forall2 (fun g d => defines (concat g) d) gs es -> lexLs (concat gs) txt tab = Ok (fold_left add_entity (e :: es) tab)) /\
  ((forall e, ~ defines txt e) \/ (exists g, In g gs /\ forall e, ~ defines (concat g) e) -> lexLs (concat gs) txt tab = Panic).
Proof.
  induction 1 as [|g gs (first & rest & -> & Hin & Hr) G IH]; intros txt tab Nt.
  - cbn [concat lexLs]. split.
    + intros e es D F. inversion F; subst. apply add_defines, D.
    + intros [D|(g & [] & _)]. destruct (defines_or txt) as [(e & Q)|(_ & Q)]; [destruct (D e Q)|apply Q].
  - cbn [concat]. rewrite <- app_comm_cons, lexLs_first by exact Hin. rewrite ltb_t by (destruct txt; [congruence|simpl; lia]).
    assert (N2 : first ++ concat rest <> []) by (destruct first; [destruct Hin|discriminate]).
    split.
    + intros e es D F. inversion F as [|? e1 ? es1 D1 F1]; subst. rewrite (add_defines txt e tab D). cbn [rbind]. rewrite lexLs_rest by exact Hr.
      destruct (IH (first ++ concat rest) (add_entity tab e) N2) as (I1 & _). rewrite (I1 e1 es1) by auto. reflexivity.
    + intros Q. destruct (defines_or txt) as [(e & D)|(_ & P)]; [|rewrite P; reflexivity].
      rewrite (add_defines txt e tab D). cbn [rbind]. rewrite lexLs_rest by exact Hr.
      apply (IH (first ++ concat rest) (add_entity tab e) N2). destruct Q as [Q|(g & [<-|Hg] & Q)]; [destruct (Q e D)|left; exact Q|right; eauto].
Qed.
Lemma Lex_exact f head gs fuel : layout f head gs -> (length f < fuel)%nat ->
  (concat head <> [] \/ gs = [] \/ (exists g, In g gs /\ forall e, ~ defines (concat g) e) -> Lex fuel f = Panic) /\
  (forall es, concat head = [] -> gs <> [] -> Forall2 (fun g e => defines (concat g) e) gs es -> Lex fuel f = Ok (fold_left add_entity es [])).
Proof.
  intros (P & H & G) Hf. unfold Lex. rewrite (lexLoop_pieces _ _ _ [] [] P Hf), lexLs_rest by exact H. cbn [app].
  assert (NE : ~ In "="%char (concat head)).
  { intros Q. apply in_concat in Q. destruct Q as (p & Hp & Q). rewrite Forall_forall in H. exact (H p Hp Q). }
  destruct G as [|g gs (first & rest & -> & Hin & Hr) G].
  - split; [|congruence]. intros _. cbn [concat lexLs]. apply add_no_eq, NE.
  - cbn [concat]. rewrite <- app_comm_cons, lexLs_first by exact Hin.
    assert (N2 : first ++ concat rest <> []) by (destruct first; [destruct Hin|discriminate]). split.
    + intros Q. destruct (concat head) as [|x hd] eqn:Eh.
      * cbn [length Z.of_nat Z.ltb Z.compare rbind]. rewrite lexLs_rest by exact Hr. apply (lexLs_groups gs G _ _ N2).
        destruct Q as [Q|[Q|(g & [<-|Hg] & Q)]]; [congruence|discriminate|left; exact Q|right; eauto].
      * rewrite ltb_t by (cbn [length]; lia). rewrite add_no_eq by exact NE. reflexivity.
    + intros es -> _ F. inversion F as [|? e1 ? es1 D1 F1]; subst. cbn [length Z.of_nat Z.ltb Z.compare rbind]. rewrite lexLs_rest by exact Hr.
      destruct (lexLs_groups gs G (first ++ concat rest) [] N2) as (I1 & _). apply I1; auto.
Qed.
Lemma groups_or gs : (exists es, Forall2 (fun g e => defines (concat g) e) gs es) \/ exists g, In g gs /\ forall e, ~ defines (concat g) e.
Proof.
  induction gs as [|g gs IH]; [left; exists []; constructor|]. destruct (defines_or (concat g)) as [(e & D)|(D & _)].
  - destruct IH as [(es & F)|(g' & Hg & Q)]; [left; exists (e :: es); constructor; auto|right; exists g'; split; [right|]; auto].
  - right. exists g. split; [left; reflexivity|exact D].
Qed.

(** ** lines after the last definition *)
Lemma rscan_neg l : Forall (fun r => r <> 40 /\ r <> 41) l -> rscan (-1) l = Some (-1).
Proof.
  induction 1 as [|r l (H1 & H2) F IH]; [reflexivity|]. cbn [rscan]. unfold depth. rewrite (eqb_f r 40), (eqb_f r 41) by assumption. exact IH.
Qed.
Lemma ascii_runes t : ascii_text t -> runes t = map bv t.
Proof.
  induction 1 as [|c t Hc Ht IH]; [reflexivity|]. rewrite dec1; [cbn [map]; rewrite IH; reflexivity|]. apply byte_in_bv in Hc. lia.
Qed.
Lemma getArguments_tail args last ft : Forall arg_ok args -> one_arg last -> ascii_text last -> ascii_text ft ->
  ~ In "("%char ft -> ~ In ")"%char ft ->
  getArguments (join (args ++ [last]) ++ [")"; ";"]%char ++ ft) = Ok (args ++ [last ++ firstn (length ft) ([")"; ";"]%char ++ ft)]).
Proof.
  intros Ha Hl U A N1 N2. unfold getArguments. pose proof (utf8_ascii last U) as Ul. rewrite fold_join by (auto; split; eauto).
  assert (Af : ascii_text ([")"; ";"]%char ++ ft)) by (constructor; [vm_compute; split; discriminate|constructor; [vm_compute; split; discriminate|exact A]]).
  rewrite (ascii_runes _ Af). cbn [app map fold_left]. rewrite splitStep_depth. change (depth 0 (bv ")")) with (-1). cbn [Z.eqb andb].
  rewrite splitStep_depth. change (depth (-1) (bv ";")) with (-1). cbn [Z.eqb andb].
  rewrite (rscan_fold _ _ _ _ (-1)).
  - rewrite <- !app_assoc. cbn [app]. change (runes last ++ bv ")" :: bv ";" :: map bv ft) with (runes last ++ map bv ([")"; ";"]%char ++ ft)).
    rewrite <- (ascii_runes _ Af), <- (runes_app _ last _ Ul).
    assert (As : ascii_text (last ++ [")"; ";"]%char ++ ft)) by (apply Forall_app; auto).
    destruct (utf8_roundtrip _ _ (utf8_ascii _ As)) as (R & L). rewrite L, R. rewrite !app_length. cbn [length]. rewrite ltb_f by lia.
    do 3 f_equal. replace (length last + (2 + length ft) - 2)%nat with (length last + length ft)%nat by lia. rewrite firstn_app_2. reflexivity.
  - apply rscan_neg. apply Forall_map. apply Forall_forall. intros c Hc. split; intros Q.
    + apply N1. replace "("%char with c; [exact Hc|]. apply bv_inj. exact Q.
    + apply N2. replace ")"%char with c; [exact Hc|]. apply bv_inj. exact Q.
Qed.
(* the entity with its last argument changed *)
Definition with_tail (e : entity) (ft : bytes) : entity :=
  mkEntity (eId e) (eType e) (removelast (eArgs e) ++ [last (eArgs e) [] ++ firstn (length ft) ([")"; ";"]%char ++ ft)]).
Lemma add_tail tab sp1 sp2 e ft : wf_entity e -> blank_text sp1 -> blank_text sp2 -> ascii_text ft -> ~ In "("%char ft -> ~ In ")"%char ft ->
  add tab (print_entity sp1 sp2 e ++ ft) = Ok (add_entity tab (with_tail e ft)).
Proof.
  intros (Hid & Hty & Hne & Hargs & Hlast) H1 H2 A N1 N2. unfold add, print_entity.
  replace ((eId e ++ "="%char :: sp1 ++ eType e ++ sp2 ++ "("%char :: join (eArgs e) ++ [")"%char; ";"%char]) ++ ft)
    with (eId e ++ "="%char :: (sp1 ++ eType e ++ sp2) ++ "("%char :: join (eArgs e) ++ [")"%char; ";"%char] ++ ft)
    by (rewrite <- !app_assoc; cbn [app]; rewrite <- !app_assoc; cbn [app]; rewrite <- !app_assoc; reflexivity).
  rewrite splitN2_found by exact Hid. rewrite zget0, zget1. cbn [rbind]. unfold tokenize.
  rewrite splitN2_found by (apply no_paren_type; assumption). rewrite zget0, zget1. cbn [rbind].
  destruct (exists_last Hne) as (a & l & E). unfold add_entity, with_tail, entity_def. cbn [eId eType eArgs].
  rewrite E in *. rewrite last_last in *. rewrite removelast_last.
  apply Forall_app in Hargs. destruct Hargs as (Fa & Fl). inversion Fl as [|? ? (O & _) _]; subst.
  rewrite getArguments_tail by assumption. cbn [rbind]. rewrite strip_type by assumption. reflexivity.
Qed.
Lemma lexLs_entities_tail es lss ls : Forall2 entity_lines es lss -> Forall wf_entity es ->
  Forall (fun l => ~ In "="%char l) ls -> ascii_text (concat ls) -> ~ In "("%char (concat ls) -> ~ In ")"%char (concat ls) ->
  forall e sp1 sp2 tab, wf_entity e -> blank_text sp1 -> blank_text sp2 ->
  lexLs (concat lss ++ ls) (print_entity sp1 sp2 e) tab =
    Ok (fold_left add_entity (removelast (e :: es) ++ [with_tail (last (e :: es) e) (concat ls)]) tab).
Proof.
  intros F W Hl A N1 N2. revert W. induction F as [|e1 g es lss He Hes IH]; intros W e sp1 sp2 tab We H1 H2.
  - cbn [concat app removelast last fold_left]. rewrite <- (app_nil_r ls) at 1. rewrite lexLs_rest by exact Hl. cbn [lexLs].
    apply add_tail; assumption.
  - inversion W as [|? ? W1 W2]; subst. destruct He as (s1 & s2 & first & rest & B1 & B2 & -> & Hin & Hr & E).
    cbn [concat]. rewrite <- app_assoc, <- app_comm_cons, lexLs_first by exact Hin.
    rewrite ltb_t by apply print_nonempty. rewrite add_print by assumption. cbn [rbind].
    rewrite lexLs_rest by exact Hr. cbn [concat] in E. rewrite E.
    rewrite (IH W2) by assumption. change (removelast (e :: e1 :: es)) with (e :: removelast (e1 :: es)). cbn [app fold_left].
    change (last (e :: e1 :: es) e) with (last (e1 :: es) e). do 3 f_equal.
    assert (D : forall d d', last (e1 :: es) d = last (e1 :: es) d').
    { clear. revert e1. induction es as [|x es IH]; intros e1 d d'; [reflexivity|]. change (last (e1 :: x :: es) d) with (last (x :: es) d). change (last (e1 :: x :: es) d') with (last (x :: es) d'). apply IH. }
    rewrite (D e1 e). reflexivity.
Qed.
Lemma lines_app ls1 f1 : lines_of ls1 f1 -> forall ls2 f2, lines_of ls2 f2 -> lines_of (ls1 ++ ls2) (f1 ++ f2).
Proof. induction 1 as [|l e ls f Hl He Hf IH]; intros ls2 f2 H2; [exact H2|]. rewrite <- !app_assoc. cbn [app]. constructor; auto. Qed.
Lemma Lex_tail es e f ls ft fuel : step_file (es ++ [e]) f -> Forall wf_entity (es ++ [e]) -> lines_of ls ft ->
  Forall (fun l => ~ In "="%char l) ls -> ascii_text (concat ls) -> ~ In "("%char (concat ls) -> ~ In ")"%char (concat ls) ->
  (length (f ++ ft) < fuel)%nat -> Lex fuel (f ++ ft) = Ok (fold_left add_entity (es ++ [with_tail e (concat ls)]) []).
Proof.
  intros H W L Hl A N1 N2 Hf. inversion H as [es' lss f' F Lf]; subst. unfold Lex.
  rewrite (lexLoop_lines _ _ (lines_app _ _ Lf _ _ L)) by exact Hf.
  assert (G : forall all, Forall2 entity_lines all lss -> Forall wf_entity all -> all <> [] -> forall d,
    lexLs (concat lss ++ ls) [] [] = Ok (fold_left add_entity (removelast all ++ [with_tail (last all d) (concat ls)]) [])).
  { clear - Hl A N1 N2. intros all F W Ne d. destruct F as [|e1 g es1 lss He F]; [congruence|]. inversion W as [|? ? W1 W2]; subst.
    destruct He as (s1 & s2 & first & rest & B1 & B2 & -> & Hin & Hr & E).
    cbn [concat]. rewrite <- app_assoc, <- app_comm_cons, lexLs_first by exact Hin. cbn [length Z.of_nat Z.ltb Z.compare rbind].
    rewrite lexLs_rest by exact Hr. cbn [concat] in E. cbn [app] in E |- *. rewrite E.
    rewrite (lexLs_entities_tail es1 lss ls F W2 Hl A N1 N2) by assumption.
    do 4 f_equal. destruct es1 as [|x es1]; [reflexivity|]. change (last (e1 :: x :: es1) e1) with (last (x :: es1) e1). change (last (e1 :: x :: es1) d) with (last (x :: es1) d).
    clear. f_equal. revert x. induction es1 as [|y es1 IH]; intros x; [reflexivity|]. change (last (x :: y :: es1) e1) with (last (y :: es1) e1). change (last (x :: y :: es1) d) with (last (y :: es1) d). apply IH. }
  rewrite (G (es ++ [e]) F W) with (d := e) by (destruct es; discriminate). rewrite removelast_last, last_last. reflexivity.
Qed.
