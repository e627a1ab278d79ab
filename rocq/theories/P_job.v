(** Proofs about the surfaces that Parse reports. *)
From Coq Require Import Ascii String ZArith List Bool Lia Permutation.
From Verif Require Import Base GoMap M_step M_job Spec_step Spec_lexany Spec_surface P_step P_parse P_parseany Props_step.
Import ListNotations.
Open Scope Z_scope.

Lemma runFn_job lex key : runFn lex FBSplineSurfaceWithKnots key = let! _ := surfaceJob lex key in Ok [].
Proof.
  unfold surfaceJob. cbn [runFn].
  repeat (match goal with
   | |- context [rbind (argument ?l ?k ?i) _] => destruct (argument l k i) as [?| |]
   | |- context [rbind (getArray ?l) _] => destruct (getArray l) as [?| |]
   | |- context [rbind (getMatrix ?l) _] => destruct (getMatrix l) as [?| |] end; cbn [rbind]; try reflexivity).
Qed.
Definition is_true (l : logical) : bool := match l with LTrue => true | _ => false end.
Definition job_of (s : surface) : bSplineSurface :=
  mkJob (sName s) (sUDegree s) (sVDegree s) (sPoints s) (sForm s) (is_true (sUClosed s)) (is_true (sVClosed s)) (is_true (sSelf s))
    (sUMult s) (sVMult s) (sUKnots s) (sVKnots s).
Lemma getLogical_text l : getLogical (logical_text l) = is_true l.
Proof. destruct l; reflexivity. Qed.
Lemma getArray_items l : items l -> getArray (array_print l) = Ok l.
Proof. intros (N & F). apply C64_getArray_inverts_print; assumption. Qed.
Lemma getMatrix_items m : m <> [] -> Forall items m -> getMatrix (array_print (map array_print m)) = Ok m.
Proof.
  intros N F. apply C64_getMatrix_inverts_print; [exact N| |]; (eapply Forall_impl; [|exact F]); intros a (Ha & Hb); assumption.
Qed.
Lemma surfaceJob_value lex key s rest ty : surface_ok s -> mget lex key = Some (mkDef ty (surface_args s ++ rest)) ->
  surfaceJob lex key = Ok (job_of s).
Proof.
  intros (_ & _ & _ & Np & Fp & _ & A1 & A2 & A3 & A4 & _) E. unfold surfaceJob.
  assert (A : forall i a, nth_error (surface_args s) i = Some a -> argument lex key (Z.of_nat i) = Ok a).
  { intros i a H. eapply argument_nth; [exact E|]. cbn [dArguments]. rewrite nth_error_app1; [exact H|]. apply nth_error_Some. congruence. }
  rewrite (A 0%nat _ eq_refl : argument lex key 0 = _). cbn [rbind].
  rewrite (A 1%nat _ eq_refl : argument lex key 1 = _). cbn [rbind].
  rewrite (A 2%nat _ eq_refl : argument lex key 2 = _). cbn [rbind].
  rewrite (A 3%nat _ eq_refl : argument lex key 3 = _). cbn [rbind]. rewrite (getMatrix_items _ Np Fp). cbn [rbind].
  rewrite (A 4%nat _ eq_refl : argument lex key 4 = _). cbn [rbind].
  rewrite (A 5%nat _ eq_refl : argument lex key 5 = _). cbn [rbind].
  rewrite (A 6%nat _ eq_refl : argument lex key 6 = _). cbn [rbind].
  rewrite (A 7%nat _ eq_refl : argument lex key 7 = _). cbn [rbind].
  rewrite (A 8%nat _ eq_refl : argument lex key 8 = _). cbn [rbind]. rewrite (getArray_items _ A1). cbn [rbind].
  rewrite (A 9%nat _ eq_refl : argument lex key 9 = _). cbn [rbind]. rewrite (getArray_items _ A2). cbn [rbind].
  rewrite (A 10%nat _ eq_refl : argument lex key 10 = _). cbn [rbind]. rewrite (getArray_items _ A3). cbn [rbind].
  rewrite (A 11%nat _ eq_refl : argument lex key 11 = _). cbn [rbind]. rewrite (getArray_items _ A4). cbn [rbind].
  rewrite !getLogical_text. reflexivity.
Qed.
(** a surface is a well-formed entity *)
Lemma item_array l : items l -> item (array_print l).
Proof.
  intros (N & F). split.
  - apply one_arg_array. exists l. auto.
  - apply utf8_parens_join. eapply Forall_impl; [|exact F]. intros a (_ & H). exact H.
Qed.
Lemma item_chars (t : text) : forallb (fun c => negb (Ascii.eqb c "(") && negb (Ascii.eqb c ")") && negb (Ascii.eqb c ",") && (bv c <=? 127)) t = true -> item t.
Proof.
  intros H. rewrite forallb_forall in H. split.
  - induction t as [|c t IH]; [constructor|]. apply (arg_app [c] t).
    + specialize (H c (or_introl eq_refl)). repeat (apply andb_true_iff in H; destruct H as (H & ?)).
      constructor; intros ->; cbv in *; discriminate.
    + apply IH. intros x Hx. apply H. right. exact Hx.
  - exists (length t). apply utf8_ascii. apply Forall_forall. intros c Hc. specialize (H c Hc). apply andb_true_iff in H.
    destruct H as (_ & H). unfold byte_in. unfold bv in H. lia.
Qed.
Lemma surface_wf id s : ~ In "="%char id -> surface_ok s -> wf_entity (surface_entity id s).
Proof.
  intros Hi (H1 & H2 & H3 & Np & Fp & H4 & A1 & A2 & A3 & A4 & H5 & H6). split; [exact Hi|]. split.
  { unfold surface_entity. cbn [eType]. apply Forall_forall. intros c Hc. cbn in Hc.
    assert (K : forall c, (65 <= N_of_ascii c <= 90)%N \/ c = "_"%char -> keyword_char c) by (unfold keyword_char, byte_in; tauto).
    apply K. repeat (destruct Hc as [<-|Hc]; [first [right; reflexivity | left; vm_compute; split; discriminate]|]). destruct Hc. }
  split; [discriminate|]. split; [|exact H6].
  assert (L : forall l, item (logical_text l)) by (intros []; apply item_chars; reflexivity).
  assert (P : item (array_print (map array_print (sPoints s)))).
  { apply item_array. split; [destruct (sPoints s); [congruence|discriminate]|]. rewrite Forall_map. eapply Forall_impl; [|exact Fp].
    apply item_array. }
  unfold surface_entity, surface_args. cbn [eArgs]. repeat (apply Forall_cons; [first [assumption | apply L | apply item_array; assumption]|]). constructor.
Qed.
Lemma surface_lexed es f fuel id s : es <> [] -> step_file es f -> Forall wf_entity es -> (length f < fuel)%nat ->
  lookup_last es id = Some (surface_entity id s) -> surface_ok s ->
  exists tab, Lex fuel f = Ok tab /\ surfaceJob tab (string_of_list_ascii id) = Ok (job_of s).
Proof.
  intros N S W L E O. destruct (C65_lex_recovers_entities es f fuel N S W L) as (tab & T & _ & G). exists tab. split; [exact T|].
  specialize (G id). rewrite E in G. cbn [eType eArgs surface_entity] in G. apply (surfaceJob_value tab _ s [] (lit "B_SPLINE_SURFACE_WITH_KNOTS") O).
  rewrite app_nil_r. exact G.
Qed.

(** ** The report can be read back *)
Lemma split_at (c : ascii) (u v x y : bytes) : ~ In c u -> ~ In c v -> u ++ c :: x = v ++ c :: y -> u = v /\ x = y.
Proof.
  revert v. induction u as [|a u IH]; intros [|b v] Hu Hv E; cbn [app] in E.
  - injection E as E. auto.
  - injection E as E1 E2. subst b. exfalso. apply Hv. left. reflexivity.
  - injection E as E1 E2. subst a. exfalso. apply Hu. left. reflexivity.
  - injection E as -> E. destruct (IH v) as (-> & ->); [intros H; apply Hu; right; exact H|intros H; apply Hv; right; exact H|exact E|]. auto.
Qed.
Lemma println_inj lb u v x y : ~ In LF u -> ~ In LF v -> println lb u ++ x = println lb v ++ y -> u = v /\ x = y.
Proof.
  intros Hu Hv E. unfold println in E. rewrite <- !app_assoc in E. apply app_inv_head in E. cbn [app] in E. injection E as E.
  rewrite <- !app_assoc in E. cbn [app] in E. apply (split_at LF); assumption.
Qed.
Lemma spaced_inj l l' : l <> [] -> l' <> [] -> Forall (fun t => ~ In " "%char t) l -> Forall (fun t => ~ In " "%char t) l' -> spaced l = spaced l' -> l = l'.
Proof.
  revert l'. induction l as [|a l IH]; intros l' N N' F F' E; [congruence|]. destruct l' as [|b l']; [congruence|].
  inversion_clear F as [|? ? Ha Fl]. inversion_clear F' as [|? ? Hb Fl'].
  destruct l as [|a2 l], l' as [|b2 l']; cbn [spaced] in E.
  - congruence.
  - exfalso. apply Ha. rewrite E. apply in_app_iff. right. left. reflexivity.
  - exfalso. apply Hb. rewrite <- E. apply in_app_iff. right. left. reflexivity.
  - change (a ++ " "%char :: spaced (a2 :: l) = b ++ " "%char :: spaced (b2 :: l')) in E.
    apply split_at in E; [|assumption..]. destruct E as (-> & E). f_equal. apply IH; try assumption; discriminate.
Qed.
Lemma showSlice_inj l l' : l <> [] -> l' <> [] -> Forall (fun t => ~ In " "%char t) l -> Forall (fun t => ~ In " "%char t) l' -> showSlice l = showSlice l' -> l = l'.
Proof.
  intros N N' F F' E. unfold showSlice in E. injection E as E. apply app_inj_tail in E. destruct E as (E & _). apply spaced_inj; assumption.
Qed.
Definition words (l : list bytes) : Prop := l <> [] /\ Forall word l.
Lemma word_no c t : word t -> In c [LFc; " "; "["; "]"]%char -> ~ In c t.
Proof. intros W H I. exact (W c I H). Qed.
Lemma words_spaced_no l : Forall word l -> ~ In "]"%char (spaced l).
Proof.
  induction l as [|a l IH]; intros F; [intros []|]. inversion_clear F. destruct l as [|b l].
  - cbn [spaced]. apply word_no; [assumption|cbn; tauto].
  - change (spaced (a :: b :: l)) with (a ++ " "%char :: spaced (b :: l)). rewrite in_app_iff. intros [I|[I|I]].
    + revert I. apply word_no; [assumption|cbn; tauto].
    + discriminate I.
    + exact (IH H0 I).
Qed.
Lemma words_inj l l' : words l -> words l' -> showSlice l = showSlice l' -> l = l'.
Proof.
  intros (N & F) (N' & F'). apply showSlice_inj; try assumption; (eapply Forall_impl; [|eassumption]); intros a W; apply word_no; [assumption|cbn; tauto|assumption|cbn; tauto].
Qed.
Lemma matrix_spaced_inj m m' : m <> [] -> m' <> [] -> Forall words m -> Forall words m' -> spaced (map showSlice m) = spaced (map showSlice m') -> m = m'.
Proof.
  revert m'. induction m as [|a m IH]; intros m' N N' F F' E; [congruence|]. destruct m' as [|b m']; [congruence|].
  inversion_clear F as [|? ? Ha Fm]. inversion_clear F' as [|? ? Hb Fm'].
  assert (K : forall x y, showSlice a ++ x = showSlice b ++ y -> a = b /\ x = y).
  { intros x y Q. unfold showSlice in Q. cbn [app] in Q. injection Q as Q. rewrite <- !app_assoc in Q. cbn [app] in Q.
    apply split_at in Q; [|apply words_spaced_no; apply Ha|apply words_spaced_no; apply Hb]. destruct Q as (Q & ->). split; [|reflexivity].
    apply words_inj; [assumption..|]. unfold showSlice. rewrite Q. reflexivity. }
  cbn [map] in E. destruct m as [|a2 m], m' as [|b2 m'].
  - cbn [map spaced] in E. rewrite <- (app_nil_r (showSlice a)), <- (app_nil_r (showSlice b)) in E. apply K in E. destruct E as (-> & _). reflexivity.
  - exfalso. change (showSlice a = showSlice b ++ " "%char :: spaced (map showSlice (b2 :: m'))) in E.
    rewrite <- (app_nil_r (showSlice a)) in E. apply K in E. destruct E as (_ & E). discriminate.
  - exfalso. change (showSlice a ++ " "%char :: spaced (map showSlice (a2 :: m)) = showSlice b) in E.
    rewrite <- (app_nil_r (showSlice b)) in E. apply K in E. destruct E as (_ & E). discriminate.
  - change (showSlice a ++ " "%char :: spaced (map showSlice (a2 :: m)) = showSlice b ++ " "%char :: spaced (map showSlice (b2 :: m'))) in E.
    apply K in E. destruct E as (-> & E). injection E as E. f_equal. apply IH; try assumption; discriminate.
Qed.
Lemma matrix_inj m m' : m <> [] -> m' <> [] -> Forall words m -> Forall words m' -> showSlice (map showSlice m) = showSlice (map showSlice m') -> m = m'.
Proof.
  intros N N' F F' E. unfold showSlice in E at 1 3. injection E as E. apply app_inj_tail in E. destruct E as (E & _). apply matrix_spaced_inj; assumption.
Qed.
Lemma spaced_no_LF l : Forall (fun t => ~ In LF t) l -> ~ In LF (spaced l).
Proof.
  induction l as [|a l IH]; intros F; [intros []|]. inversion_clear F. destruct l as [|b l]; [assumption|].
  change (spaced (a :: b :: l)) with (a ++ " "%char :: spaced (b :: l)). rewrite in_app_iff. intros [I|[I|I]]; [tauto|discriminate I|exact (IH H0 I)].
Qed.
Lemma slice_no_LF l : Forall (fun t => ~ In LF t) l -> ~ In LF (showSlice l).
Proof.
  intros F [I|I]; [discriminate I|]. apply in_app_iff in I. destruct I as [I|[I|[]]]; [|discriminate I]. exact (spaced_no_LF l F I).
Qed.
Lemma words_no_LF l : words l -> ~ In LF (showSlice l).
Proof. intros (_ & F). apply slice_no_LF. eapply Forall_impl; [|exact F]. intros a W. apply word_no; [exact W|cbn; tauto]. Qed.
Lemma bool_no_LF b : ~ In LF (showBool b).
Proof. destruct b; cbn; intuition discriminate. Qed.
Lemma bool_inj b b' : showBool b = showBool b' -> b = b'.
Proof. destruct b, b'; try reflexivity; discriminate. Qed.
Definition readable (j : bSplineSurface) : Prop :=
  plain [LFc] (name j) /\ plain [LFc] (uDegree j) /\ plain [LFc] (vDegree j) /\ plain [LFc] (surfaceForm j) /\
  controlPointsList j <> [] /\ Forall words (controlPointsList j) /\ words (uMultiplicities j) /\ words (vMultiplicities j) /\
  words (uKnots j) /\ words (vKnots j).
Lemma plain_LF t : plain [LFc] t -> ~ In LF t.
Proof. intros P I. apply (P LF I). left. reflexivity. Qed.
Lemma print_inj j j' : readable j -> readable j' -> print j = print j' -> j = j'.
Proof.
  intros (P1 & P2 & P3 & P4 & N & M & W1 & W2 & W3 & W4) (P1' & P2' & P3' & P4' & N' & M' & W1' & W2' & W3' & W4') E.
  assert (ML : forall m, Forall words m -> ~ In LF (showSlice (map showSlice m))).
  { intros m F. apply slice_no_LF. rewrite Forall_map. eapply Forall_impl; [|exact F]. exact words_no_LF. }
  unfold print in E. 
  apply println_inj in E; [|apply plain_LF; assumption..]. destruct E as (E1 & E).
  apply println_inj in E; [|apply plain_LF; assumption..]. destruct E as (E2 & E).
  apply println_inj in E; [|apply plain_LF; assumption..]. destruct E as (E3 & E).
  apply println_inj in E; [|apply ML; assumption..]. destruct E as (E4 & E).
  apply println_inj in E; [|apply plain_LF; assumption..]. destruct E as (E5 & E).
  apply println_inj in E; [|apply bool_no_LF..]. destruct E as (E6 & E).
  apply println_inj in E; [|apply bool_no_LF..]. destruct E as (E7 & E).
  apply println_inj in E; [|apply bool_no_LF..]. destruct E as (E8 & E).
  apply println_inj in E; [|apply words_no_LF; assumption..]. destruct E as (E9 & E).
  apply println_inj in E; [|apply words_no_LF; assumption..]. destruct E as (E10 & E).
  apply println_inj in E; [|apply words_no_LF; assumption..]. destruct E as (E11 & E).
  rewrite <- (app_nil_r (println "vKnots:" (showSlice (vKnots j)))), <- (app_nil_r (println "vKnots:" (showSlice (vKnots j')))) in E.
  apply println_inj in E; [|apply words_no_LF; assumption..]. destruct E as (E12 & _).
  apply matrix_inj in E4; [|assumption..]. apply bool_inj in E6, E7, E8. apply words_inj in E9, E10, E11, E12; [|assumption..].
  destruct j, j'. cbn in *. congruence.
Qed.

(** ** Which surfaces are reported *)
Definition FB := FBSplineSurfaceWithKnots.
Section Key.
Context (lex : SymbolTable) (k : string).
Definition own (s : parseState) : Prop := snd s = k -> fst s = FB.
Definition leaf (s : parseState) : Prop := own s /\ forall new, runFn lex (fst s) (snd s) = Ok new -> new = [].
Definition lvl1 (visited : list string) (s : parseState) : Prop :=
  In (snd s) visited \/ (own s /\ forall new, runFn lex (fst s) (snd s) = Ok new -> Forall leaf new).
Lemma leaf_lvl1 v s : leaf s -> lvl1 v s.
Proof. intros (O & L). right. split; [exact O|]. intros new E. rewrite (L new E). constructor. Qed.
Lemma inferLoop_own fuel : forall next visited ran v r, Forall (lvl1 visited) next -> Forall own ran ->
  inferLoop fuel lex next visited ran = Ok (v, r) -> Forall own r.
Proof.
  induction fuel as [|fuel IH]; intros [|[fn key] next] visited ran v r N F E; cbn [inferLoop] in E; try congruence.
  inversion_clear N as [|? ? H Hn]. destruct (visitedKey visited key) eqn:V.
  - exact (IH _ _ _ _ _ Hn F E).
  - apply visitedKey_false in V. destruct H as [H|(O & H)]; [contradiction|]. cbn [fst snd] in H.
    destruct (runFn lex fn key) as [new| |]; cbn [rbind] in E; try discriminate E.
    refine (IH _ _ _ _ _ _ _ E).
    + apply Forall_app. split.
      * eapply Forall_impl; [|exact Hn]. intros s [I|I]; [left; right; exact I|right; exact I].
      * eapply Forall_impl; [|exact (H new eq_refl)]. apply leaf_lvl1.
    + apply Forall_app. split; [exact F|]. constructor; [exact O|constructor].
Qed.
Lemma root_own fuel s visited ran v r : own s -> (forall new, runFn lex (fst s) (snd s) = Ok new -> Forall (lvl1 [snd s]) new) ->
  Forall own ran -> inferLoop fuel lex [s] visited ran = Ok (v, r) -> Forall own r.
Proof.
  intros O H F E. destruct fuel as [|fuel]; destruct s as [fn key]; cbn [inferLoop] in E; [discriminate|]. cbn [fst snd] in *.
  destruct (visitedKey visited key) eqn:V.
  - destruct fuel; cbn [inferLoop] in E; congruence.
  - destruct (runFn lex fn key) as [new| |]; cbn [rbind] in E; try discriminate E. refine (inferLoop_own fuel _ _ _ _ _ _ _ E).
    + eapply Forall_impl; [|exact (H new eq_refl)]. intros x [I|I]; [left; destruct I as [<-|[]]; left; reflexivity|right; exact I].
    + apply Forall_app. split; [exact F|]. constructor; [exact O|constructor].
Qed.
Lemma argument_inv key d i a : mget lex key = Some d -> argument lex key (Z.of_nat i) = Ok a -> nth_error (dArguments d) i = Some a.
Proof.
  intros E. unfold argument, lexeme. rewrite E. unfold zget. destruct (_ <? _); [discriminate|]. rewrite Nat2Z.id.
  destruct (nth_error _ i); congruence.
Qed.
Lemma argument_def key i a : argument lex key (Z.of_nat i) = Ok a -> exists d, mget lex key = Some d.
Proof. intros E. destruct (mget lex key) as [d|] eqn:M; [eauto|]. exfalso. exact (missing_arg _ _ _ _ M E). Qed.
Context (db : Definition_) (Hk : mget lex k = Some db) (Hty : dType db = lit "B_SPLINE_SURFACE_WITH_KNOTS").
Lemma bridge_B : bridge db = FB.
Proof. unfold bridge. rewrite Hty. reflexivity. Qed.
Lemma look_k : look_of lex k = Some (lit "B_SPLINE_SURFACE_WITH_KNOTS", dArguments db).
Proof. unfold look_of. rewrite Hk, <- Hty. reflexivity. Qed.
Lemma trim_B : trimSpace (lit "B_SPLINE_SURFACE_WITH_KNOTS") = lit "B_SPLINE_SURFACE_WITH_KNOTS".
Proof. reflexivity. Qed.
Lemma quiet_leaf s : quiet (fst s) -> snd s <> k -> leaf s.
Proof.
  intros Q N. split; [intros H; congruence|]. intros new E. rewrite (quiet_run lex _ _ Q) in E. congruence.
Qed.
Lemma cart_leaf key : key <> k -> leaf (FCartesianPoint, key).
Proof.
  intros N. split; [intros H; cbn in H; congruence|]. intros new E. cbn [runFn fst snd] in E.
  destruct (argument lex key 1); cbn [rbind] in E; try discriminate. destruct (getArray _); cbn [rbind] in E; congruence.
Qed.
Lemma sph_leaf key : key <> k -> leaf (FSphericalSurface, key).
Proof.
  intros N. split; [intros H; cbn in H; congruence|]. intros new E. cbn [runFn fst snd] in E.
  destruct (argument lex key 2); cbn [rbind] in E; congruence.
Qed.
Lemma bs_leaf : leaf (FB, k).
Proof.
  split; [intros _; reflexivity|]. intros new E. cbn [fst snd] in E. unfold FB in E. rewrite runFn_job in E.
  destruct (surfaceJob lex k); cbn [rbind] in E; congruence.
Qed.
Lemma lit_eq a : str a = k -> a = lit k.
Proof. intros <-. symmetry. apply lit_str. Qed.
Lemma type_lit d t : str (dType d) = t -> dType d = lit t.
Proof. intros <-. symmetry. apply lit_str. Qed.
Lemma root_lvl1 j d : mget lex j = Some d -> ~ claims (look_of lex) k j ->
  own (bridge d, j) /\ forall new, runFn lex (bridge d) j = Ok new -> Forall (lvl1 [j]) new.
Proof.
  intros M NC. split.
  { intros H. cbn in H. subst j. assert (d = db) by congruence. subst d. exact bridge_B. }
  assert (C : forall ty, dType d = lit ty -> forall P, 
     (ty = "AXIS_2_PLACEMENT_3D"%string /\ nth_error (dArguments d) 1 = Some (lit k) \/
      ty = "PRODUCT_DEFINITION"%string /\ nth_error (dArguments d) 2 = Some (lit k) \/
      ty = "PRODUCT_DEFINITION_SHAPE"%string /\
      (nth_error (dArguments d) 2 = Some (lit k) \/
       exists r ty' args', nth_error (dArguments d) 2 = Some (lit r) /\ r <> j /\ look_of lex r = Some (ty', args') /\
         nth_error args' 2 = Some (lit k))) -> P).
  { intros ty T P H. exfalso. apply NC. exists ty, (dArguments d). split; [|exact H]. unfold look_of. rewrite M, T. reflexivity. }
  intros new E. unfold bridge in E.
  repeat match type of E with context [String.eqb ?x ?t] => destruct (String.eqb_spec x t) as [T|_] end; cbn [runFn] in E;
    try (assert (new = []) by congruence; subst new; constructor).
  - (* axis *) apply type_lit in T. destruct (argument lex j 1) as [a| |] eqn:A; cbn [rbind] in E; try discriminate E.
    assert (Nk : str a <> k). { intros H. apply lit_eq in H. apply (C _ T). left. split; [reflexivity|]. rewrite <- H. exact (argument_inv j d 1 a M A). }
    assert (new = [(FCartesianPoint, str a); (FDirection, str a); (FDirection, str a)]) by congruence. subst new.
    constructor; [apply leaf_lvl1, cart_leaf; exact Nk|]. constructor; [apply leaf_lvl1, quiet_leaf; [exact I|exact Nk]|]. constructor; [apply leaf_lvl1, quiet_leaf; [exact I|exact Nk]|constructor].
  - (* surface *) change FBSplineSurfaceWithKnots with FB in *. fold (runFn lex FBSplineSurfaceWithKnots j) in E.
    assert (E' : runFn lex FBSplineSurfaceWithKnots j = Ok new) by exact E. rewrite runFn_job in E'.
    destruct (surfaceJob lex j); cbn [rbind] in E'; try discriminate E'. assert (new = []) by congruence. subst new. constructor.
  - (* face *) destruct (argument lex j 1) as [a| |] eqn:A; cbn [rbind] in E; try discriminate E.
    assert (Nk : forall t, String.eqb (str (trimSpace (dType (lexeme lex (str a))))) t = true -> t <> "B_SPLINE_SURFACE_WITH_KNOTS"%string -> str a <> k).
    { intros t Q N H. rewrite H in Q. unfold lexeme in Q. rewrite Hk, Hty, trim_B in Q. apply String.eqb_eq in Q. apply N. rewrite <- Q. reflexivity. }
    destruct (String.eqb _ "SPHERICAL_SURFACE") eqn:Q1.
    { assert (new = [(FSphericalSurface, str a)]) by congruence. subst new. constructor; [|constructor]. apply leaf_lvl1, sph_leaf.
      apply (Nk _ Q1). discriminate. }
    destruct (String.eqb _ "TOROIDAL_SURFACE") eqn:Q2.
    { assert (new = [(FToroidalSurface, str a)]) by congruence. subst new. constructor; [|constructor]. apply leaf_lvl1, quiet_leaf; [exact I|].
      apply (Nk _ Q2). discriminate. }
    clear - E. injection E as <-. constructor.
  - (* product definition *) apply type_lit in T. destruct (argument lex j 2) as [a| |] eqn:A; cbn [rbind] in E; try discriminate E.
    assert (Nk : str a <> k). { intros H. apply lit_eq in H. apply (C _ T). right. left. split; [reflexivity|]. rewrite <- H. exact (argument_inv j d 2 a M A). }
    assert (new = [(FProductDefinitionFormation, str a); (FProductDefinitionContext, str a)]) by congruence. subst new.
    constructor; [apply leaf_lvl1, quiet_leaf; [exact I|exact Nk]|]. constructor; [apply leaf_lvl1, quiet_leaf; [exact I|exact Nk]|constructor].
  - (* shape *) apply type_lit in T. destruct (argument lex j 2) as [a| |] eqn:A; cbn [rbind] in E; try discriminate E.
    assert (Nk : str a <> k). { intros H. apply lit_eq in H. apply (C _ T). right. right. split; [reflexivity|]. left. rewrite <- H. exact (argument_inv j d 2 a M A). }
    assert (new = [(FProductDefinition, str a)]) by congruence. subst new. constructor; [|constructor].
    destruct (String.eqb_spec (str a) j) as [Ej|Nj]; [left; left; symmetry; exact Ej|]. right. split; [intros H; cbn in H; congruence|].
    intros new E2. cbn [runFn fst snd] in E2. destruct (argument lex (str a) 2) as [b| |] eqn:B; cbn [rbind] in E2; try discriminate E2.
    assert (Nb : str b <> k).
    { intros H. apply lit_eq in H. apply (C _ T). right. right. split; [reflexivity|]. right.
      destruct (argument_def (str a) 2 b B) as (d' & M'). exists (str a), (dType d'), (dArguments d').
      split; [rewrite lit_str; exact (argument_inv j d 2 a M A)|]. split; [exact Nj|]. split; [unfold look_of; rewrite M'; reflexivity|].
      rewrite <- H. exact (argument_inv (str a) d' 2 b M' B). }
    assert (new = [(FProductDefinitionFormation, str b); (FProductDefinitionContext, str b)]) by congruence. subst new.
    constructor; [apply quiet_leaf; [exact I|exact Nb]|]. constructor; [apply quiet_leaf; [exact I|exact Nb]|constructor].
  - (* sphere *) destruct (argument lex j 2) as [a| |] eqn:A; cbn [rbind] in E; try discriminate E. assert (new = []) by congruence. subst new. constructor.
Qed.
Lemma Parse_own fuel ord ran : NoDup (map fst lex) -> order_ok ord -> (forall j, ~ claims (look_of lex) k j) ->
  Parse fuel ord lex = Ok ran -> Forall own ran.
Proof.
  intros N Ho NC E. unfold Parse in E.
  assert (H : forall j d, In (j, d) (ord lex) -> mget lex j = Some d).
  { intros j d H. apply mget_In; [exact N|]. apply (Permutation_in _ (Permutation_sym (Ho lex))). exact H. }
  assert (S : forall entries visited ran v r, (forall j d, In (j, d) entries -> mget lex j = Some d) -> Forall own ran ->
     parseEntries fuel lex entries visited ran = Ok (v, r) -> Forall own r).
  { clear E. induction entries as [|[j d] entries IH]; intros visited ran0 v r Q F E; cbn [parseEntries] in E; [congruence|].
    destruct (inferLoop fuel lex [(bridge d, j)] visited ran0) as [[v1 r1]| |] eqn:I; cbn [rbind] in E; try discriminate E.
    assert (M : mget lex j = Some d) by (apply Q; left; reflexivity). destruct (root_lvl1 j d M (NC j)) as (O & L).
    refine (IH _ _ _ _ _ _ E); [intros j' d' Hj; apply Q; right; exact Hj|]. exact (root_own fuel (bridge d, j) visited ran0 v1 r1 O L F I). }
  destruct (parseEntries fuel lex (ord lex) [] []) as [[v r]| |] eqn:P; cbn [rbind] in E; try discriminate E.
  assert (r = ran) by congruence. subst r. exact (S _ _ _ _ _ H (Forall_nil _) P).
Qed.
(** a key passed on to another handler *)
Lemma inferLoop_prefix fuel : forall next visited ran v r, inferLoop fuel lex next visited ran = Ok (v, r) ->
  (forall s, In s ran -> In s r).
Proof.
  induction fuel as [|fuel IH]; intros [|[fn key] next] visited ran v r E s I; cbn [inferLoop] in E; try congruence.
  destruct (visitedKey visited key); [exact (IH _ _ _ _ _ E s I)|].
  destruct (runFn lex fn key) as [new| |]; cbn [rbind] in E; try discriminate E. refine (IH _ _ _ _ _ E s _). apply in_app_iff. left. exact I.
Qed.
Lemma inferLoop_step fuel fn key next visited ran v r : inferLoop fuel lex ((fn, key) :: next) visited ran = Ok (v, r) -> ~ In key visited ->
  exists fuel' new, runFn lex fn key = Ok new /\ inferLoop fuel' lex (next ++ new) (key :: visited) (ran ++ [(fn, key)]) = Ok (v, r).
Proof.
  intros E V. destruct fuel as [|fuel]; cbn [inferLoop] in E; [discriminate|]. apply visitedKey_false in V. rewrite V in E.
  destruct (runFn lex fn key) as [new| |]; cbn [rbind] in E; try discriminate E. eauto.
Qed.
Lemma inferLoop_head fuel fn key next visited ran v r : inferLoop fuel lex ((fn, key) :: next) visited ran = Ok (v, r) -> ~ In key visited ->
  In (fn, key) r.
Proof.
  intros E V. destruct (inferLoop_step _ _ _ _ _ _ _ _ E V) as (f & new & _ & E'). apply (inferLoop_prefix _ _ _ _ _ _ E').
  apply in_app_iff. right. left. reflexivity.
Qed.
Lemma parseEntries_prefix fuel entries : forall visited ran v r, parseEntries fuel lex entries visited ran = Ok (v, r) -> (forall s, In s ran -> In s r).
Proof.
  induction entries as [|[j d] entries IH]; intros visited ran v r E s I; cbn [parseEntries] in E; [congruence|].
  destruct (inferLoop fuel lex [(bridge d, j)] visited ran) as [[v1 r1]| |] eqn:L; cbn [rbind] in E; try discriminate E.
  apply (IH _ _ _ _ E). exact (inferLoop_prefix _ _ _ _ _ _ L s I).
Qed.
Lemma claimed_run j d fuel v r : mget lex j = Some d -> claims (look_of lex) k j ->
  inferLoop fuel lex [(bridge d, j)] [] [] = Ok (v, r) -> exists fn, fn <> FB /\ In (fn, k) r.
Proof.
  intros M (ty & args & L & H) E. unfold look_of in L. rewrite M in L. 
  assert (T : dType d = lit ty) by (unfold lit; congruence). assert (A : dArguments d = args) by congruence. clear L. subst args.
  assert (G : forall i a, nth_error (dArguments d) i = Some a -> argument lex j (Z.of_nat i) = Ok a) by (intros i a; apply argument_nth; exact M).
  assert (B : forall t, ty = t -> bridge d = bridge (mkDef (lit t) [])) by (intros t <-; unfold bridge; rewrite T; reflexivity).
  assert (Nj : forall t, ty = t -> t <> "B_SPLINE_SURFACE_WITH_KNOTS"%string -> k <> j).
  { intros t E1 Nt Q. rewrite <- Q, Hk in M. apply Nt. assert (db = d) by congruence. subst d. rewrite Hty, <- E1 in *. 
    apply (f_equal str) in T. rewrite !str_lit in T. congruence. }
  destruct (inferLoop_step _ _ _ _ _ _ _ _ E (fun x => x)) as (f & new & R & E'). cbn [app] in E'.
  destruct H as [(Ty & N1)|[(Ty & N2)|(Ty & N2)]].
  - replace (bridge d) with FAxis2Placement3D in R by (rewrite (B _ Ty); reflexivity). cbn [runFn] in R. rewrite (G 1%nat _ N1 : argument lex j 1 = _) in R. cbn [rbind] in R.
    fold (lit k) in R. rewrite str_lit in R. assert (new = [(FCartesianPoint, k); (FDirection, k); (FDirection, k)]) by congruence. subst new.
    exists FCartesianPoint. split; [discriminate|]. apply (inferLoop_head _ _ _ _ _ _ _ _ E'). intros [Q|[]]. apply (Nj _ Ty); [discriminate|congruence].
  - replace (bridge d) with FProductDefinition in R by (rewrite (B _ Ty); reflexivity). cbn [runFn] in R. rewrite (G 2%nat _ N2 : argument lex j 2 = _) in R. cbn [rbind] in R.
    fold (lit k) in R. rewrite str_lit in R. assert (new = [(FProductDefinitionFormation, k); (FProductDefinitionContext, k)]) by congruence. subst new.
    exists FProductDefinitionFormation. split; [discriminate|]. apply (inferLoop_head _ _ _ _ _ _ _ _ E'). intros [Q|[]]. apply (Nj _ Ty); [discriminate|congruence].
  - assert (Nkj : k <> j) by (apply (Nj _ Ty); discriminate).
    assert (D : nth_error (dArguments d) 2 = Some (lit k) -> exists fn, fn <> FB /\ In (fn, k) r).
    { intros N. replace (bridge d) with FProductDefinitionShape in R by (rewrite (B _ Ty); reflexivity). cbn [runFn] in R. rewrite (G 2%nat _ N : argument lex j 2 = _) in R. cbn [rbind] in R.
      rewrite str_lit in R. assert (new = [(FProductDefinition, k)]) by congruence. subst new.
      exists FProductDefinition. split; [discriminate|]. apply (inferLoop_head _ _ _ _ _ _ _ _ E'). intros [Q|[]]. congruence. }
    destruct N2 as [N|(q & ty' & args' & N & Nq & Lq & Nb)]; [exact (D N)|].
    destruct (String.eqb_spec q k) as [->|Nqk]; [exact (D N)|].
    replace (bridge d) with FProductDefinitionShape in R by (rewrite (B _ Ty); reflexivity). cbn [runFn] in R. rewrite (G 2%nat _ N : argument lex j 2 = _) in R. cbn [rbind] in R.
    fold (lit q) in R. rewrite str_lit in R. assert (new = [(FProductDefinition, q)]) by congruence. subst new.
    destruct (inferLoop_step _ _ _ _ _ _ _ _ E' (fun x => match x with or_introl e => Nq (eq_sym e) | or_intror e => e end)) as (f2 & new & R2 & E2).
    unfold look_of in Lq. destruct (mget lex q) as [dq|] eqn:Mq; [|discriminate]. assert (Aq : dArguments dq = args') by congruence. subst args'.
    cbn [runFn] in R2. rewrite (argument_nth lex q dq 2 _ Mq Nb : argument lex q 2 = _) in R2. cbn [rbind] in R2.
    fold (lit k) in R2. rewrite str_lit in R2. assert (new = [(FProductDefinitionFormation, k); (FProductDefinitionContext, k)]) by congruence. subst new.
    exists FProductDefinitionFormation. split; [discriminate|]. apply (inferLoop_head _ _ _ _ _ _ _ _ E2). intros [Q|[Q|[]]]; congruence.
Qed.
Lemma reported_iff fuel : NoDup (map fst lex) -> safe_table (look_of lex) -> (1 + 3 * length lex <= fuel)%nat ->
  ((forall ord, order_ok ord -> exists ran, Parse fuel ord lex = Ok ran /\ In (FB, k) ran) <-> forall j, ~ claims (look_of lex) k j).
Proof.
  intros N W L. assert (Tm : forall ord, order_ok ord -> exists ran, Parse fuel ord lex = Ok ran /\ NoDup (map snd ran) /\ forall x, In x (map fst lex) -> In x (map snd ran)).
  { intros ord Ho. destruct (Parse_terminates fuel ord lex L Ho) as [E|(r & E & Q)]; [exfalso; exact (Parse_fine fuel ord lex N W Ho E)|eauto]. }
  split.
  - intros H j C. pose proof (C) as (ty & args & Lj & _). unfold look_of in Lj. destruct (mget lex j) as [d|] eqn:M; [|discriminate]. clear Lj.
    destruct (H (first_key j) (first_key_ok j)) as (ran & E & I). destruct (Tm (first_key j) (first_key_ok j)) as (ran' & E' & ND & _).
    assert (ran' = ran) by congruence. subst ran'. destruct (first_key_head j d lex N M) as (m' & F). unfold Parse in E. rewrite F in E. cbn [parseEntries] in E.
    destruct (inferLoop fuel lex [(bridge d, j)] [] []) as [[v r]| |] eqn:Lp; cbn [rbind] in E; try discriminate E.
    destruct (claimed_run j d fuel v r M C Lp) as (fn & Nf & If).
    destruct (parseEntries fuel lex m' v r) as [[v2 r2]| |] eqn:P; cbn [rbind] in E; try discriminate E. assert (r2 = ran) by congruence. subst r2.
    assert (I2 : In (fn, k) ran) by exact (parseEntries_prefix _ _ _ _ _ _ P _ If). apply Nf. clear - ND I I2.
    induction ran as [|[f x] ran IH]; [destruct I|]. cbn [map snd] in ND. inversion_clear ND as [|? ? Nx ND'].
    destruct I as [I|I], I2 as [I2|I2].
    + congruence.
    + exfalso. apply Nx. assert (x = k) by congruence. subst x. exact (in_map snd _ _ I2).
    + exfalso. apply Nx. assert (x = k) by congruence. subst x. exact (in_map snd _ _ I).
    + exact (IH I ND' I2).
  - intros NC ord Ho. destruct (Tm ord Ho) as (ran & E & _ & A). exists ran. split; [exact E|].
    assert (I : In k (map snd ran)). { apply A. apply mget_In in Hk; [|exact N]. exact (in_map fst _ _ Hk). }
    apply in_map_iff in I. destruct I as ([fn x] & Hx & I). cbn in Hx. subst x. pose proof (Parse_own fuel ord ran N Ho NC E) as F.
    rewrite Forall_forall in F. specialize (F _ I eq_refl). cbn in F. subst fn. exact I.
Qed.
End Key.
