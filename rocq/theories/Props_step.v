(** Properties of package step (C62–C74). *)
From Coq Require Import Ascii String ZArith List Bool Lia Permutation.
From Verif Require Import Base GoMap M_step Spec_step P_step P_parse.
Import ListNotations.
Open Scope Z_scope.

(** C62: arguments joined by commas and followed by ");" are recovered *)
Theorem C62_getArguments_inverts_join (args : list text) :
  args <> [] -> Forall one_arg args -> Forall ascii_text args ->
  getArguments (join args ++ lit ");") = Ok args.
Proof.
  intros N O A. apply getArguments_print; [exact N| |].
  - rewrite Forall_forall in *. intros a Ha. split; [auto|]. exists (length a). apply utf8_ascii; auto.
  - destruct (last_split args N) as (l & a & -> & ->). apply Forall_app in A. destruct A as (_ & A). inversion A; assumption.
Qed.
Print Assumptions C62_getArguments_inverts_join.
(** too short for the closing ");": the slice bounds are negative *)
Theorem C62_short_panics s : (length (runes s) < 2)%nat -> getArguments s = Panic.
Proof.
  intros L. unfold getArguments. destruct (runes s) as [|r [|r' l]]; [reflexivity| |simpl in L; lia].
  cbn [fold_left]. unfold splitStep. destruct (_ && _)%bool; reflexivity.
Qed.
Print Assumptions C62_short_panics.
Example C62_nonvacuous : getArguments (lit "'',((#1,#2),(#3)),.T.);") = Ok [lit "''"; lit "((#1,#2),(#3))"; lit ".T."].
Proof. reflexivity. Qed.

(** C63: what holds for arbitrary UTF-8: only the last argument is cut, to as many bytes as it has characters *)
Theorem C63_getArguments_utf8_partial args last n :
  Forall (fun a => one_arg a /\ exists k, utf8 k a) args -> one_arg last -> utf8 n last ->
  getArguments (join (args ++ [last]) ++ lit ");") = Ok (args ++ [firstn n last]) /\
  (getArguments (join (args ++ [last]) ++ lit ");") = Ok (args ++ [last]) <-> ascii_text last).
Proof.
  intros A O U. pose proof (getArguments_value args last n A O U : _ = _) as E.
  change (lit ");") with [")"; ";"]%char. split; [exact E|]. rewrite E.
  destruct (utf8_ascii_iff n last U) as (L & I). rewrite I. split.
  - intros H. assert (H' : args ++ [firstn n last] = args ++ [last]) by congruence.
    apply app_inj_tail in H'. destruct H' as (_ & H'). apply (f_equal (@length ascii)) in H'. rewrite firstn_length in H'. lia.
  - intros ->. rewrite firstn_all. reflexivity.
Qed.
Print Assumptions C63_getArguments_utf8_partial.
(** blanks between the bracket and the semicolon *)
Theorem C63_getArguments_blank_refuted args last sp : Forall (fun a => one_arg a /\ exists k, utf8 k a) args ->
  one_arg last -> ascii_text last -> blank_text sp -> sp <> [] ->
  getArguments (join (args ++ [last]) ++ lit ")" ++ sp ++ lit ";") =
    Ok (args ++ [last ++ lit ")" ++ removelast sp]) /\
  last ++ lit ")" ++ removelast sp <> last.
Proof.
  intros A O H B N. split.
  - apply getArguments_blank; assumption.
  - intros E. apply (f_equal (@length ascii)) in E. rewrite !app_length in E. cbn [lit list_ascii_of_string length] in E. lia.
Qed.
Print Assumptions C63_getArguments_blank_refuted.
(** a comma or a bracket in a quoted string *)
Theorem C63_getArguments_quote_refuted :
  getArguments (lit "'a,b',#2);") = Ok [lit "'a"; lit "b'"; lit "#2"] /\
  getArguments (lit "'a(b',#2);") = Ok [lit "'a(b',#2"] /\
  getArguments (lit "'m" ++ map ascii_of_nat [195; 169]%nat ++ lit "');") = Ok [lit "'m" ++ map ascii_of_nat [195; 169]%nat].
Proof. repeat split; vm_compute; reflexivity. Qed.
Print Assumptions C63_getArguments_quote_refuted.
Example C63_nonvacuous : utf8 4 (lit "'m" ++ map ascii_of_nat [195; 169]%nat ++ lit "'") /\
  getArguments (lit "#1) ;") = Ok [lit "#1)"].
Proof.
  split; [|reflexivity]. assert (H : forall (l : list ascii), l = [] ++ l) by reflexivity.
  cbn. apply (utf8_cons 3 ["'"%char]); [constructor; vm_compute; split; discriminate|].
  apply (utf8_cons 2 ["m"%char]); [constructor; vm_compute; split; discriminate|].
  apply (utf8_cons 1 [ascii_of_nat 195; ascii_of_nat 169]); [apply utf8_char2; vm_compute; split; discriminate|].
  apply (utf8_cons 0 ["'"%char]); [constructor; vm_compute; split; discriminate|constructor].
Qed.

(** C64 *)
Theorem C64_getArray_inverts_print es : es <> [] -> Forall (fun a => one_arg a /\ exists k, utf8 k a) es ->
  getArray (parens (join es)) = Ok es.
Proof.
  intros N F. destruct (exists_last N) as (a & l & ->). apply Forall_app in F. destruct F as (Fa & Fl).
  inversion Fl; subst. apply getArray_value; assumption.
Qed.
Print Assumptions C64_getArray_inverts_print.
Theorem C64_getMatrix_inverts_print rows : rows <> [] -> Forall (fun r => r <> []) rows ->
  Forall (Forall (fun a => one_arg a /\ exists k, utf8 k a)) rows ->
  getMatrix (parens (join (map (fun r => parens (join r)) rows))) = Ok rows.
Proof.
  intros N Nr F. unfold getMatrix. rewrite C64_getArray_inverts_print.
  - cbn [rbind]. clear N. induction rows as [|r rows IH]; [reflexivity|]. inversion Nr; subst. inversion F; subst.
    cbn [map getRows]. rewrite C64_getArray_inverts_print by assumption. cbn [rbind]. rewrite IH by assumption. reflexivity.
  - destruct rows; [congruence|discriminate].
  - rewrite Forall_forall in *. intros p Hp. apply in_map_iff in Hp. destruct Hp as (r & <- & Hr). split.
    + apply one_arg_array. exists r. split; [apply Nr, Hr|]. split; [apply F, Hr|reflexivity].
    + apply utf8_parens_join. eapply Forall_impl; [|apply F, Hr]. intros a (_ & H). exact H.
Qed.
Print Assumptions C64_getMatrix_inverts_print.
Example C64_nonvacuous : getMatrix (lit "((#1,(2,3)),(#4))") = Ok [[lit "#1"; lit "(2,3)"]; [lit "#4"]] /\
  (* the empty list is printed like the list of one empty element *)
  getArray (lit "()") = Ok [[]].
Proof. split; reflexivity. Qed.

(** C65 *)
Theorem C65_lex_recovers_entities es f fuel : es <> [] -> step_file es f -> Forall wf_entity es -> (length f < fuel)%nat ->
  exists tab, Lex fuel f = Ok tab /\ NoDup (map fst tab) /\
    forall id, mget tab (string_of_list_ascii id) =
      match lookup_last es id with Some e => Some (mkDef (eType e) (eArgs e)) | None => None end.
Proof.
  intros N H W L. exists (fold_left add_entity es []). split; [apply Lex_entities; assumption|].
  split; [apply fold_add_keys; constructor|]. intros id. pose proof (fold_add_lookup es [] id) as E. exact E.
Qed.
Print Assumptions C65_lex_recovers_entities.
Example C65_nonvacuous :
  Lex 100 (lit "#1= A ('x',(#2,#3))" ++ [LF] ++ lit ";" ++ [LF] ++ [LF] ++ lit "#2=B(1);" ++ [CR; LF] ++ lit "#1=C($);" ++ [LF]) =
    Ok [("#1"%string, mkDef (lit "C") [lit "$"]); ("#2"%string, mkDef (lit "B") [lit "1"])].
Proof. vm_compute. reflexivity. Qed.

(** C66: a file that starts, after any number of empty lines, with a non-empty line without an equals sign *)
Theorem C66_lex_header_refuted blank l e f fuel : Forall eol_ok blank -> line_ok l -> l <> [] -> ~ In "="%char l -> eol_ok e ->
  (length (concat blank ++ l ++ e ++ f) < fuel)%nat ->
  Lex fuel (concat blank ++ l ++ e ++ f) = Panic.
Proof.
  intros B Hl Hn He Ee. unfold Lex. revert fuel. induction B as [|b blank Hb B IH]; intros fuel Hf.
  - destruct fuel as [|fuel]; [lia|]. cbn [concat app lexLoop]. rewrite readLine_line by assumption.
    rewrite (eqb_f (Z.of_nat (length l)) 0) by (destruct l; [congruence|simpl; lia]).
    rewrite (proj2 (contains_false _ _) He). apply lexLoop_no_eq.
    + cbn [concat app] in Hf. rewrite !app_length in Hf. destruct Ee as [->| ->]; simpl in Hf; lia.
    + cbn [app]. destruct l; [congruence|simpl; lia].
    + exact He.
  - destruct fuel as [|fuel]; [lia|]. cbn [concat] in Hf |- *. rewrite <- app_assoc in Hf |- *. cbn [lexLoop].
    assert (L0 : line_ok []) by (split; [|split]; [intros []|intros [|? ?]; discriminate|simpl; lia]).
    rewrite (readLine_line [] b (concat blank ++ l ++ e ++ f) L0 Hb : readLine (b ++ _) = _).
    cbn [length Z.of_nat Z.eqb]. apply IH. rewrite app_length in Hf. destruct Hb as [->| ->]; simpl in Hf; lia.
Qed.
Print Assumptions C66_lex_header_refuted.
Example C66_nonvacuous : line_ok (lit "ISO-10303-21;") /\ ~ In "="%char (lit "ISO-10303-21;") /\
  Lex 100 (lit "ISO-10303-21;" ++ [LF] ++ lit "HEADER;" ++ [LF] ++ lit "#1=A(1);" ++ [LF]) = Panic.
Proof.
  assert (M : forall c, ~ In c (lit "ISO-10303-21;") \/ c <> LF /\ c <> "="%char).
  { intros c. destruct (in_dec ascii_dec c (lit "ISO-10303-21;")) as [i|n]; [right|left; exact n].
    cbn in i. repeat (destruct i as [<-|i]; [split; discriminate|]). destruct i. }
  split; [|split].
  - split; [|split].
    + destruct (M LF) as [H|[H _]]; [exact H|congruence].
    + intros p E. apply (f_equal (@rev ascii)) in E. rewrite rev_app_distr in E. cbn in E. discriminate.
    + cbn. lia.
  - destruct (M "="%char) as [H|[_ H]]; [exact H|congruence].
  - vm_compute. reflexivity.
Qed.

(** C67: what holds: without blanks the key is the identifier itself *)
Theorem C67_key_is_reference_partial e f fuel : wf_entity e -> step_file [e] f -> (length f < fuel)%nat ->
  exists tab, Lex fuel f = Ok tab /\ map fst tab = [string_of_list_ascii (eId e)] /\
    mget tab (string_of_list_ascii (eId e)) = Some (mkDef (eType e) (eArgs e)).
Proof.
  intros W H L. exists (add_entity [] e). rewrite (Lex_entities [e] f fuel) by (auto; discriminate).
  split; [reflexivity|]. split; [reflexivity|]. apply (mget_mset_same []).
Qed.
Print Assumptions C67_key_is_reference_partial.
(** with blanks before the equals sign the entity is not found under the identifier *)
Theorem C67_key_is_reference_refuted id ty args sp f fuel :
  wf_entity (mkEntity id ty args) -> blank_text sp -> sp <> [] ->
  step_file [mkEntity (id ++ sp) ty args] f -> (length f < fuel)%nat ->
  exists tab, Lex fuel f = Ok tab /\ mget tab (string_of_list_ascii id) = None /\
    mget tab (string_of_list_ascii (id ++ sp)) = Some (mkDef ty args).
Proof.
  intros (W1 & W2) B N H L.
  assert (W : wf_entity (mkEntity (id ++ sp) ty args)).
  { split; [|exact W2]. cbn [eId] in *. rewrite in_app_iff. intros [Hi|Hi]; [exact (W1 Hi)|].
    unfold blank_text in B. rewrite Forall_forall in B. apply B in Hi. destruct Hi; discriminate. }
  exists (add_entity [] (mkEntity (id ++ sp) ty args)).
  rewrite (Lex_entities [mkEntity (id ++ sp) ty args] f fuel) by (auto; discriminate).
  split; [reflexivity|]. split; [|apply mget_mset_same].
  unfold add_entity. cbn [eId]. rewrite mget_mset_other; [reflexivity|].
  intros E. apply str_inj in E. apply N. rewrite <- (app_nil_r id) in E at 1. apply app_inv_head in E. symmetry. exact E.
Qed.
Print Assumptions C67_key_is_reference_refuted.
Example C67_nonvacuous : Lex 100 (lit "#1 = A(1);" ++ [LF]) = Ok [("#1 "%string, mkDef (lit "A") [lit "1"])].
Proof. vm_compute. reflexivity. Qed.

(** C68: in every iteration order, Parse stops (possibly by a panic); if it does not panic it has run exactly one
    handler for every key, and every handler that was run belongs to a different key *)
Theorem C68_parse_terminates_once lex ord fuel : order_ok ord -> (1 + 3 * length lex <= fuel)%nat ->
  Parse fuel ord lex <> Diverge /\
  forall ran, Parse fuel ord lex = Ok ran -> NoDup (map snd ran) /\ forall k, In k (map fst lex) -> In k (map snd ran).
Proof.
  intros Ho Hf. destruct (Parse_terminates fuel ord lex Hf Ho) as [E|(r & E & N & C)]; rewrite E.
  - split; [discriminate|]. intros ran [=].
  - split; [discriminate|]. intros ran [= <-]. split; assumption.
Qed.
Print Assumptions C68_parse_terminates_once.
(* two product definitions that refer to each other *)
Definition cyclic : SymbolTable :=
  [("#1"%string, mkDef (lit "PRODUCT_DEFINITION") [[]; []; lit "#2"]);
   ("#2"%string, mkDef (lit "PRODUCT_DEFINITION_SHAPE") [[]; []; lit "#1"])].
Example C68_nonvacuous :
  Parse 7 (fun l => l) cyclic = Ok [(FProductDefinition, "#1"); (FProductDefinitionFormation, "#2")]%string /\
  Parse 7 (@rev _) cyclic = Ok [(FProductDefinitionShape, "#2"); (FProductDefinition, "#1")]%string.
Proof. split; vm_compute; reflexivity. Qed.

(** C69 *)
Theorem C69_parse_no_panic lex ord fuel : order_ok ord -> NoDup (map fst lex) -> wf_table (look_of lex) ->
  (1 + 3 * length lex <= fuel)%nat -> exists ran, Parse fuel ord lex = Ok ran.
Proof.
  intros Ho N W Hf. destruct (Parse_terminates fuel ord lex Hf Ho) as [E|(r & E & _)].
  - exfalso. apply (Parse_safe fuel ord lex N W Ho), E.
  - exists r. exact E.
Qed.
Print Assumptions C69_parse_no_panic.
(** together with C65: a lexed file of well-formed definitions is parsed without a panic *)
Theorem C69_lex_parse_no_panic es f ord fuel : es <> [] -> step_file es f -> Forall wf_entity es ->
  wf_table (fun k => match lookup_last es (list_ascii_of_string k) with Some e => Some (eType e, eArgs e) | None => None end) ->
  order_ok ord -> (length f + 1 + 3 * length es <= fuel)%nat ->
  exists tab ran, Lex fuel f = Ok tab /\ Parse fuel ord tab = Ok ran.
Proof.
  intros Ne Hf W T Ho L. exists (fold_left add_entity es []).
  rewrite (Lex_entities es f fuel) by (auto; lia).
  assert (E : forall k, look_of (fold_left add_entity es []) k =
     match lookup_last es (list_ascii_of_string k) with Some e => Some (eType e, eArgs e) | None => None end).
  { intros k. unfold look_of. rewrite <- (str_lit k) at 1. rewrite fold_add_lookup. unfold lit. cbn [mget].
    destruct (lookup_last es (list_ascii_of_string k)); reflexivity. }
  destruct (C69_parse_no_panic (fold_left add_entity es []) ord fuel Ho) as (ran & R).
  - apply fold_add_keys. constructor.
  - apply (wf_table_ext _ _ E), T.
  - pose proof (fold_add_length es []). simpl in H. lia.
  - exists ran. split; [reflexivity|exact R].
Qed.
Print Assumptions C69_lex_parse_no_panic.
Definition wf_example : SymbolTable :=
  [("#1"%string, mkDef (lit "AXIS_2_PLACEMENT_3D") [lit "''"; lit "#2"; lit "#3"; lit "#4"]);
   ("#2"%string, mkDef (lit "CARTESIAN_POINT") [lit "''"; lit "(0.,1.,2.)"])].
Example C69_nonvacuous :
  Parse 7 (fun l => l) wf_example =
    Ok [(FAxis2Placement3D, "#1"); (FCartesianPoint, "#2")]%string /\
  Parse 7 (@rev _) wf_example = Ok [(FSkipUtility, "#2"); (FAxis2Placement3D, "#1")]%string /\
  wf_table (look_of wf_example).
Proof.
  split; [vm_compute; reflexivity|]. split; [vm_compute; reflexivity|].
  assert (K : forall ty, forallb (fun c => (48 <=? bv c) && (bv c <=? 57) || (65 <=? bv c) && (bv c <=? 90) || (bv c =? 95)) ty = true -> keyword ty).
  { intros ty H. apply Forall_forall. intros c Hc. rewrite forallb_forall in H. specialize (H c Hc).
    unfold keyword_char, byte_in. unfold bv in H. destruct (_ && _) eqn:E1 in H.
    - left. lia.
    - destruct (_ && _) eqn:E2 in H; [right; left; lia|]. right. right. left. cbn [orb] in H.
      apply Z.eqb_eq in H. rewrite <- (ascii_N_embedding c). replace (N_of_ascii c) with 95%N by lia. reflexivity. }
  intros k ty args H. unfold look_of, wf_example in H. cbn [mget] in H.
  destruct (String.eqb k "#1") eqn:E1.
  { injection H as <- <-. split; [apply K; reflexivity|].
    repeat match goal with |- _ /\ _ => split end; intros T; try (vm_compute in T; discriminate T).
    exists (lit "#2"). split; [reflexivity|]. exists [lit "''"; lit "(0.,1.,2.)"]. reflexivity. }
  destruct (String.eqb k "#2") eqn:E2; [|discriminate].
  injection H as <- <-. split; [apply K; reflexivity|].
  repeat match goal with |- _ /\ _ => split end; intros T; try (vm_compute in T; discriminate T).
  exists (lit "(0.,1.,2.)"). split; [reflexivity|]. exists [lit "0."; lit "1."; lit "2."]. split; [discriminate|]. split; [|reflexivity].
  assert (C : forall c, c <> "("%char -> c <> ")"%char -> c <> ","%char -> byte_in 0 127 c -> one_arg [c; "."%char] /\ exists n, utf8 n [c; "."%char]).
  { intros c H1 H2 H3 H4. split.
    - apply (arg_app [c] ["."%char]); constructor; (assumption || discriminate).
    - exists 2%nat. apply (utf8_ascii [c; "."%char]). repeat constructor; (apply H4 || (vm_compute; discriminate)). }
  repeat constructor; apply C; first [discriminate | vm_compute; split; discriminate].
Qed.

(** C70: the order decides which handler a key gets, and so whether Parse panics *)
Definition order_table : SymbolTable :=
  [("#1"%string, mkDef (lit "PRODUCT_DEFINITION") [[]; []; lit "#2"]);
   ("#2"%string, mkDef (lit "SPHERICAL_SURFACE") [[]; []])].
Theorem C70_parse_order_refuted : order_ok (fun l : SymbolTable => l) /\ order_ok (fun l : SymbolTable => rev l) /\
  forall fuel, (7 <= fuel)%nat ->
  Parse fuel (fun l => l) order_table = Ok [(FProductDefinition, "#1"); (FProductDefinitionFormation, "#2")]%string /\
  Parse fuel (fun l => rev l) order_table = Panic.
Proof.
  split; [intros l; apply Permutation_refl|]. split; [intros l; apply Permutation_rev|].
  intros fuel H. do 7 (destruct fuel as [|fuel]; [lia|]). split; reflexivity.
Qed.
Print Assumptions C70_parse_order_refuted.
(** what holds: on well-formed tables no order panics (C69), so the outcome does not depend on the order there *)
Theorem C70_parse_order_partial lex ord1 ord2 fuel : order_ok ord1 -> order_ok ord2 -> NoDup (map fst lex) ->
  wf_table (look_of lex) -> (1 + 3 * length lex <= fuel)%nat ->
  (Parse fuel ord1 lex = Panic <-> Parse fuel ord2 lex = Panic).
Proof.
  intros O1 O2 N W F. destruct (C69_parse_no_panic lex ord1 fuel O1 N W F) as (r1 & ->).
  destruct (C69_parse_no_panic lex ord2 fuel O2 N W F) as (r2 & ->). split; discriminate.
Qed.
Print Assumptions C70_parse_order_partial.

(** C71: the standard names of two supported types are not dispatched to their handlers *)
Theorem C71_bridge_refuted args :
  bridge (mkDef (lit "ADVANCED_FACE") args) = FSkipUtility /\
  bridge (mkDef (lit "AXIS2_PLACEMENT_3D") args) = FSkipUtility.
Proof. split; reflexivity. Qed.
Print Assumptions C71_bridge_refuted.
(** what holds: a definition reaches a handler other than skipUtility exactly under the name in the switch *)
Definition bridge_table : list (string * parseFn) :=
  [("VERTEX_LOOP", FVertexLoop); ("AXIS_2_PLACEMENT_3D", FAxis2Placement3D); ("FACE", FFace);
   ("B_SPLINE_SURFACE_WITH_KNOTS", FBSplineSurfaceWithKnots); ("ADVENCED_FACE", FAdvancedFace);
   ("CLOSED_SHELL", FClosedShell); ("DIRECTION", FDirection); ("PRODUCT_DEFINITION", FProductDefinition);
   ("PRODUCT_DEFINITION_CONTEXT", FProductDefinitionContext);
   ("PRODUCT_DEFINITION_FORMATION", FProductDefinitionFormation);
   ("PRODUCT_DEFINITION_SHAPE", FProductDefinitionShape); ("SPHERICAL_SURFACE", FSphericalSurface);
   ("TOROIDAL_SURFACE", FToroidalSurface)]%string.
Theorem C71_bridge_partial ty args fn : fn <> FSkipUtility ->
  (bridge (mkDef ty args) = fn <-> In (string_of_list_ascii ty, fn) bridge_table).
Proof.
  intros N. unfold bridge. cbn [dType]. fold (str ty). 
  repeat match goal with |- context [String.eqb ?a ?b] => destruct (String.eqb_spec a b) as [E|?];
     [rewrite E; split; [intros <-; cbn; tauto|
        intros H; cbn in H; repeat (destruct H as [H|H]; [try discriminate H; injection H; auto|]); destruct H]|] end.
  split; [congruence|]. intros H. cbn in H. repeat (destruct H as [H|H]; [injection H; congruence|]). destruct H.
Qed.
Print Assumptions C71_bridge_partial.
Example C71_nonvacuous : bridge (mkDef (lit "ADVENCED_FACE") []) = FAdvancedFace. Proof. reflexivity. Qed.

(** C72: for every byte string *)
Theorem C72_strip_exact s :
  runes (stripWhiteSpaces s) = filter (fun r => negb (isSpace r)) (runes s) /\
  stripWhiteSpaces (stripWhiteSpaces s) = stripWhiteSpaces s /\
  (forall r, In r (runes (stripWhiteSpaces s)) -> isSpace r = false).
Proof.
  split; [apply strip_runes|]. split; [apply strip_idem|]. intros r H. rewrite strip_runes in H. apply filter_In in H.
  destruct H as (_ & H). apply negb_true_iff, H.
Qed.
Print Assumptions C72_strip_exact.
(** on valid UTF-8 without white space nothing changes *)
Theorem C72_strip_identity s n : utf8 n s -> (forall r, In r (runes s) -> isSpace r = false) -> stripWhiteSpaces s = s.
Proof.
  intros U H. rewrite strip_encode. rewrite filter_all.
  - destruct (utf8_roundtrip n s U) as (E & _). exact E.
  - intros r Hr. rewrite (H r Hr). reflexivity.
Qed.
Print Assumptions C72_strip_identity.
(** the characters that count as white space: Unicode's White_Space property *)
Definition white_space : list Z :=
  [9; 10; 11; 12; 13; 32; 133; 160; 5760; 8192; 8193; 8194; 8195; 8196; 8197; 8198; 8199; 8200; 8201; 8202; 8232; 8233; 8239; 8287; 12288]%Z.
Theorem C72_white_space r : isSpace r = true <-> In r white_space.
Proof.
  split.
  - unfold isSpace, white_space. intros H.
    repeat match goal with Q : (_ || _)%bool = true |- _ => apply orb_true_iff in Q; destruct Q as [Q|Q] end.
    1, 6: apply andb_true_iff in H; destruct H as [A B]; apply Z.leb_le in A; apply Z.leb_le in B.
    1: assert (r = 9 \/ r = 10 \/ r = 11 \/ r = 12 \/ r = 13)%Z as D by lia; simpl; intuition.
    1: assert (r = 8192 \/ r = 8193 \/ r = 8194 \/ r = 8195 \/ r = 8196 \/ r = 8197 \/ r = 8198 \/ r = 8199 \/ r = 8200 \/ r = 8201 \/ r = 8202)%Z as D by lia; simpl; intuition.
    all: apply Z.eqb_eq in H; subst r; simpl; tauto.
  - intros H. unfold white_space in H. cbn [In] in H. decompose [or] H; subst; try contradiction; reflexivity.
Qed.
Print Assumptions C72_white_space.
Example C72_nonvacuous : stripWhiteSpaces (lit " A  B" ++ [LF] ++ map ascii_of_nat [194; 160]%nat ++ lit "C ") = lit "ABC".
Proof. vm_compute. reflexivity. Qed.

(** C73 *)
Theorem C73_getLogical s : getLogical s = true <-> s = lit ".T.".
Proof.
  unfold getLogical. destruct (String.eqb_spec (str s) ".T.") as [E|N].
  - split; [intros _|reflexivity]. apply str_inj. rewrite str_lit. exact E.
  - split; [destruct (String.eqb _ _); discriminate|]. intros ->. exfalso. apply N. reflexivity.
Qed.
Print Assumptions C73_getLogical.
Example C73_nonvacuous : getLogical (lit ".T.") = true /\ getLogical (lit ".F.") = false /\ getLogical (lit ".t.") = false.
Proof. repeat split. Qed.

(** C74: what holds: one definition on one physical line of any length, if no equals sign lies beyond the first
    4096 bytes *)
Theorem C74_line_length_partial e sp1 sp2 fuel : let t := print_entity sp1 sp2 e in
  wf_entity e -> blank_text sp1 -> blank_text sp2 -> ~ In "010"%char t ->
  In "="%char (firstn (Z.to_nat 4096) t) -> ~ In "="%char (skipn (Z.to_nat 4096) t) -> (length t + 2 < fuel)%nat ->
  Lex fuel (t ++ ["010"%char]) = Ok [(string_of_list_ascii (eId e), mkDef (eType e) (eArgs e))].
Proof.
  intros t W B1 B2 Hn H1 H2 Hf. unfold Lex. change (Z.to_nat 4096) with bufSize in H1, H2. change ["010"%char] with [LF].
  rewrite lexLoop_line; try assumption.
  - cbn [length Z.of_nat Z.ltb Z.compare rbind]. unfold t. rewrite add_print by assumption. reflexivity.
  - intros p E. unfold t, print_entity in E. apply (f_equal (@rev ascii)) in E. rewrite rev_app_distr in E.
    cbn [rev] in E. rewrite !rev_app_distr in E. cbn [rev] in E. rewrite !rev_app_distr in E. cbn in E. discriminate.
Qed.
Print Assumptions C74_line_length_partial.
(** a second equals sign (for instance in a string) is harmless on a short line and makes Lex panic on a long one *)
Theorem C74_line_length_refuted n fuel : (4096 <= Z.of_nat n + 5)%Z -> (n + 12 < fuel)%nat ->
  Lex fuel (lit "#1=T(" ++ repeat "a"%char n ++ lit "=b);" ++ ["010"%char]) = Panic.
Proof. intros H. apply Lex_long. pose proof bufSize_Z. lia. Qed.
Print Assumptions C74_line_length_refuted.
Theorem C74_line_short n fuel : (Z.of_nat n + 11 <= 4096)%Z -> (n + 12 < fuel)%nat ->
  Lex fuel (lit "#1=T(" ++ repeat "a"%char n ++ lit "=b);" ++ ["010"%char]) =
    Ok [("#1"%string, mkDef (lit "T") [repeat "a"%char n ++ lit "=b"])].
Proof.
  intros H Hf.
  assert (O : one_arg (repeat "a"%char n ++ lit "=b")).
  { induction n as [|n IH]; [apply (arg_app ["="%char] ["b"%char]); constructor; discriminate|].
    cbn [repeat app]. apply (arg_app ["a"%char]); [constructor; discriminate|]. apply IH; lia. }
  assert (A : ascii_text (repeat "a"%char n ++ lit "=b")).
  { apply Forall_app. split; [|repeat constructor; vm_compute; discriminate].
    apply Forall_forall. intros c Hc. apply repeat_spec in Hc. subst. vm_compute. split; discriminate. }
  assert (W : wf_entity (mkEntity (lit "#1") (lit "T") [repeat "a"%char n ++ lit "=b"])).
  { unfold wf_entity. cbn [eId eType eArgs last]. split; [|split; [|split; [|split]]]; try discriminate.
    - cbn. intros [E|[E|[]]]; discriminate.
    - constructor; [|constructor]. right. left. vm_compute. split; discriminate.
    - constructor; [|constructor]. split; [exact O|]. exists (length (repeat "a"%char n ++ lit "=b")). apply utf8_ascii, A.
    - exact A. }
  pose proof (C74_line_length_partial (mkEntity (lit "#1") (lit "T") [repeat "a"%char n ++ lit "=b"]) [] [] fuel) as T.
  cbv zeta in T. replace (print_entity [] [] (mkEntity (lit "#1") (lit "T") [repeat "a"%char n ++ lit "=b"]) ++ ["010"%char])
    with (lit "#1=T(" ++ repeat "a"%char n ++ lit "=b);" ++ ["010"%char]) in T
    by (unfold print_entity; cbn; rewrite <- !app_assoc; reflexivity).
  assert (Lt : (length (print_entity [] [] (mkEntity (lit "#1") (lit "T") [repeat "a"%char n ++ lit "=b"])) = n + 9)%nat).
  { unfold print_entity. cbn. rewrite !app_length, repeat_length. cbn. lia. }
  apply T; [exact W|constructor|constructor| | | |].
  - intros E. change (In "010"%char (lit "#1=T(" ++ (repeat "a"%char n ++ lit "=b") ++ lit ");")) in E.
    rewrite !in_app_iff in E. destruct E as [E|[[E|E]|E]]; [|apply repeat_spec in E; discriminate| |];
      cbn in E; repeat (destruct E as [E|E]; [discriminate|]); destruct E.
  - rewrite firstn_all2 by lia. unfold print_entity. cbn. tauto.
  - rewrite skipn_all2 by lia. intros [].
  - lia.
Qed.
Print Assumptions C74_line_short.
Example C74_nonvacuous : Lex 100 (lit "#1=T(aaa=b);" ++ [LF]) = Ok [("#1"%string, mkDef (lit "T") [lit "aaa=b"])].
Proof. vm_compute. reflexivity. Qed.
