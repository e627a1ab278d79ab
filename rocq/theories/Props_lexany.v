(** The lexer on arbitrary bytes (C152, C153) and the parser on arbitrary tables (C154) *)
From Coq Require Import Ascii String ZArith List Bool Lia Permutation.
From Verif Require Import Base GoMap M_step Spec_step P_step P_parse Spec_lexany P_lexany P_parseany.
Import ListNotations.
Open Scope Z_scope.

(** C152: every file has exactly one layout *)
Theorem C152_layout f : exists head gs, layout f head gs /\ forall head' gs', layout f head' gs' -> head' = head /\ gs' = gs.
Proof. destruct (layout_total f) as (head & gs & L). exists head, gs. split; [exact L|]. intros head' gs' L'. exact (layout_unique f _ _ _ _ L' L). Qed.
Print Assumptions C152_layout.
(** a definition text denotes at most one entity *)
Theorem C152_denotes t e e' : defines t e -> defines t e' -> e = e'.
Proof.
  intros D D'. pose proof (add_defines t e [] D) as E. rewrite (add_defines t e' [] D') in E. unfold add_entity, entity_def in E. cbn [mset] in E.
  destruct e as [i ty a], e' as [i' ty' a']. cbn [eId eType eArgs] in E. injection E as E1 E2 E3. f_equal; [|congruence|congruence].
  apply str_inj. symmetry. exact E1.
Qed.
Print Assumptions C152_denotes.
(** the lexer crashes exactly if there is text before the first definition, no definition, or a text that denotes none *)
Theorem C152_crash f head gs fuel : layout f head gs -> (length f < fuel)%nat ->
  (Lex fuel f = Panic <-> concat head <> [] \/ gs = [] \/ exists g, In g gs /\ forall e, ~ defines (concat g) e).
Proof.
  intros L Hf. destruct (Lex_exact f head gs fuel L Hf) as (A & B). split; [|exact A]. intros P.
  destruct (list_eq_dec ascii_dec (concat head) []) as [E|E]; [|left; exact E].
  destruct (groups_or gs) as [(es & F)|Q]; [|right; right; exact Q]. destruct gs as [|g gs]; [right; left; reflexivity|].
  rewrite (B es E ltac:(discriminate) F) in P. discriminate.
Qed.
Print Assumptions C152_crash.
(** and otherwise the table maps every identifier to its last definition *)
Theorem C152_table f head gs fuel es : layout f head gs -> (length f < fuel)%nat -> concat head = [] -> gs <> [] ->
  Forall2 (fun g e => defines (concat g) e) gs es ->
  exists tab, Lex fuel f = Ok tab /\ NoDup (map fst tab) /\
    forall id, mget tab (string_of_list_ascii id) =
      match lookup_last es id with Some e => Some (mkDef (eType e) (eArgs e)) | None => None end.
Proof.
  intros L Hf E N F. destruct (Lex_exact f head gs fuel L Hf) as (_ & B). exists (fold_left add_entity es []).
  split; [apply B; auto|]. split; [apply fold_add_keys; constructor|]. intros id. pose proof (fold_add_lookup es [] id) as Q. exact Q.
Qed.
Print Assumptions C152_table.
(** it never runs for ever *)
Theorem C152_terminates f fuel : (length f < fuel)%nat -> Lex fuel f <> Diverge.
Proof.
  intros Hf D. destruct (layout_total f) as (head & gs & L). destruct (Lex_exact f head gs fuel L Hf) as (A & B).
  destruct (list_eq_dec ascii_dec (concat head) []) as [E|E]; [|rewrite A in D; [discriminate|auto]].
  destruct (groups_or gs) as [(es & F)|Q]; [|rewrite A in D; [discriminate|auto]]. destruct gs as [|g gs]; [rewrite A in D; [discriminate|auto]|].
  rewrite (B es E ltac:(discriminate) F) in D. discriminate.
Qed.
Print Assumptions C152_terminates.
(** a file with unbalanced brackets, an identifier with a blank and no semicolon *)
Definition odd_file : text := lit "#1 =A)x,(y(z".
Definition odd_entity : entity := mkEntity (lit "#1 ") (lit "A)x,") [lit "y"].
Example C152_nonvacuous : layout odd_file [] [[odd_file]] /\ defines odd_file odd_entity /\
  Lex 20 odd_file = Ok [("#1 "%string, mkDef (lit "A)x,") [lit "y"])] /\
  (forall e, ~ defines (lit "#1=A(b") e) /\ Lex 20 (lit "#1=A(b") = Panic.
Proof.
  split; [|split; [|split; [vm_compute; reflexivity|split; [|vm_compute; reflexivity]]]].
  - split; [|split; [constructor|]].
    + cbn [concat app]. apply pieces_end; [discriminate| |vm_compute; reflexivity].
      cbn. intros H. repeat (destruct H as [H|H]; [discriminate H|]). exact H.
    + constructor; [|constructor]. exists odd_file, []. split; [reflexivity|]. split; [cbn; tauto|constructor].
  - exists (lit "A)x,"), (lit "y(z"), [], [121; 40; 122]. split; [reflexivity|]. split; [|split; [|split; [|split; [|split]]]].
    + cbn. intros H. repeat (destruct H as [H|H]; [discriminate H|]). exact H.
    + cbn. intros H. repeat (destruct H as [H|H]; [discriminate H|]). exact H.
    + reflexivity.
    + split; [reflexivity|]. split; [constructor|]. intros u v E. destruct u as [|x [|y [|z [|w u]]]]; cbn in E; try discriminate.
    + simpl. lia.
    + reflexivity.
  - intros e D. pose proof (add_defines _ _ [] D) as Q. vm_compute in Q. discriminate.
Qed.

(** C153: lines after the last definition (ENDSEC; END-ISO-10303-21;) become part of its last argument *)
Theorem C153_footer_refuted es e f ls ft fuel : step_file (es ++ [e]) f -> Forall wf_entity (es ++ [e]) -> lines_of ls ft ->
  Forall (fun l => ~ In "="%char l) ls -> ascii_text (concat ls) -> ~ In "("%char (concat ls) -> ~ In ")"%char (concat ls) ->
  concat ls <> [] -> (length (f ++ ft) < fuel)%nat ->
  exists tab, Lex fuel (f ++ ft) = Ok tab /\
    let a := last (eArgs e) [] ++ firstn (length (concat ls)) (lit ");" ++ concat ls) in
    mget tab (string_of_list_ascii (eId e)) = Some (mkDef (eType e) (removelast (eArgs e) ++ [a])) /\ a <> last (eArgs e) [].
Proof.
  intros H W L Hl A N1 N2 Nf Hf. exists (fold_left add_entity (es ++ [with_tail e (concat ls)]) []).
  split; [apply (Lex_tail es e f ls ft fuel); assumption|]. intros a. split.
  - rewrite fold_left_app. cbn [fold_left]. apply mget_mset_same.
  - intros E. unfold a in E. apply (f_equal (@length ascii)) in E. rewrite app_length, firstn_length, app_length in E.
    destruct (concat ls); [congruence|]. cbn [length lit list_ascii_of_string] in E. lia.
Qed.
Print Assumptions C153_footer_refuted.
(** all other definitions are as they would be without these lines *)
Theorem C153_footer_partial es e f ls ft fuel : step_file (es ++ [e]) f -> Forall wf_entity (es ++ [e]) -> lines_of ls ft ->
  Forall (fun l => ~ In "="%char l) ls -> ascii_text (concat ls) -> ~ In "("%char (concat ls) -> ~ In ")"%char (concat ls) ->
  (length (f ++ ft) < fuel)%nat ->
  exists tab tab', Lex fuel f = Ok tab /\ Lex fuel (f ++ ft) = Ok tab' /\
    (forall id, id <> eId e -> mget tab' (string_of_list_ascii id) = mget tab (string_of_list_ascii id)) /\
    (concat ls = [] -> forall id, mget tab' (string_of_list_ascii id) = mget tab (string_of_list_ascii id)).
Proof.
  intros H W L Hl A N1 N2 Hf. exists (fold_left add_entity (es ++ [e]) []), (fold_left add_entity (es ++ [with_tail e (concat ls)]) []).
  split; [apply Lex_entities; auto; [destruct es; discriminate|rewrite app_length in Hf; lia]|].
  split; [apply (Lex_tail es e f ls ft fuel); assumption|]. split.
  - intros id N. rewrite !fold_left_app. cbn [fold_left]. unfold add_entity at 1 3. cbn [eId with_tail].
    fold (str id). rewrite !mget_mset_other; [reflexivity| |]; intros Q; apply N, str_inj, Q.
  - intros E id. rewrite !fold_left_app. cbn [fold_left]. replace (with_tail e (concat ls)) with e; [reflexivity|]. rewrite E.
    unfold with_tail. cbn [length firstn]. rewrite app_nil_r.
    apply Forall_app in W. destruct W as (_ & W). inversion W as [|? ? (_ & _ & Ne & _) _]; subst.
    rewrite <- (app_removelast_last [] Ne). destruct e; reflexivity.
Qed.
Print Assumptions C153_footer_partial.
Example C153_nonvacuous :
  Lex 100 (lit "#1=A('x',(#2,#3));" ++ [LF] ++ lit "ENDSEC;" ++ [LF]) = Ok [("#1"%string, mkDef (lit "A") [lit "'x'"; lit "(#2,#3));ENDSE"])].
Proof. vm_compute. reflexivity. Qed.

(** C154: a table is parsed without a crash in every order of the map exactly if it is safe *)
Theorem C154_parse_exact lex fuel : NoDup (map fst lex) -> (1 + 3 * length lex <= fuel)%nat ->
  ((forall ord, order_ok ord -> exists ran, Parse fuel ord lex = Ok ran) <-> safe_table (look_of lex)).
Proof.
  intros N Hf. split.
  - intros A k ty args L. unfold look_of in L. destruct (mget lex k) as [d|] eqn:E; [|discriminate]. injection L as <- <-.
    destruct (root_dec lex k d E) as [S|B]; [exact S|exfalso].
    assert (L2 : (2 <= fuel)%nat) by (destruct lex; [discriminate|cbn [length] in Hf; lia]).
    destruct (A (first_key k) (first_key_ok k)) as (ran & R). rewrite (Parse_bad lex k d fuel N E B L2) in R. discriminate.
  - intros S ord Ho. destruct (Parse_terminates fuel ord lex Hf Ho) as [E|(r & E & _)]; [|eauto].
    exfalso. exact (Parse_fine fuel ord lex N S Ho E).
Qed.
Print Assumptions C154_parse_exact.
(** a definition that is not safe crashes Parse in every order that visits it first *)
Theorem C154_witness lex k ty args fuel : NoDup (map fst lex) -> look_of lex k = Some (ty, args) -> ~ safe_def (look_of lex) k ty args ->
  (2 <= fuel)%nat -> exists ord, order_ok ord /\ Parse fuel ord lex = Panic.
Proof.
  intros N L U Hf. unfold look_of in L. destruct (mget lex k) as [d|] eqn:E; [|discriminate]. injection L as <- <-.
  exists (first_key k). split; [apply first_key_ok|]. destruct (root_dec lex k d E) as [S|B]; [destruct (U S)|]. exact (Parse_bad lex k d fuel N E B Hf).
Qed.
Print Assumptions C154_witness.
(** a reference that does not resolve, an axis placement that refers to itself, a sphere without radius *)
Definition odd_table : SymbolTable :=
  [("#1"%string, mkDef (lit "AXIS_2_PLACEMENT_3D") [[]; lit "#1"]); ("#2"%string, mkDef (lit "ADVENCED_FACE") [[]; lit "#9"])].
Example C154_nonvacuous : safe_table (look_of odd_table) /\ Parse 7 (fun l => l) odd_table <> Panic /\
  ~ safe_def (look_of [("#1"%string, mkDef (lit "SPHERICAL_SURFACE") [])]) "#1" (lit "SPHERICAL_SURFACE") [] /\
  Parse 7 (fun l => l) [("#1"%string, mkDef (lit "SPHERICAL_SURFACE") [])] = Panic.
Proof.
  split; [|split; [vm_compute; discriminate|split; [|vm_compute; reflexivity]]].
  - intros k ty args H. unfold look_of, odd_table in H. cbn [mget] in H. destruct (String.eqb_spec k "#1") as [E1|E1].
    { injection H as <- <-. repeat split; intros T; try (vm_compute in T; discriminate T). exists (lit "#1"). split; [reflexivity|]. left. subst k. reflexivity. }
    destruct (String.eqb_spec k "#2") as [E2|E2]; [|discriminate]. injection H as <- <-.
    repeat split; intros T; try (vm_compute in T; discriminate T). exists (lit "#9"). split; [reflexivity|]. right. intros ty' args' Q. vm_compute in Q. discriminate.
  - intros (_ & _ & _ & _ & S & _). exact (S eq_refl eq_refl).
Qed.
