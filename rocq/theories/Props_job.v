(** The surfaces read by package step (C169). *)
From Coq Require Import Ascii String ZArith List Bool Lia Permutation.
From Verif Require Import Base GoMap M_step M_job Spec_step Spec_lexany Spec_surface P_step P_parse P_parseany P_job.
Import ListNotations.
Open Scope Z_scope.

(** C169: a surface of a file is read field by field; an unknown logical value is read as false *)
Theorem C169_fields es f fuel id s : es <> [] -> step_file es f -> Forall wf_entity es -> (length f < fuel)%nat ->
  lookup_last es id = Some (surface_entity id s) -> surface_ok s ->
  exists tab j, Lex fuel f = Ok tab /\ surfaceJob tab (string_of_list_ascii id) = Ok j /\
    name j = sName s /\ uDegree j = sUDegree s /\ vDegree j = sVDegree s /\ controlPointsList j = sPoints s /\ surfaceForm j = sForm s /\
    (uClosed j = true <-> sUClosed s = LTrue) /\ (vClosed j = true <-> sVClosed s = LTrue) /\ (selfIntersect j = true <-> sSelf s = LTrue) /\
    uMultiplicities j = sUMult s /\ vMultiplicities j = sVMult s /\ uKnots j = sUKnots s /\ vKnots j = sVKnots s.
Proof.
  intros N S W L E O. destruct (surface_lexed es f fuel id s N S W L E O) as (tab & T & J). exists tab, (job_of s).
  split; [exact T|]. split; [exact J|]. cbn. 
  assert (B : forall l, is_true l = true <-> l = LTrue) by (intros []; cbn; split; congruence).
  repeat split; try reflexivity; apply B.
Qed.
Print Assumptions C169_fields.
(** every such surface is a well-formed definition, so that the hypotheses above can be met *)
Theorem C169_well_formed id s : ~ In "="%char id -> surface_ok s -> wf_entity (surface_entity id s).
Proof. exact (surface_wf id s). Qed.
Print Assumptions C169_well_formed.
(** the handler run by Parse is the one that builds the surface *)
Theorem C169_handler lex key : runFn lex FBSplineSurfaceWithKnots key = let! _ := surfaceJob lex key in Ok [].
Proof. exact (runFn_job lex key). Qed.
Print Assumptions C169_handler.
(** a surface is reported in every iteration order exactly when no other definition passes its key on *)
Theorem C169_reported lex k args fuel : NoDup (map fst lex) -> safe_table (look_of lex) ->
  look_of lex k = Some (list_ascii_of_string "B_SPLINE_SURFACE_WITH_KNOTS", args) -> (1 + 3 * length lex <= fuel)%nat ->
  ((forall ord, order_ok ord -> exists ran, Parse fuel ord lex = Ok ran /\ In (FBSplineSurfaceWithKnots, k) ran) <->
   forall j, ~ claims (look_of lex) k j).
Proof.
  intros N W E L. unfold look_of in E. destruct (mget lex k) as [d|] eqn:M; [|discriminate].
  assert (T : dType d = lit "B_SPLINE_SURFACE_WITH_KNOTS") by (unfold lit; congruence).
  exact (reported_iff lex k d M T fuel N W L).
Qed.
Print Assumptions C169_reported.
(** the printed report determines the surface, when its texts have no line ends and its list items no blanks or square brackets *)
Theorem C169_report_unique j j' : readable j -> readable j' -> print j = print j' -> j = j'.
Proof. exact (print_inj j j'). Qed.
Print Assumptions C169_report_unique.

(** what is printed for a surface of a file: twelve lines, each a label, a blank and the value of one field *)
Theorem C169_report es f fuel id s : es <> [] -> step_file es f -> Forall wf_entity es -> (length f < fuel)%nat ->
  lookup_last es id = Some (surface_entity id s) -> surface_ok s ->
  exists tab j, Lex fuel f = Ok tab /\ surfaceJob tab (string_of_list_ascii id) = Ok j /\ print j = report s.
Proof.
  intros N S W L E O. destruct (surface_lexed es f fuel id s N S W L E O) as (tab & T & J). exists tab, (job_of s).
  split; [exact T|]. split; [exact J|]. assert (B : forall l, showBool (is_true l) = logical_shown l) by (intros []; reflexivity).
  unfold print, report, job_of. cbn [name uDegree vDegree controlPointsList surfaceForm uClosed vClosed selfIntersect uMultiplicities vMultiplicities uKnots vKnots].
  rewrite !B. unfold report_labels, surface_values. cbn [combine flat_map]. rewrite app_nil_r. reflexivity.
Qed.
Print Assumptions C169_report.

Definition ex169 : surface :=
  mkSurface (lit "''") (lit "1") (lit "2") [[lit "#2"; lit "#3"; lit "#4"]; [lit "#5"; lit "#6"; lit "#7"]] (lit ".UNSPECIFIED.") LFalse LTrue LUnknown
    [lit "2"; lit "2"] [lit "3"; lit "3"] [lit "0."; lit "1."] [lit "0."; lit "0.5"] (lit ".UNSPECIFIED.").
Definition file169 : bytes := print_entity [" "%char] [] (surface_entity (lit "#1") ex169) ++ [LF].
Example C169_nonvacuous : surface_ok ex169 /\
  (exists tab, Lex 300 file169 = Ok tab /\ surfaceJob tab "#1" = Ok (job_of ex169)) /\
  print (job_of ex169) = lit "name: ''" ++ [LF] ++ lit "uDegree: 1" ++ [LF] ++ lit "vDegree: 2" ++ [LF] ++
    lit "controlPointsList: [[#2 #3 #4] [#5 #6 #7]]" ++ [LF] ++ lit "surfaceForm: .UNSPECIFIED." ++ [LF] ++ lit "uClosed: false" ++ [LF] ++
    lit "vClosed true" ++ [LF] ++ lit "selfIntersect: false" ++ [LF] ++ lit "uMultiplicities: [2 2]" ++ [LF] ++ lit "vMultiplicities: [3 3]" ++ [LF] ++
    lit "uKnots: [0. 1.]" ++ [LF] ++ lit "vKnots: [0. 0.5]" ++ [LF].
Proof.
  split; [|split; [|reflexivity]].
  - assert (I : forall t, forallb (fun c => negb (Ascii.eqb c "(") && negb (Ascii.eqb c ")") && negb (Ascii.eqb c ",") && (bv c <=? 127)) (lit t) = true -> item (lit t))
      by (intros t; apply item_chars).
    unfold surface_ok, items, ex169. cbn [sName sUDegree sVDegree sPoints sForm sUMult sVMult sUKnots sVKnots sSpec].
    repeat match goal with
     | |- _ /\ _ => split
     | |- item _ => apply I; reflexivity
     | |- _ <> [] => discriminate
     | |- Forall _ [] => constructor
     | |- Forall _ (_ :: _) => constructor
     | |- ascii_text _ => unfold ascii_text, lit; cbn
     | |- byte_in _ _ _ => vm_compute; split; discriminate end.
  - eexists. split; [vm_compute; reflexivity|vm_compute; reflexivity].
Qed.
(** a surface that a product definition takes away *)
Example C169_claimed :
  let lex := [("#1"%string, mkDef (lit "PRODUCT_DEFINITION") [[]; []; lit "#2"]);
              ("#2"%string, mkDef (lit "B_SPLINE_SURFACE_WITH_KNOTS") (surface_args ex169))] in
  claims (look_of lex) "#2" "#1" /\
  Parse 7 (fun l => l) lex = Ok [(FProductDefinition, "#1"); (FProductDefinitionFormation, "#2")]%string /\
  Parse 7 (@rev _) lex = Ok [(FBSplineSurfaceWithKnots, "#2"); (FProductDefinition, "#1")]%string.
Proof.
  split; [|split; vm_compute; reflexivity].
  exists "PRODUCT_DEFINITION"%string, [[]; []; lit "#2"]. split; [reflexivity|]. right. left. split; reflexivity.
Qed.
