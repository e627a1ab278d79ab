(** Property theorems C173: everything Parse prints. *)
From Coq Require Import Ascii String ZArith List Bool Lia Permutation.
From Verif Require Import Base GoMap M_step M_job M_output Spec_step Spec_surface Spec_lexany Spec_output P_step P_parse P_parseany P_job P_output Props_step Props_job.
Import ListNotations.
Open Scope Z_scope.

(** the printing run computes what Parse computes, and prints one block for every handler that was run, in that order *)
Theorem C173_output fuel addr ord lex ran : Parse fuel ord lex = Ok ran -> ParseOut fuel addr ord lex = (flat_map (block addr lex) ran, Ok ran).
Proof.
  intros E. pose proof (ParseOut_ok fuel addr ord lex) as H. cbv zeta in H. destruct H as (R & B). rewrite R, E in B. rewrite E in R.
  destruct (ParseOut fuel addr ord lex) as [o r]. cbn [fst snd] in *. subst. reflexivity.
Qed.
Print Assumptions C173_output.
(** a run that panics has printed the blocks of the handlers before and the first lines of the one that panics; all their keys differ *)
Theorem C173_panic fuel addr ord lex : Parse fuel ord lex = Panic ->
  exists ran fn key, runFn lex fn key = Panic /\ NoDup (map snd (ran ++ [(fn, key)])) /\
    ParseOut fuel addr ord lex = (flat_map (block addr lex) ran ++ block addr lex (fn, key), Panic) /\
    block addr lex (fn, key) =
      match fn with
      | FAdvancedFace => says "parsing advanced face"
      | FSphericalSurface => says "Bazinga!!!!!!"
      | FBSplineSurfaceWithKnots => surface_head (list_ascii_of_string (Itoa (Z.of_nat (length (dArguments (lexeme lex key))))))
      | _ => []
      end.
Proof.
  intros E. pose proof (ParseOut_ok fuel addr ord lex) as H. cbv zeta in H. destruct H as (R & B). rewrite R, E in B. rewrite E in R.
  destruct B as (ran & fn & key & O & P & N). exists ran, fn, key. split; [exact P|]. split; [exact N|]. split.
  - destruct (ParseOut fuel addr ord lex) as [o r]. cbn [fst snd] in *. subst. f_equal. unfold blocks. rewrite flat_map_app. cbn [flat_map]. rewrite app_nil_r. reflexivity.
  - destruct fn; try reflexivity; try discriminate P; unfold block.
    + rewrite runFn_job in P. destruct (surfaceJob lex key); cbn [rbind] in P; try discriminate P. rewrite app_nil_r. reflexivity.
    + cbn [runFn] in P. destruct (argument lex key 1); cbn [rbind] in P; try discriminate P. reflexivity.
    + cbn [runFn] in P. destruct (argument lex key 2); cbn [rbind] in P; try discriminate P. reflexivity.
Qed.
Print Assumptions C173_panic.
(** a face on a sphere: the work list printed with it holds exactly the face and the sphere *)
Theorem C173_face addr lex key nid args sargs : mget lex key = Some (mkDef (lit "ADVENCED_FACE") args) -> nth_error args 1 = Some nid ->
  mget lex (str nid) = Some (mkDef (lit "SPHERICAL_SURFACE") sargs) ->
  block addr lex (FAdvancedFace, key) =
    sphere_face_lines (list_ascii_of_string "SPHERICAL_SURFACE") (addr FAdvancedFace) (list_ascii_of_string key) (addr FSphericalSurface) nid.
Proof.
  intros M A N. unfold block. rewrite (argument_nth lex key _ 1 nid M A : argument lex key 1 = Ok nid). unfold lexeme. rewrite N. reflexivity.
Qed.
Print Assumptions C173_face.
(** a table in which no definition passes keys on: the blocks of its entries, each by its own handler, in the order of iteration *)
Lemma bridge_linked d : linked (bridge d) -> In (str (dType d)) linking.
Proof.
  unfold bridge, linked. intros H. cbv zeta in H.
  repeat match type of H with context [String.eqb ?a ?b] => destruct (String.eqb_spec a b) as [->|]; [try (destruct H as [H|[H|[H|H]]]; discriminate H); cbn; tauto|] end.
  destruct H as [H|[H|[H|H]]]; discriminate H.
Qed.
Theorem C173_unlinked fuel addr ord lex : order_ok ord -> NoDup (map fst lex) -> Forall (fun e => ~ In (str (dType (snd e))) linking) lex ->
  (1 + 3 * length lex <= fuel)%nat -> Parse fuel ord lex <> Panic ->
  fst (ParseOut fuel addr ord lex) = flat_map (fun e => block addr lex (bridge (snd e), fst e)) (ord lex).
Proof.
  intros O N F L P. destruct (Parse_terminates fuel ord lex L O) as [E|(ran & E & _)]; [contradiction|]. rewrite (C173_output _ addr _ _ _ E). cbn [fst].
  unfold Parse in E. destruct (parseEntries fuel lex (ord lex) [] []) as [[v r]| |] eqn:Q; cbn [rbind] in E; try discriminate E. assert (r = ran) by congruence. subst r.
  destruct lex as [|e0 lex0] eqn:EL.
  - assert (X : ord [] = []) by (apply Permutation_nil, O). rewrite X in *. cbn in Q. assert (ran = []) by congruence. subst ran. reflexivity.
  - rewrite <- EL in *. assert (L2 : (2 <= fuel)%nat) by (rewrite EL in L; cbn [length] in L; lia).
    apply (unlinked_entries fuel lex (ord lex) L2) in Q.
    + cbn [app] in Q. rewrite Q. rewrite flat_map_concat_map, map_map, <- flat_map_concat_map. reflexivity.
    + apply (Permutation_NoDup (Permutation_map fst (O lex))), N.
    + intros k _ [].
    + apply (Permutation_Forall (O lex)). rewrite Forall_forall in F |- *. intros e He H. exact (F e He (bridge_linked _ H)).
Qed.
Print Assumptions C173_unlinked.
(** a file of definitions without a handler of their own: one line for each key, naming the type *)
Lemma bridge_skip d : ~ In (str (dType d)) handled -> bridge d = FSkipUtility.
Proof.
  unfold bridge, handled. intros H. cbv zeta.
  repeat match goal with |- context [String.eqb ?a ?b] => destruct (String.eqb_spec a b) as [E|_]; [first [reflexivity | exfalso; apply H; rewrite E; cbn; tauto]|] end. reflexivity.
Qed.
Lemma skip_entries fuel lex entries : (1 <= fuel)%nat -> Forall (fun e => bridge (snd e) = FSkipUtility) entries -> forall visited ran, parseEntries fuel lex entries visited ran <> Panic.
Proof.
  intros L. induction entries as [|[k d] entries IH]; intros F visited ran; cbn [parseEntries]; [discriminate|]. inversion F as [|? ? F1 F2]; subst. cbn [snd] in F1. rewrite F1.
  destruct fuel as [|fuel]; [lia|]. cbn [inferLoop]. destruct (visitedKey visited k); cbn [runFn rbind app]; destruct fuel; cbn [inferLoop rbind]; apply (IH F2).
Qed.
Lemma handled_linking t : In t linking -> In t handled.
Proof. cbn. tauto. Qed.
Definition ids (es : list entity) : list string := map (fun e => string_of_list_ascii (eId e)) es.
Lemma lookup_last_in es id : (exists e, lookup_last es id = Some e) <-> In (string_of_list_ascii id) (ids es).
Proof.
  induction es as [|e es IH]; cbn [lookup_last ids map In]; [split; [intros (e & [=])|tauto]|]. destruct (lookup_last es id) as [e'|].
  - split; [intros _; right; apply IH; eauto|eauto].
  - match goal with |- context [if ?b then _ else _] => destruct b as [E|E] end.
    + split; [intros _; left; rewrite E; reflexivity|eauto].
    + split; [intros (x & [=])|]. intros [X|X]; [exfalso; apply E|destruct (proj2 IH X) as (y & [=])].
      apply (f_equal list_ascii_of_string) in X. rewrite !list_ascii_of_string_of_list_ascii in X. congruence.
Qed.
Theorem C173_points es f fuel ty : es <> [] -> step_file es f -> Forall wf_entity es -> (length f + 1 + 3 * length es <= fuel)%nat ->
  Forall (fun e => eType e = ty) es -> ~ In (string_of_list_ascii ty) handled ->
  exists tab, Lex fuel f = Ok tab /\ forall addr ord, order_ok ord ->
    fst (ParseOut fuel addr ord tab) = concat (repeat (skipped ty) (length (nodup string_dec (ids es)))).
Proof.
  intros Ne S W L T U. destruct (C65_lex_recovers_entities es f fuel Ne S W ltac:(lia)) as (tab & X & N & G). exists tab. split; [exact X|]. intros addr ord O.
  assert (D : forall k d, mget tab k = Some d -> dType d = ty).
  { intros k d M. specialize (G (list_ascii_of_string k)). rewrite string_of_list_ascii_of_string, M in G. destruct (lookup_last es (list_ascii_of_string k)) as [e|] eqn:E; [|discriminate G].
    assert (d = mkDef (eType e) (eArgs e)) by congruence. subst d. cbn [dType]. rewrite Forall_forall in T. apply T.
    clear - E. induction es as [|a es IH]; cbn [lookup_last] in E; [discriminate|]. destruct (lookup_last es (list_ascii_of_string k)) as [e'|]; [right; apply IH; congruence|].
    match type of E with context [if ?b then _ else _] => destruct b end; [left; congruence|discriminate]. }
  assert (TY : Forall (fun e => dType (snd e) = ty) tab).
  { apply Forall_forall. intros [k d] I. apply (D k). apply mget_In; assumption. }
  assert (Q : Permutation (map fst tab) (nodup string_dec (ids es))).
  { apply NoDup_Permutation; [exact N|apply NoDup_nodup|]. intros k. rewrite nodup_In. specialize (G (list_ascii_of_string k)). rewrite string_of_list_ascii_of_string in G.
    rewrite <- (string_of_list_ascii_of_string k) at 2. rewrite <- lookup_last_in. split.
    - intros I. apply in_map_iff in I. destruct I as ([k' d] & <- & I). cbn [fst] in *. apply (mget_In tab _ _ N) in I. rewrite I in G. destruct (lookup_last es (list_ascii_of_string k')) as [e|]; [eauto|discriminate].
    - intros (e & E). rewrite E in G. apply in_map_iff. exists (k, mkDef (eType e) (eArgs e)). split; [reflexivity|]. apply mget_In; assumption. }
  assert (LT : (length tab <= length es)%nat).
  { rewrite <- (map_length fst tab), (Permutation_length Q), <- (map_length (fun e => string_of_list_ascii (eId e)) es). apply NoDup_incl_length; [apply NoDup_nodup|]. intros k. rewrite nodup_In. exact (fun h => h). }
  rewrite (C173_unlinked fuel addr ord tab O N); [| |lia|].
  - rewrite <- (Permutation_length Q), map_length, (Permutation_length (O tab)).
    assert (TO : Forall (fun e => dType (snd e) = ty /\ mget tab (fst e) = Some (snd e)) (ord tab)).
    { apply (Permutation_Forall (O tab)). rewrite Forall_forall in TY |- *. intros [k d] I. split; [apply (TY _ I)|]. apply mget_In; assumption. }
    revert TO. generalize (ord tab) as l. induction l as [|[k d] l IH]; intros TO; [reflexivity|]. inversion TO as [|? ? (T1 & T3) T2]; subst. cbn [fst snd flat_map length repeat concat] in *. rewrite (IH T2). f_equal.
    rewrite bridge_skip; [|intros H; apply U; exact H]. unfold block, lexeme. rewrite T3. reflexivity.
  - apply Forall_forall. intros e I H. rewrite Forall_forall in TY. rewrite (TY e I) in H. exact (U (handled_linking _ H)).
  - unfold Parse. pose proof (skip_entries fuel tab (ord tab) ltac:(lia)) as K. specialize (K ltac:(apply (Permutation_Forall (O tab)); rewrite Forall_forall in TY |- *; intros e I; apply bridge_skip; rewrite (TY e I); exact U) [] []).
    destruct (parseEntries fuel tab (ord tab) [] []) as [[v r]| |]; cbn [rbind]; congruence.
Qed.
Print Assumptions C173_points.
Lemma safe_ext (l1 l2 : lookup) : (forall k, l1 k = l2 k) -> safe_table l2 -> safe_table l1.
Proof.
  intros E S k ty args H. rewrite E in H. destruct (S k ty args H) as (A & B & C & D & F). split; [exact A|]. unfold other_args in *.
  split; [intros T; destruct (B T) as (r & R & X); exists r; rewrite E; auto|]. split; [intros T; destruct (C T) as (r & R & X); exists r; rewrite E; auto|].
  split; [intros T; destruct (D T) as (r & R & X); exists r; rewrite E; auto|exact F].
Qed.
Lemma claims_ext (l1 l2 : lookup) k j : (forall x, l1 x = l2 x) -> claims l1 k j -> claims l2 k j.
Proof.
  intros E (ty & args & L & H). exists ty, args. rewrite <- E. split; [exact L|]. destruct H as [H|[H|(T & [H|(r & ty' & args' & X & Y & Z & Q)])]]; [tauto|tauto|tauto|].
  right. right. split; [exact T|]. right. exists r, ty', args'. rewrite <- E. auto.
Qed.
(** a surface of a file whose key no definition passes on: its thirteen-argument heading and its report are in the output, in every order of iteration *)
Theorem C173_surface es f fuel id s : es <> [] -> step_file es f -> Forall wf_entity es -> (length f + 1 + 3 * length es <= fuel)%nat ->
  lookup_last es id = Some (surface_entity id s) -> surface_ok s ->
  let look k := match lookup_last es (list_ascii_of_string k) with Some e => Some (eType e, eArgs e) | None => None end in
  safe_table look -> (forall j, ~ claims look (string_of_list_ascii id) j) ->
  exists tab, Lex fuel f = Ok tab /\ forall addr ord, order_ok ord -> exists before behind ran,
    ParseOut fuel addr ord tab = (before ++ surface_lines s ++ behind, Ok ran).
Proof.
  intros Ne S W L E K look SF CL. destruct (C65_lex_recovers_entities es f fuel Ne S W ltac:(lia)) as (tab & X & N & G).
  destruct (C169_report es f fuel id s Ne S W ltac:(lia) E K) as (tab' & j & X' & J & PJ). assert (tab' = tab) by congruence. subst tab'.
  exists tab. split; [exact X|]. intros addr ord O.
  assert (LK : forall k, look_of tab k = look k).
  { intros k. unfold look_of, look. specialize (G (list_ascii_of_string k)). rewrite string_of_list_ascii_of_string in G. rewrite G. destruct (lookup_last es (list_ascii_of_string k)); reflexivity. }
  assert (LE : (length tab <= length es)%nat).
  { rewrite (Lex_entities es f fuel) in X by (auto; lia). pose proof (fold_add_length es []) as H. cbn [length Nat.add] in H. assert (tab = fold_left add_entity es []) by congruence. subst tab. exact H. }
  pose proof (G id) as M. rewrite E in M. cbn [eType eArgs surface_entity] in M.
  destruct (C169_reported tab (string_of_list_ascii id) (surface_args s) fuel N) as (_ & R).
  - exact (safe_ext _ _ LK SF).
  - unfold look_of. rewrite M. reflexivity.
  - lia.
  - destruct (R (fun j H => CL j (claims_ext _ _ _ _ LK H)) ord O) as (ran & P & I).
    destruct (in_split _ _ I) as (l1 & l2 & ->). exists (flat_map (block addr tab) l1), (flat_map (block addr tab) l2), (l1 ++ (FBSplineSurfaceWithKnots, string_of_list_ascii id) :: l2).
    rewrite (C173_output _ addr _ _ _ P). f_equal. rewrite flat_map_app. f_equal. cbn [flat_map]. f_equal. unfold block. rewrite J, PJ. unfold surface_lines. f_equal.
    unfold lexeme. rewrite M. reflexivity.
Qed.
Print Assumptions C173_surface.

(** ** the lines of a face on a sphere, and a panic in the middle *)
Definition ex173 : SymbolTable :=
  [("#1"%string, mkDef (lit "ADVENCED_FACE") [lit "''"; lit "#2"]); ("#2"%string, mkDef (lit "SPHERICAL_SURFACE") [lit "''"; lit "#3"; lit "7.5"]);
   ("#3"%string, mkDef (lit "CARTESIAN_POINT") [])].
Definition ex_addr (f : parseFn) : bytes := lit (match f with FAdvancedFace => "0x10" | FSphericalSurface => "0x20" | _ => "0x0" end).
Definition nl : string := String LF EmptyString.
Example C173_nonvacuous :
  str (fst (ParseOut 20 ex_addr (fun m => m) ex173)) =
    ("parsing advanced face" ++ nl ++ "SPHERICAL_SURFACE" ++ nl ++ "it's a sphere" ++ nl ++ "STATES [{0x10 #1} {0x20 #2}]" ++ nl ++
     "Bazinga!!!!!!" ++ nl ++ "radius: 7.5" ++ nl ++ "doesn't loop like i've implemented ` CARTESIAN_POINT ` skipping to next States.." ++ nl)%string /\
  str (fst (ParseOut 20 ex_addr (fun m => m) [("#1"%string, mkDef (lit "SPHERICAL_SURFACE") [])])) = ("Bazinga!!!!!!" ++ nl)%string /\
  snd (ParseOut 20 ex_addr (fun m => m) [("#1"%string, mkDef (lit "SPHERICAL_SURFACE") [])]) = Panic.
Proof. split; [|split]; vm_compute; reflexivity. Qed.
Definition printed (f : bytes) : option bytes := match Lex 1000 f with Ok tab => Some (fst (ParseOut 1000 ex_addr (fun m => m) tab)) | _ => None end.
Example C173_files :
  printed file169 = Some (surface_lines ex169) /\
  printed (lit "#1=CARTESIAN_POINT('',(0.,0.,1.));" ++ [LF] ++ lit "#2=CARTESIAN_POINT('',(0.,2.,1.));" ++ [LF]) =
    Some (concat (repeat (skipped (lit "CARTESIAN_POINT")) 2)).
Proof. split; vm_compute; reflexivity. Qed.
