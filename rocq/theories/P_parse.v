(** Proofs about package step: the work list of Parse. *)
From Coq Require Import Ascii String ZArith List Bool Lia Permutation.
From Verif Require Import Base GoMap M_step Spec_step P_step.
Import ListNotations.
Open Scope Z_scope.

Lemma visitedKey_iff visited k : visitedKey visited k = true <-> In k visited.
Proof.
  unfold visitedKey. rewrite existsb_exists. split.
  - intros (x & Hx & E). apply String.eqb_eq in E. subst. exact Hx.
  - intros H. exists k. split; [exact H|apply String.eqb_refl].
Qed.
Lemma visitedKey_false visited k : visitedKey visited k = false <-> ~ In k visited.
Proof. rewrite <- visitedKey_iff. destruct (visitedKey visited k); split; congruence. Qed.

(** no handler loops, and at most three states are appended; none for a missing key *)
Lemma getArray_no_div t : getArray t <> Diverge.
Proof. unfold getArray. destruct (_ <? _); [discriminate|]. destruct (fold_left _ _ _) as [[a d] c]. discriminate. Qed.
Lemma getRows_no_div l : getRows l <> Diverge.
Proof.
  induction l as [|c l IH]; [discriminate|]. cbn [getRows]. pose proof (getArray_no_div c).
  destruct (getArray c); cbn [rbind]; try congruence. destruct (getRows l); cbn [rbind]; congruence.
Qed.
Lemma getMatrix_no_div t : getMatrix t <> Diverge.
Proof.
  unfold getMatrix. pose proof (getArray_no_div t). destruct (getArray t); cbn [rbind]; [apply getRows_no_div|congruence|congruence].
Qed.
Lemma zget_no_div {T} (l : list T) i : zget l i <> Diverge.
Proof. unfold zget. destruct (i <? 0); [discriminate|]. destruct (nth_error _ _); discriminate. Qed.
Ltac step_res := match goal with
  | |- context [rbind (argument ?l ?k ?i) _] =>
      let H := fresh "D" in pose proof (zget_no_div (dArguments (lexeme l k)) i) as H; fold (argument l k i) in H;
      let E := fresh "E" in destruct (argument l k i) as [?|  |] eqn:E; cbn [rbind]; [|auto|exfalso; apply H; reflexivity]
  | |- context [rbind (getArray ?a) _] =>
      let H := fresh "D" in pose proof (getArray_no_div a) as H;
      destruct (getArray a); cbn [rbind]; [|auto|exfalso; apply H; reflexivity]
  | |- context [rbind (getMatrix ?a) _] =>
      let H := fresh "D" in pose proof (getMatrix_no_div a) as H;
      destruct (getMatrix a); cbn [rbind]; [|auto|exfalso; apply H; reflexivity]
  end.
Definition run_ok (lex : SymbolTable) (key : string) (r : res (list parseState)) : Prop :=
  r = Panic \/ exists new, r = Ok new /\ (length new <= 3)%nat /\ (mget lex key = None -> new = []).
Lemma missing_arg lex key i a : mget lex key = None -> argument lex key i <> Ok a.
Proof.
  intros H. unfold argument, lexeme. rewrite H. cbn [dArguments]. unfold zget.
  destruct (i <? 0); [discriminate|]. destruct (Z.to_nat i); discriminate.
Qed.
Lemma runFn_ok lex fn key : run_ok lex key (runFn lex fn key).
Proof.
  unfold run_ok. destruct fn; cbn [runFn]; repeat step_res; try (left; reflexivity);
    try (right; eexists; split; [reflexivity|]; split; [simpl; lia|intros M; first [reflexivity | exfalso; eapply missing_arg; eassumption]]).
  (* advancedFace *)
  right. eexists. split; [reflexivity|]. split.
  - destruct (String.eqb _ _); [simpl; lia|]. destruct (String.eqb _ _); simpl; lia.
  - intros M. exfalso. eapply missing_arg; eassumption.
Qed.

(** ** Termination *)
Definition todo (lex : SymbolTable) (visited : list string) : nat :=
  length (filter (fun k => negb (visitedKey visited k)) (map fst lex)).
Lemma filter_shrink {T} (f g : T -> bool) l : (forall x, g x = true -> f x = true) -> (length (filter g l) <= length (filter f l))%nat.
Proof.
  intros H. induction l as [|x l IH]; simpl; [lia|]. destruct (g x) eqn:E.
  - rewrite (H x E). simpl. lia.
  - destruct (f x); simpl; lia.
Qed.
Lemma filter_shrink1 {T} (f g : T -> bool) l a : (forall x, g x = true -> f x = true) -> In a l -> f a = true -> g a = false ->
  (length (filter g l) < length (filter f l))%nat.
Proof.
  intros H Ha F G. induction l as [|x l IH]; [destruct Ha|]. simpl. destruct Ha as [->|Ha].
  - rewrite F, G. simpl. pose proof (filter_shrink f g l H). lia.
  - specialize (IH Ha). destruct (g x) eqn:E; [rewrite (H x E); simpl; lia|]. destruct (f x); simpl; lia.
Qed.
Lemma todo_visit lex visited key : ~ In key visited -> (todo lex (key :: visited) <= todo lex visited)%nat /\
  (mget lex key <> None -> (todo lex (key :: visited) < todo lex visited)%nat).
Proof.
  intros H. assert (I : forall x, negb (visitedKey (key :: visited) x) = true -> negb (visitedKey visited x) = true).
  { intros x. rewrite !negb_true_iff, !visitedKey_false. simpl. tauto. }
  split; [apply filter_shrink, I|]. intros M. apply (filter_shrink1 _ _ _ key I).
  - destruct (mget lex key) as [d|] eqn:E; [|congruence].
    clear -E. induction lex as [|[k v] lex IH]; [discriminate|]. simpl in *.
    destruct (String.eqb_spec key k) as [->|N]; [auto|right; apply IH, E].
  - rewrite negb_true_iff, visitedKey_false. exact H.
  - rewrite negb_false_iff, visitedKey_iff. left. reflexivity.
Qed.
Definition inv (visited : list string) (ran : list parseState) : Prop :=
  NoDup (map snd ran) /\ forall k, In k visited <-> In k (map snd ran).
Lemma inv_step visited ran fn key : inv visited ran -> ~ In key visited -> inv (key :: visited) (ran ++ [(fn, key)]).
Proof.
  intros (N & E) H. split.
  - rewrite map_app. cbn [map snd]. apply (Permutation_NoDup (Permutation_cons_append _ _)).
    constructor; [rewrite <- E; exact H|exact N].
  - intros k. rewrite map_app, in_app_iff, <- E. simpl. tauto.
Qed.
Lemma inferLoop_ok fuel : forall lex next visited ran, inv visited ran ->
  (length next + 3 * todo lex visited <= fuel)%nat ->
  inferLoop fuel lex next visited ran = Panic \/
  exists visited' ran', inferLoop fuel lex next visited ran = Ok (visited', ran') /\ inv visited' ran' /\
    (forall k, In k visited -> In k visited') /\ (forall fn k, In (fn, k) next -> In k visited').
Proof.
  induction fuel as [|fuel IH]; intros lex next visited ran Hi Hf.
  - destruct next as [|[fn key] next]; [|simpl in Hf; lia]. right. exists visited, ran. cbn. intuition.
  - destruct next as [|[fn key] next].
    { right. exists visited, ran. cbn. intuition. }
    cbn [inferLoop]. cbn [length] in Hf. destruct (visitedKey visited key) eqn:V.
    + destruct (IH lex next visited ran Hi ltac:(lia)) as [E|(v & r & E & I & M & N)]; [left; exact E|].
      right. exists v, r. split; [exact E|]. split; [exact I|]. split; [exact M|].
      intros f k [[= -> ->]|H]; [apply M, visitedKey_iff, V|apply (N f k H)].
    + apply visitedKey_false in V. destruct (runFn_ok lex fn key) as [E|(new & E & L & Z)].
      { left. rewrite E. reflexivity. }
      rewrite E. cbn [rbind]. destruct (todo_visit lex visited key V) as (T1 & T2).
      assert (Hm : (length (next ++ new) + 3 * todo lex (key :: visited) <= fuel)%nat).
      { rewrite app_length. destruct (mget lex key) as [d|] eqn:Ek.
        - specialize (T2 ltac:(discriminate)). lia.
        - rewrite (Z eq_refl). simpl. lia. }
      destruct (IH lex (next ++ new) (key :: visited) (ran ++ [(fn, key)]) (inv_step _ _ fn _ Hi V) Hm) as [E'|(v & r & E' & I & M & N)].
      { left. exact E'. }
      right. exists v, r. split; [exact E'|]. split; [exact I|]. split; [intros k Hk; apply M; right; exact Hk|].
      intros f k [[= -> ->]|H]; [apply M; left; reflexivity|]. apply (N f k). apply in_or_app. left. exact H.
Qed.
Lemma todo_bound lex visited : (todo lex visited <= length lex)%nat.
Proof.
  unfold todo. rewrite <- (map_length fst lex). generalize (map fst lex). intros l. induction l as [|x l IH]; simpl; [lia|].
  destruct (negb _); simpl; lia.
Qed.
Definition enough_fuel (lex : SymbolTable) (fuel : nat) : Prop := (1 + 3 * length lex <= fuel)%nat.
Lemma parseEntries_ok fuel lex : enough_fuel lex fuel -> forall entries visited ran, inv visited ran ->
  parseEntries fuel lex entries visited ran = Panic \/
  exists visited' ran', parseEntries fuel lex entries visited ran = Ok (visited', ran') /\ inv visited' ran' /\
    (forall k, In k visited -> In k visited') /\ (forall k, In k (map fst entries) -> In k visited').
Proof.
  intros Hf. induction entries as [|[key d] entries IH]; intros visited ran Hi.
  - right. exists visited, ran. cbn. intuition.
  - cbn [parseEntries]. unfold enough_fuel in Hf. pose proof (todo_bound lex visited).
    destruct (inferLoop_ok fuel lex [(bridge d, key)] visited ran Hi ltac:(simpl; lia)) as [E|(v & r & E & I & M & N)].
    { left. rewrite E. reflexivity. }
    rewrite E. cbn [rbind]. destruct (IH v r I) as [E'|(v' & r' & E' & I' & M' & N')]; [left; exact E'|].
    right. exists v', r'. split; [exact E'|]. split; [exact I'|]. split; [auto|].
    intros k [<-|H2]; [|apply N', H2]. apply M', (N (bridge d) key). left. reflexivity.
Qed.
Lemma Parse_terminates fuel ord lex : enough_fuel lex fuel -> order_ok ord ->
  Parse fuel ord lex = Panic \/
  exists ran, Parse fuel ord lex = Ok ran /\ NoDup (map snd ran) /\ forall k, In k (map fst lex) -> In k (map snd ran).
Proof.
  intros Hf Ho. unfold Parse.
  destruct (parseEntries_ok fuel lex Hf (ord lex) [] []) as [E|(v & r & E & (I1 & I2) & _ & N)].
  - split; [constructor|]. simpl. tauto.
  - left. rewrite E. reflexivity.
  - right. exists r. rewrite E. split; [reflexivity|]. split; [exact I1|]. intros k Hk. apply I2, N.
    apply (Permutation_in k (Permutation_map fst (Ho lex))). exact Hk.
Qed.

(** ** No panic on well-formed tables *)
Definition look_of (lex : SymbolTable) : lookup := fun k =>
  match mget lex k with Some d => Some (dType d, dArguments d) | None => None end.
Lemma argument_nth lex key d i a : mget lex key = Some d -> nth_error (dArguments d) i = Some a ->
  argument lex key (Z.of_nat i) = Ok a.
Proof.
  intros H N. unfold argument, lexeme. rewrite H. unfold zget. rewrite ltb_f by lia. rewrite Nat2Z.id, N. reflexivity.
Qed.
Lemma array_ok t : array_text t -> exists es, getArray t = Ok es.
Proof.
  intros (es & N & F & ->). destruct (exists_last N) as (a & l & ->). apply Forall_app in F. destruct F as (Fa & Fl).
  inversion Fl; subst. eexists. apply getArray_value; assumption.
Qed.
Lemma one_arg_array t : array_text t -> one_arg t.
Proof.
  intros (es & N & F & ->). unfold parens. apply arg_paren.
  assert (A : forall a, one_arg a -> nested a).
  { induction 1; constructor; assumption. }
  clear N. induction F as [|a es (Oa & _) F IH]; [constructor|]. destruct es as [|b es]; [apply A, Oa|].
  change (join (a :: b :: es)) with (a ++ ","%char :: join (b :: es)).
  apply nested_app; [apply A, Oa|]. change (","%char :: join (b :: es)) with ([","%char] ++ join (b :: es)).
  apply nested_app; [constructor; discriminate|exact IH].
Qed.
Lemma matrix_ok t : matrix_text t -> exists m, getMatrix t = Ok m.
Proof.
  intros (rows & N & F & ->). unfold getMatrix.
  assert (F' : Forall arg_ok rows).
  { eapply Forall_impl; [|exact F]. intros r (H & U). split; [apply one_arg_array, H|exact U]. }
  destruct (exists_last N) as (a & l & E). rewrite E in F' |- *. apply Forall_app in F'. destruct F' as (Fa & Fl).
  inversion Fl; subst. rewrite getArray_value by assumption. cbn [rbind].
  clear N Fa Fl H1 H2. induction F as [|r rows (H & _) F IH]; [eexists; reflexivity|]. cbn [getRows].
  destruct (array_ok r H) as (es & ->). cbn [rbind]. destruct IH as (m & ->). eexists. reflexivity.
Qed.
(* the handler is safe on the key *)
Definition state_ok (lex : SymbolTable) (s : parseState) : Prop :=
  let '(fn, key) := s in
  match fn with
  | FSkipUtility | FVertexLoop | FFace | FClosedShell | FDirection | FProductDefinitionContext
  | FProductDefinitionFormation | FToroidalSurface => True
  | FCartesianPoint => has_type (look_of lex) (lit key) "CARTESIAN_POINT"
  | FAxis2Placement3D => has_type (look_of lex) (lit key) "AXIS_2_PLACEMENT_3D"
  | FBSplineSurfaceWithKnots => has_type (look_of lex) (lit key) "B_SPLINE_SURFACE_WITH_KNOTS"
  | FAdvancedFace => has_type (look_of lex) (lit key) "ADVENCED_FACE"
  | FProductDefinition => has_type (look_of lex) (lit key) "PRODUCT_DEFINITION"
  | FProductDefinitionShape => has_type (look_of lex) (lit key) "PRODUCT_DEFINITION_SHAPE"
  | FSphericalSurface => has_type (look_of lex) (lit key) "SPHERICAL_SURFACE"
  end.
Lemma str_lit s : str (lit s) = s.
Proof. apply string_of_list_ascii_of_string. Qed.
Lemma lit_str l : lit (str l) = l.
Proof. apply list_ascii_of_string_of_list_ascii. Qed.
Lemma has_type_get lex key ty : has_type (look_of lex) (lit key) ty ->
  exists d, mget lex key = Some d /\ dType d = lit ty.
Proof.
  intros (args & H). fold (str (lit key)) in H. rewrite str_lit in H. unfold look_of in H.
  destruct (mget lex key) as [d|] eqn:E; [|discriminate]. exists d. split; [reflexivity|]. injection H as H _. exact H.
Qed.
Lemma trim_keyword t : keyword t -> trimSpace t = t.
Proof.
  intros K. unfold trimSpace.
  assert (R : runes t = map bv t /\ Forall (fun r => isSpace r = false) (map bv t)).
  { induction K as [|c t Hc Ht (IH1 & IH2)]; [split; [reflexivity|constructor]|]. pose proof (keyword_bv c Hc).
    rewrite dec1 by lia. rewrite IH1. split; [reflexivity|]. cbn [map]. constructor; [apply isSpace_keyword, Hc|exact IH2]. }
  destruct R as (R & F).
  assert (T : forall l, Forall (fun r => isSpace r = false) l -> trimLeft l = l).
  { intros l. induction 1 as [|r l Hr Hl IH]; [reflexivity|]. cbn [trimLeft]. rewrite Hr. reflexivity. }
  rewrite R, (T _ F), (T (rev (map bv t))) by (apply Forall_rev; exact F). rewrite rev_involutive, <- R.
  destruct (utf8_roundtrip _ _ (utf8_ascii t (keyword_ascii t K))) as (E & _). exact E.
Qed.
Lemma runFn_safe lex fn key : wf_table (look_of lex) -> state_ok lex (fn, key) ->
  exists new, runFn lex fn key = Ok new /\ Forall (state_ok lex) new.
Proof.
  intros W S.
  assert (G : forall ty, has_type (look_of lex) (lit key) ty -> exists d, mget lex key = Some d /\
            dType d = lit ty /\ wf_def (look_of lex) (dType d) (dArguments d)).
  { intros ty H. destruct (has_type_get lex key ty H) as (d & E & T). exists d. split; [exact E|]. split; [exact T|].
    apply (W key). unfold look_of. rewrite E. reflexivity. }
  destruct fn; cbn [state_ok] in S; cbn [runFn]; try (eexists; split; [reflexivity|constructor]).
  - (* axis *)
    destruct (G _ S) as (d & E & T & Wd). unfold wf_def in Wd. rewrite T in Wd. fold str in Wd. rewrite str_lit in Wd.
    destruct Wd as (_ & _ & Wd & _). destruct (Wd eq_refl) as (r & N & H).
    rewrite (argument_nth lex key d 1 r E N : argument lex key 1 = _). cbn [rbind]. eexists. split; [reflexivity|].
    repeat constructor. cbn [state_ok]. rewrite lit_str. exact H.
  - (* bspline *)
    destruct (G _ S) as (d & E & T & Wd). unfold wf_def in Wd. rewrite T in Wd. fold str in Wd. rewrite str_lit in Wd.
    destruct Wd as (_ & _ & _ & Wd & _).
    destruct (Wd eq_refl) as (a0 & a1 & a2 & m & a4 & a5 & a6 & a7 & um & vm & uk & vk & rest & Ea & Hm & Hum & Hvm & Huk & Hvk).
    assert (A : forall i a, nth_error ([a0; a1; a2; m; a4; a5; a6; a7; um; vm; uk; vk] ++ rest) i = Some a ->
                argument lex key (Z.of_nat i) = Ok a).
    { intros i a Hi. apply (argument_nth lex key d); [exact E|]. rewrite Ea. exact Hi. }
    rewrite (A 0%nat a0 eq_refl : argument lex key 0 = _). cbn [rbind].
    rewrite (A 1%nat a1 eq_refl : argument lex key 1 = _). cbn [rbind].
    rewrite (A 2%nat a2 eq_refl : argument lex key 2 = _). cbn [rbind].
    rewrite (A 3%nat m eq_refl : argument lex key 3 = _). cbn [rbind].
    destruct (matrix_ok m Hm) as (? & ->). cbn [rbind].
    rewrite (A 4%nat a4 eq_refl : argument lex key 4 = _). cbn [rbind].
    rewrite (A 5%nat a5 eq_refl : argument lex key 5 = _). cbn [rbind].
    rewrite (A 6%nat a6 eq_refl : argument lex key 6 = _). cbn [rbind].
    rewrite (A 7%nat a7 eq_refl : argument lex key 7 = _). cbn [rbind].
    rewrite (A 8%nat um eq_refl : argument lex key 8 = _). cbn [rbind]. destruct (array_ok um Hum) as (? & ->). cbn [rbind].
    rewrite (A 9%nat vm eq_refl : argument lex key 9 = _). cbn [rbind]. destruct (array_ok vm Hvm) as (? & ->). cbn [rbind].
    rewrite (A 10%nat uk eq_refl : argument lex key 10 = _). cbn [rbind]. destruct (array_ok uk Huk) as (? & ->). cbn [rbind].
    rewrite (A 11%nat vk eq_refl : argument lex key 11 = _). cbn [rbind]. destruct (array_ok vk Hvk) as (? & ->). cbn [rbind].
    eexists. split; [reflexivity|constructor].
  - (* advanced face *)
    destruct (G _ S) as (d & E & T & Wd). unfold wf_def in Wd. rewrite T in Wd. fold str in Wd. rewrite str_lit in Wd.
    destruct Wd as (_ & _ & _ & _ & Wd & _). destruct (Wd eq_refl) as (r & N).
    rewrite (argument_nth lex key d 1 r E N : argument lex key 1 = _). cbn [rbind]. eexists. split; [reflexivity|].
    unfold lexeme. destruct (mget lex (str r)) as [d'|] eqn:E'.
    + assert (Wd' : wf_def (look_of lex) (dType d') (dArguments d')).
      { apply (W (str r)). unfold look_of. rewrite E'. reflexivity. }
      destruct Wd' as (K & _). rewrite trim_keyword by exact K.
      destruct (String.eqb_spec (str (dType d')) "SPHERICAL_SURFACE") as [Es|].
      * repeat constructor. cbn [state_ok]. rewrite lit_str. exists (dArguments d'). fold (str r). unfold look_of. rewrite E'.
        f_equal. f_equal. rewrite <- Es. symmetry. apply lit_str.
      * destruct (String.eqb _ _); repeat constructor.
    + cbn. constructor.
  - (* product definition *)
    destruct (G _ S) as (d & E & T & Wd). unfold wf_def in Wd. rewrite T in Wd. fold str in Wd. rewrite str_lit in Wd.
    destruct Wd as (_ & _ & _ & _ & _ & Wd & _). destruct (Wd eq_refl) as (r & N).
    rewrite (argument_nth lex key d 2 r E N : argument lex key 2 = _). cbn [rbind]. eexists. split; [reflexivity|]. repeat constructor.
  - (* product definition shape *)
    destruct (G _ S) as (d & E & T & Wd). unfold wf_def in Wd. rewrite T in Wd. fold str in Wd. rewrite str_lit in Wd.
    destruct Wd as (_ & _ & _ & _ & _ & _ & Wd & _). destruct (Wd eq_refl) as (r & N & H).
    rewrite (argument_nth lex key d 2 r E N : argument lex key 2 = _). cbn [rbind]. eexists. split; [reflexivity|].
    repeat constructor. cbn [state_ok]. rewrite lit_str. exact H.
  - (* spherical surface *)
    destruct (G _ S) as (d & E & T & Wd). unfold wf_def in Wd. rewrite T in Wd. fold str in Wd. rewrite str_lit in Wd.
    destruct Wd as (_ & _ & _ & _ & _ & _ & _ & Wd). destruct (Wd eq_refl) as (r & N).
    rewrite (argument_nth lex key d 2 r E N : argument lex key 2 = _). cbn [rbind]. eexists. split; [reflexivity|constructor].
  - (* cartesian point *)
    destruct (G _ S) as (d & E & T & Wd). unfold wf_def in Wd. rewrite T in Wd. fold str in Wd. rewrite str_lit in Wd.
    destruct Wd as (_ & Wd & _). destruct (Wd eq_refl) as (r & N & H).
    rewrite (argument_nth lex key d 1 r E N : argument lex key 1 = _). cbn [rbind]. destruct (array_ok r H) as (es & ->). cbn [rbind].
    eexists. split; [reflexivity|constructor].
Qed.
Lemma inferLoop_safe fuel : forall lex next visited ran, wf_table (look_of lex) -> Forall (state_ok lex) next ->
  inferLoop fuel lex next visited ran <> Panic.
Proof.
  induction fuel as [|fuel IH]; intros lex next visited ran W F.
  - destruct next as [|[fn key] next]; discriminate.
  - destruct next as [|[fn key] next]; [discriminate|]. inversion F as [|? ? F1 F2]; subst. cbn [inferLoop].
    destruct (visitedKey visited key); [apply IH; assumption|].
    destruct (runFn_safe lex fn key W F1) as (new & -> & Fn). cbn [rbind]. apply IH; [exact W|]. apply Forall_app. auto.
Qed.
Lemma bridge_ok lex key d : mget lex key = Some d -> state_ok lex (bridge d, key).
Proof.
  intros E. 
  assert (H : forall ty, str (dType d) = ty -> has_type (look_of lex) (lit key) ty).
  { intros ty <-. exists (dArguments d). fold (str (lit key)). rewrite str_lit. unfold look_of. rewrite E. do 2 f_equal.
    symmetry. apply lit_str. }
  unfold bridge. repeat match goal with
    | |- context [String.eqb ?a ?b] => destruct (String.eqb_spec a b); [cbn [state_ok]; auto|] end.
  exact I.
Qed.
Lemma parseEntries_safe fuel lex : wf_table (look_of lex) -> forall entries visited ran,
  (forall k d, In (k, d) entries -> mget lex k = Some d) ->
  parseEntries fuel lex entries visited ran <> Panic.
Proof.
  intros W. induction entries as [|[key d] entries IH]; intros visited ran H; [discriminate|]. cbn [parseEntries].
  assert (S : inferLoop fuel lex [(bridge d, key)] visited ran <> Panic).
  { apply inferLoop_safe; [exact W|]. constructor; [|constructor]. apply bridge_ok, H. left. reflexivity. }
  destruct (inferLoop fuel lex [(bridge d, key)] visited ran) as [[v r]| |]; cbn [rbind]; [|congruence|discriminate].
  apply IH. intros k d' Hd. apply H. right. exact Hd.
Qed.
Lemma Parse_safe fuel ord lex : NoDup (map fst lex) -> wf_table (look_of lex) -> order_ok ord ->
  Parse fuel ord lex <> Panic.
Proof.
  intros N W Ho. unfold Parse.
  assert (S : parseEntries fuel lex (ord lex) [] [] <> Panic).
  { apply parseEntries_safe; [exact W|]. intros k d H. apply mget_In; [exact N|].
    apply (Permutation_in _ (Permutation_sym (Ho lex))). exact H. }
  destruct (parseEntries fuel lex (ord lex) [] []) as [[v r]| |]; cbn [rbind]; congruence.
Qed.

(** ** Auxiliary facts for the property file *)
Lemma wf_def_ext (l1 l2 : lookup) ty args : (forall k, l1 k = l2 k) -> wf_def l2 ty args -> wf_def l1 ty args.
Proof.
  intros E (K & A1 & A2 & A3 & A4 & A5 & A6 & A7).
  assert (H : forall r t, has_type l2 r t -> has_type l1 r t).
  { intros r t (x & Hx). exists x. rewrite E. exact Hx. }
  split; [exact K|]. split; [exact A1|]. split; [intros T; destruct (A2 T) as (r & N & Hr); eauto|].
  split; [exact A3|]. split; [exact A4|]. split; [exact A5|].
  split; [intros T; destruct (A6 T) as (r & N & Hr); eauto|]. exact A7.
Qed.
Lemma wf_table_ext (l1 l2 : lookup) : (forall k, l1 k = l2 k) -> wf_table l2 -> wf_table l1.
Proof. intros E W k ty args H. apply (wf_def_ext l1 l2 ty args E), (W k). rewrite <- E. exact H. Qed.
Lemma mset_length {V} (m : gomap V) k v : (length (mset m k v) <= S (length m))%nat.
Proof. induction m as [|[k' v'] m IH]; simpl; [lia|]. destruct (String.eqb k k'); simpl; lia. Qed.
Lemma fold_add_length es : forall tab, (length (fold_left add_entity es tab) <= length tab + length es)%nat.
Proof.
  induction es as [|e es IH]; intros tab; [simpl; lia|]. cbn [fold_left length]. specialize (IH (add_entity tab e)).
  pose proof (mset_length tab (str (eId e)) (entity_def e)) as H. unfold add_entity in IH at 2. unfold add_entity in *. lia.
Qed.
Lemma utf8_join es : Forall (fun a => exists k, utf8 k a) es -> exists k, utf8 k (join es).
Proof.
  induction 1 as [|a es (k & U) F (k' & IH)]; [exists 0%nat; constructor|].
  destruct es as [|b es]; [exists k; exact U|].
  change (join (a :: b :: es)) with (a ++ ","%char :: join (b :: es)). exists (k + S k')%nat.
  apply utf8_app; [exact U|]. apply (utf8_cons k' [","%char]); [constructor; vm_compute; split; discriminate|exact IH].
Qed.
Lemma utf8_parens_join es : Forall (fun a => exists k, utf8 k a) es -> exists k, utf8 k (parens (join es)).
Proof.
  intros F. destruct (utf8_join es F) as (k & U). unfold parens. exists (S (k + 1))%nat.
  apply (utf8_cons (k + 1) ["("%char]); [constructor; vm_compute; split; discriminate|].
  apply utf8_app; [exact U|]. apply (utf8_cons 0 [")"%char] []); [constructor; vm_compute; split; discriminate|constructor].
Qed.
Lemma filter_all {T} (f : T -> bool) l : (forall x, In x l -> f x = true) -> filter f l = l.
Proof. induction l as [|x l IH]; intros H; [reflexivity|]. simpl. rewrite (H x) by (left; reflexivity). rewrite IH; [reflexivity|]. intros y Hy. apply H. right. exact Hy. Qed.
Lemma bscan_blank sp d : blank_text sp -> d <> 0 -> bscan d sp = Some d.
Proof.
  intros B N. induction B as [|c sp Hc B IH]; [reflexivity|]. change (c :: sp) with ([c] ++ sp). rewrite bscan_app.
  rewrite bscan_char; [exact IH| | |left; exact N]; destruct Hc as [->| ->]; discriminate.
Qed.
Lemma getArguments_blank args last sp : Forall arg_ok args -> one_arg last -> ascii_text last -> blank_text sp -> sp <> [] ->
  getArguments (join (args ++ [last]) ++ lit ")" ++ sp ++ lit ";") = Ok (args ++ [last ++ lit ")" ++ removelast sp]).
Proof.
  intros Ha Hl A B N. unfold getArguments.
  assert (Hl' : arg_ok last) by (split; [exact Hl|exists (length last); apply utf8_ascii, A]).
  rewrite fold_join by assumption.
  assert (At : ascii_text (lit ")" ++ sp ++ lit ";")).
  { apply Forall_app. split; [repeat constructor; vm_compute; discriminate|]. apply Forall_app. split; [apply blank_ascii, B|repeat constructor; vm_compute; discriminate]. }
  pose proof (utf8_ascii _ At) as U. pose proof (utf8_ascii _ A) as Ul.
  rewrite (rscan_fold (runes (lit ")" ++ sp ++ lit ";")) ([] ++ args) 0 (runes last) (-1)).
  2:{ rewrite (utf8_scan _ _ U), bscan_app. change (bscan 0 (lit ")")) with (Some (-1)). cbv iota.
      rewrite bscan_app, bscan_blank by (auto; lia). reflexivity. }
  destruct (utf8_roundtrip _ _ U) as (R & L). destruct (utf8_roundtrip _ _ Ul) as (Rl & Ll).
  rewrite app_length, L, Ll. rewrite encode_app, R, Rl. cbn [app].
  destruct (exists_last N) as (s & c & E).
  assert (Len : (length (lit ")" ++ sp ++ lit ";") = length s + 3)%nat).
  { rewrite E, !app_length. cbn. lia. }
  rewrite Len. rewrite ltb_f by lia. do 3 f_equal. rewrite E, removelast_last. rewrite firstn_app.
  replace (length last + (length s + 3) - 2)%nat with (length last + (length s + 1))%nat by lia.
  rewrite firstn_all2 by lia. f_equal. replace (length last + (length s + 1) - length last)%nat with (length s + 1)%nat by lia.
  replace (lit ")" ++ (s ++ [c]) ++ lit ";") with ((lit ")" ++ s) ++ [c] ++ lit ";") by (rewrite <- !app_assoc; reflexivity).
  rewrite firstn_app. rewrite firstn_all2 by (rewrite app_length; cbn; lia).
  replace (length s + 1 - length (lit ")" ++ s))%nat with 0%nat by (rewrite app_length; cbn; lia). apply app_nil_r.
Qed.
