From Coq Require Import Ascii String ZArith List Bool Lia Permutation.
From Verif Require Import Base GoMap M_step Spec_step P_step P_parse Spec_lexany P_lexany.
Import ListNotations.
Open Scope Z_scope.

(** ** arrays and matrices *)
Lemma getArray_iff t : (exists a, getArray t = Ok a) <-> array_like t.
Proof.
  unfold getArray, array_like. destruct (Z.ltb_spec (Z.of_nat (length t)) 2) as [L|L].
  - split; [intros (a & [=])|lia].
  - destruct (fold_left _ _ _) as [[a d] c]. split; [intros _; lia|eauto].
Qed.
Lemma getArray_panic t : ~ array_like t -> getArray t = Panic.
Proof.
  intros H. pose proof (getArray_no_div t). destruct (getArray t) eqn:E; [|reflexivity|congruence].
  destruct H. apply getArray_iff. eauto.
Qed.
Lemma removelast_firstn_len {T} (l : list T) : removelast l = firstn (length l - 1) l.
Proof.
  rewrite removelast_firstn_len. f_equal. lia.
Qed.
Lemma inner_text (t : bytes) : firstn (length t - 2) (skipn 1 t) = removelast (tl t).
Proof.
  rewrite removelast_firstn_len. destruct t as [|c t]; [reflexivity|]. cbn [skipn tl length]. f_equal; lia.
Qed.
Lemma getArray_cut t ps last : array_like t -> cut (runes (removelast (tl t))) ps last -> getArray t = Ok (map encode ps ++ [encode last]).
Proof.
  intros A C. unfold getArray, array_like in *. rewrite ltb_f by lia. rewrite inner_text, (cut_fold _ _ _ C []). reflexivity.
Qed.
Lemma getRows_iff l : (exists m, getRows l = Ok m) <-> Forall array_like l.
Proof.
  induction l as [|c l IH]; [split; [constructor|eexists; reflexivity]|]. cbn [getRows]. split.
  - intros (m & E). destruct (getArray c) as [a| |] eqn:Ea; try discriminate. cbn [rbind] in E.
    destruct (getRows l) as [rows| |]; try discriminate. constructor; [apply getArray_iff; eauto|apply IH; eauto].
  - intros F. inversion F as [|? ? F1 F2]; subst. apply getArray_iff in F1. destruct F1 as (a & ->). apply IH in F2. destruct F2 as (m & ->). eexists; reflexivity.
Qed.
Lemma getMatrix_iff t : (exists m, getMatrix t = Ok m) <-> matrix_like t.
Proof.
  unfold matrix_like. destruct (cut_total (runes (removelast (tl t)))) as (ps & last & C). split.
  - intros (m & E). unfold getMatrix in E. destruct (getArray t) as [cols| |] eqn:Ec; try discriminate. cbn [rbind] in E.
    assert (A : array_like t) by (apply getArray_iff; eauto). split; [exact A|]. exists ps, last. split; [exact C|].
    rewrite (getArray_cut t ps last A C) in Ec. injection Ec as <-.
    assert (F : Forall array_like (map encode ps ++ [encode last])) by (apply getRows_iff; eauto).
    change [encode last] with (map encode [last]) in F. rewrite <- map_app in F. exact (proj1 (Forall_map encode array_like _) F).
  - intros (A & ps' & last' & C' & F). unfold getMatrix. rewrite (getArray_cut t ps' last' A C'). cbn [rbind]. apply getRows_iff.
    change [encode last'] with (map encode [last']). rewrite <- map_app. exact (proj2 (Forall_map encode array_like _) F).
Qed.
Lemma getMatrix_panic t : ~ matrix_like t -> getMatrix t = Panic.
Proof.
  intros H. pose proof (getMatrix_no_div t). destruct (getMatrix t) eqn:E; [|reflexivity|congruence].
  destruct H. apply getMatrix_iff. eauto.
Qed.

(** ** arguments *)
Lemma argument_iff lex key i : argument lex key (Z.of_nat i) =
  match mget lex key with Some d => match nth_error (dArguments d) i with Some a => Ok a | None => Panic end | None => Panic end.
Proof.
  unfold argument, lexeme. destruct (mget lex key) as [d|]; unfold zget; rewrite ltb_f by lia; rewrite Nat2Z.id; [reflexivity|].
  destruct i; reflexivity.
Qed.
Lemma argument_at lex key d i : mget lex key = Some d ->
  argument lex key (Z.of_nat i) = match nth_error (dArguments d) i with Some a => Ok a | None => Panic end.
Proof. intros E. rewrite argument_iff, E. reflexivity. Qed.

(** ** which states cannot crash *)
Definition quiet (fn : parseFn) : Prop :=
  match fn with FDirection | FProductDefinitionFormation | FProductDefinitionContext | FToroidalSurface | FSkipUtility | FVertexLoop | FFace | FClosedShell => True | _ => False end.
Lemma quiet_run lex fn key : quiet fn -> runFn lex fn key = Ok [].
Proof. destruct fn; intros H; try destruct H; reflexivity. Qed.
Definition fine (lex : SymbolTable) (visited : list string) (s : parseState) : Prop :=
  In (snd s) visited \/ exists new, runFn lex (fst s) (snd s) = Ok new /\ Forall (fun s' => quiet (fst s')) new.
Lemma fine_more lex v v' s : (forall k, In k v -> In k v') -> fine lex v s -> fine lex v' s.
Proof. intros H [F|F]; [left; auto|right; exact F]. Qed.
Lemma quiet_fine lex v s : quiet (fst s) -> fine lex v s.
Proof. intros Q. right. exists []. split; [apply quiet_run, Q|constructor]. Qed.
Lemma inferLoop_fine fuel : forall lex next visited ran, Forall (fine lex visited) next -> inferLoop fuel lex next visited ran <> Panic.
Proof.
  induction fuel as [|fuel IH]; intros lex next visited ran F.
  - destruct next as [|[fn key] next]; discriminate.
  - destruct next as [|[fn key] next]; [discriminate|]. inversion F as [|? ? F1 F2]; subst. cbn [inferLoop].
    destruct (visitedKey visited key) eqn:V; [apply IH; assumption|]. apply visitedKey_false in V.
    destruct F1 as [F1|(new & E & Q)]; [destruct (V F1)|]. cbn [fst snd] in E. rewrite E. cbn [rbind]. apply IH. apply Forall_app. split.
    + eapply Forall_impl; [|exact F2]. intros s. apply fine_more. intros k; right; auto.
    + eapply Forall_impl; [|exact Q]. intros s. apply quiet_fine.
Qed.
(* a first state whose handler and whose successors are fine *)
Definition root_ok (lex : SymbolTable) (s : parseState) : Prop :=
  exists new, runFn lex (fst s) (snd s) = Ok new /\ Forall (fine lex [snd s]) new.
Lemma root_safe fuel lex s visited ran : root_ok lex s -> inferLoop fuel lex [s] visited ran <> Panic.
Proof.
  destruct s as [fn key]. intros (new & E & F). cbn [fst snd] in *. destruct fuel as [|fuel]; [discriminate|]. cbn [inferLoop].
  destruct (visitedKey visited key); [apply inferLoop_fine; constructor|]. rewrite E. cbn [rbind app]. apply inferLoop_fine.
  eapply Forall_impl; [|exact F]. intros s. apply fine_more. intros k [<-|[]]. left. reflexivity.
Qed.
Lemma nth_args {T} (l : list T) n : nth_error l n <> None -> exists a, nth_error l n = Some a.
Proof. destruct (nth_error l n); [eauto|congruence]. Qed.
Ltac arg_at E i := let z := eval compute in (Z.of_nat i) in rewrite (argument_at _ _ _ i E : argument _ _ z = _).
Lemma safe_root lex k d : mget lex k = Some d -> safe_def (look_of lex) k (dType d) (dArguments d) -> root_ok lex (bridge d, k).
Proof.
  intros E (S1 & S2 & S3 & S4 & S5 & S6). unfold root_ok. cbn [fst snd]. unfold bridge. fold (str (dType d)) in *.
  assert (Q : forall fn, quiet fn -> exists new, runFn lex fn k = Ok new /\ Forall (fine lex [k]) new).
  { intros fn Hq. exists []. split; [apply quiet_run, Hq|constructor]. }
  repeat match goal with |- context [String.eqb ?a ?b] => destruct (String.eqb_spec a b) as [T|_]; [try (apply Q; exact I)|] end; [..|apply Q; exact I].
  - destruct (S3 T) as (r & N & O). cbn [runFn]. arg_at E 1%nat. rewrite N. cbn [rbind]. eexists. split; [reflexivity|].
    constructor; [|constructor; [apply quiet_fine; exact I|constructor; [apply quiet_fine; exact I|constructor]]].
    destruct O as [O|(ty & args & L & c & Nc & A)]; [left; left; symmetry; exact O|right]. cbn [fst snd runFn].
    unfold look_of in L. fold (str r) in L. destruct (mget lex (str r)) as [d'|] eqn:E'; [|discriminate]. injection L as <- <-.
    arg_at E' 1%nat. rewrite Nc. cbn [rbind]. apply getArray_iff in A. destruct A as (a & ->). exists []. split; [reflexivity|constructor].
  - destruct (S6 T) as (a0 & a1 & a2 & m & a4 & a5 & a6 & a7 & um & vm & uk & vk & rest & Ea & Hm & Hum & Hvm & Huk & Hvk).
    assert (A : forall i a, nth_error ([a0; a1; a2; m; a4; a5; a6; a7; um; vm; uk; vk] ++ rest) i = Some a ->
                argument lex k (Z.of_nat i) = Ok a).
    { intros i a Hi. apply (argument_nth lex k d); [exact E|]. rewrite Ea. exact Hi. }
    apply getMatrix_iff in Hm. apply getArray_iff in Hum, Hvm, Huk, Hvk.
    destruct Hm as (? & Hm), Hum as (? & Hum), Hvm as (? & Hvm), Huk as (? & Huk), Hvk as (? & Hvk). cbn [runFn].
    rewrite (A 0%nat a0 eq_refl : argument lex k 0 = _). cbn [rbind].
    rewrite (A 1%nat a1 eq_refl : argument lex k 1 = _). cbn [rbind].
    rewrite (A 2%nat a2 eq_refl : argument lex k 2 = _). cbn [rbind].
    rewrite (A 3%nat m eq_refl : argument lex k 3 = _). cbn [rbind]. rewrite Hm. cbn [rbind].
    rewrite (A 4%nat a4 eq_refl : argument lex k 4 = _). cbn [rbind].
    rewrite (A 5%nat a5 eq_refl : argument lex k 5 = _). cbn [rbind].
    rewrite (A 6%nat a6 eq_refl : argument lex k 6 = _). cbn [rbind].
    rewrite (A 7%nat a7 eq_refl : argument lex k 7 = _). cbn [rbind].
    rewrite (A 8%nat um eq_refl : argument lex k 8 = _). cbn [rbind]. rewrite Hum. cbn [rbind].
    rewrite (A 9%nat vm eq_refl : argument lex k 9 = _). cbn [rbind]. rewrite Hvm. cbn [rbind].
    rewrite (A 10%nat uk eq_refl : argument lex k 10 = _). cbn [rbind]. rewrite Huk. cbn [rbind].
    rewrite (A 11%nat vk eq_refl : argument lex k 11 = _). cbn [rbind]. rewrite Hvk. cbn [rbind].
    eexists. split; [reflexivity|constructor].
  - destruct (S4 T) as (r & N & O). cbn [runFn]. arg_at E 1%nat. rewrite N. cbn [rbind]. eexists. split; [reflexivity|].
    destruct (String.eqb_spec (str (trimSpace (dType (lexeme lex (str r))))) "SPHERICAL_SURFACE") as [Ts|_].
    + constructor; [|constructor]. destruct O as [O|O]; [left; left; symmetry; exact O|right]. cbn [fst snd runFn].
      unfold lexeme in Ts. unfold look_of in O. fold (str r) in O. destruct (mget lex (str r)) as [d'|] eqn:E'; [|discriminate].
      destruct (nth_args _ _ (O _ _ eq_refl Ts)) as (a & Na). arg_at E' 2%nat. rewrite Na. exists []. split; [reflexivity|constructor].
    + destruct (String.eqb _ _); [|constructor]. constructor; [apply quiet_fine; exact I|constructor].
  - destruct (S1 T) as (r & N). cbn [runFn]. arg_at E 2%nat. rewrite N. cbn [rbind]. eexists. split; [reflexivity|].
    constructor; [apply quiet_fine; exact I|constructor; [apply quiet_fine; exact I|constructor]].
  - destruct (S2 T) as (r & N & O). cbn [runFn]. arg_at E 2%nat. rewrite N. cbn [rbind]. eexists. split; [reflexivity|].
    constructor; [|constructor]. destruct O as [O|(ty & args & L & A)]; [left; left; symmetry; exact O|right]. cbn [fst snd runFn].
    unfold look_of in L. fold (str r) in L. destruct (mget lex (str r)) as [d'|] eqn:E'; [|discriminate]. injection L as <- <-.
    destruct (nth_args _ _ A) as (a & Na). arg_at E' 2%nat. rewrite Na. cbn [rbind]. eexists. split; [reflexivity|].
    constructor; [exact I|constructor; [exact I|constructor]].
  - destruct (nth_args _ _ (S5 T)) as (a & Na). cbn [runFn]. arg_at E 2%nat. rewrite Na. eexists. split; [reflexivity|constructor].
Qed.
Lemma Parse_fine fuel ord lex : NoDup (map fst lex) -> safe_table (look_of lex) -> order_ok ord -> Parse fuel ord lex <> Panic.
Proof.
  intros N W Ho. unfold Parse.
  assert (H : forall k d, In (k, d) (ord lex) -> mget lex k = Some d).
  { intros k d H. apply mget_In; [exact N|]. apply (Permutation_in _ (Permutation_sym (Ho lex))). exact H. }
  assert (S : forall entries visited ran, (forall k d, In (k, d) entries -> mget lex k = Some d) -> parseEntries fuel lex entries visited ran <> Panic).
  { induction entries as [|[key d] entries IH]; intros visited ran Q; [discriminate|]. cbn [parseEntries].
    assert (S : inferLoop fuel lex [(bridge d, key)] visited ran <> Panic).
    { assert (Ed : mget lex key = Some d) by (apply Q; left; reflexivity). apply root_safe, safe_root; [exact Ed|]. apply W. unfold look_of. rewrite Ed. reflexivity. }
    destruct (inferLoop fuel lex [(bridge d, key)] visited ran) as [[v r]| |]; cbn [rbind]; [|congruence|discriminate].
    apply IH. intros k d' Hd. apply Q. right. exact Hd. }
  specialize (S (ord lex) [] [] H). destruct (parseEntries fuel lex (ord lex) [] []) as [[v r]| |]; cbn [rbind]; congruence.
Qed.

(** ** a definition that is not safe crashes when it is visited first *)
Definition first_key (k : string) (m : SymbolTable) : SymbolTable :=
  filter (fun e => String.eqb k (fst e)) m ++ filter (fun e => negb (String.eqb k (fst e))) m.
Lemma first_key_ok k : order_ok (first_key k).
Proof.
  intros m. unfold first_key. induction m as [|[k' v] m IH]; [constructor|]. cbn [filter fst].
  destruct (String.eqb k k'); cbn [negb app]; [constructor; exact IH|]. apply Permutation_cons_app. exact IH.
Qed.
Lemma first_key_head k d m : NoDup (map fst m) -> mget m k = Some d -> exists m', first_key k m = (k, d) :: m'.
Proof.
  intros N E. unfold first_key. assert (P : exists r, filter (fun e => String.eqb k (fst e)) m = (k, d) :: r).
  { induction m as [|[k' v] m IH]; [discriminate|]. cbn [mget] in E. cbn [filter fst]. destruct (String.eqb_spec k k') as [<-|Hk].
    - injection E as ->. eauto.
    - apply IH; [inversion N; auto|exact E]. }
  destruct P as (r & ->). eexists. reflexivity.
Qed.
Definition bad_root (lex : SymbolTable) (s : parseState) : Prop :=
  runFn lex (fst s) (snd s) = Panic \/
  exists fn' k' new, runFn lex (fst s) (snd s) = Ok ((fn', k') :: new) /\ k' <> snd s /\ runFn lex fn' k' = Panic.
Lemma bad_root_panic fuel lex s : bad_root lex s -> (2 <= fuel)%nat -> inferLoop fuel lex [s] [] [] = Panic.
Proof.
  destruct s as [fn k]. intros B L. destruct fuel as [|[|fuel]]; [lia|lia|]. cbn [inferLoop visitedKey existsb]. unfold bad_root in B. cbn [fst snd] in B.
  destruct B as [->|(fn' & k' & new & -> & N & P)]; [reflexivity|]. cbn [rbind app].
  rewrite (proj2 (String.eqb_neq k' k) N), P. reflexivity.
Qed.
Lemma dec_args (look : lookup) k r (P : list text -> Prop) : (forall l, P l \/ ~ P l) -> other_args look k r P \/
  (str r <> k /\ forall ty args, look (str r) = Some (ty, args) -> ~ P args).
Proof.
  intros D. unfold other_args. fold (str r). destruct (String.string_dec (str r) k) as [E|E]; [left; left; exact E|].
  destruct (look (str r)) as [[ty args]|] eqn:L.
  - destruct (D args) as [Q|Q]; [left; right; eauto|right]. split; [exact E|]. intros ty' args' H. injection H as <- <-. exact Q.
  - right. split; [exact E|]. discriminate.
Qed.
Lemma imp_dec (A : Prop) (B : Prop) : {A} + {~A} -> B \/ ~ B -> (A -> B) \/ (A /\ ~ B).
Proof. tauto. Qed.
Lemma array_like_dec t : array_like t \/ ~ array_like t.
Proof. unfold array_like. lia. Qed.
Lemma matrix_like_dec t : matrix_like t \/ ~ matrix_like t.
Proof.
  pose proof (getMatrix_no_div t). destruct (getMatrix t) as [m| |] eqn:E; [left; apply getMatrix_iff; eauto| |congruence].
  right. intros Q. apply getMatrix_iff in Q. destruct Q as (m & Q). congruence.
Qed.
Ltac step_panic E := match goal with
  | |- context [rbind (argument ?l ?k ?i) _] => let n := eval compute in (Z.to_nat i) in rewrite (argument_at l k _ n E : argument l k i = _)
  | |- context [match nth_error ?l ?i with _ => _ end] => destruct (nth_error l i) eqn:?; cbn [rbind]; [|left; reflexivity]
  | |- context [rbind (getArray ?a) _] => let H := fresh "Hl" in destruct (array_like_dec a) as [H|H];
      [let Q := fresh in let x := fresh in let Ex := fresh "Ga" in pose proof (proj2 (getArray_iff a) H) as Q; destruct Q as (x & Ex); rewrite Ex; cbn [rbind]
      |rewrite (getArray_panic a H); left; reflexivity]
  | |- context [rbind (getMatrix ?a) _] => let H := fresh "Hl" in destruct (matrix_like_dec a) as [H|H];
      [let Q := fresh in let x := fresh in let Ex := fresh "Ga" in pose proof (proj2 (getMatrix_iff a) H) as Q; destruct Q as (x & Ex); rewrite Ex; cbn [rbind]
      |rewrite (getMatrix_panic a H); left; reflexivity]
  end.
Lemma bspline_args lex k d : mget lex k = Some d -> runFn lex FBSplineSurfaceWithKnots k = Panic \/
  exists a0 a1 a2 m a4 a5 a6 a7 um vm uk vk rest,
     dArguments d = [a0; a1; a2; m; a4; a5; a6; a7; um; vm; uk; vk] ++ rest /\
     matrix_like m /\ array_like um /\ array_like vm /\ array_like uk /\ array_like vk.
Proof.
  intros E. cbn [runFn]. repeat step_panic E. right. remember (dArguments d) as args eqn:A.
  destruct args as [|a0 [|a1 [|a2 [|m [|a4 [|a5 [|a6 [|a7 [|um [|vm [|uk [|vk rest]]]]]]]]]]]]; try discriminate. cbn [nth_error] in *.
  repeat match goal with Q : Some _ = Some _ |- _ => injection Q as Q; subst end.
  do 13 eexists. split; [cbn [app]; reflexivity|]. repeat split; first [assumption | apply Hl].
Qed.
Lemma root_dec lex k d : mget lex k = Some d -> safe_def (look_of lex) k (dType d) (dArguments d) \/ bad_root lex (bridge d, k).
Proof.
  intros E. unfold bad_root. cbn [fst snd].
  assert (L : look_of lex k = Some (dType d, dArguments d)) by (unfold look_of; rewrite E; reflexivity).
  assert (B : forall t fn, str (dType d) = t -> In (t, fn) [("PRODUCT_DEFINITION", FProductDefinition); ("PRODUCT_DEFINITION_SHAPE", FProductDefinitionShape); ("AXIS_2_PLACEMENT_3D", FAxis2Placement3D);
     ("ADVENCED_FACE", FAdvancedFace); ("SPHERICAL_SURFACE", FSphericalSurface); ("B_SPLINE_SURFACE_WITH_KNOTS", FBSplineSurfaceWithKnots)]%string -> bridge d = fn).
  { intros t fn Ht Hin. unfold bridge. rewrite Ht. cbn in Hin. repeat (destruct Hin as [Q|Hin]; [injection Q as <- <-; reflexivity|]). destruct Hin. }
  unfold safe_def. cbv zeta. fold (str (dType d)).
  destruct (String.string_dec (str (dType d)) "PRODUCT_DEFINITION") as [T1|T1].
  { rewrite (B _ _ T1 ltac:(cbn; tauto)). cbn [runFn]. arg_at E 2%nat. destruct (nth_error (dArguments d) 2) as [r|] eqn:N; [|right; left; reflexivity].
    left. rewrite T1. repeat split; intros Q; try discriminate Q. eauto. }
  destruct (String.string_dec (str (dType d)) "PRODUCT_DEFINITION_SHAPE") as [T2|T2].
  { rewrite (B _ _ T2 ltac:(cbn; tauto)). cbn [runFn]. arg_at E 2%nat. destruct (nth_error (dArguments d) 2) as [r|] eqn:N; [|right; left; reflexivity]. cbn [rbind].
    destruct (dec_args (look_of lex) k r (fun args' => nth_error args' 2 <> None)) as [O|(Nk & O)].
    { intros l. destruct (nth_error l 2); [left; discriminate|right; congruence]. }
    - left. rewrite T2. repeat split; intros Q; try discriminate Q. eauto.
    - right. right. exists FProductDefinition, (str r), []. split; [reflexivity|]. split; [exact Nk|]. cbn [runFn]. rewrite (argument_iff lex (str r) 2 : argument lex (str r) 2 = _).
      unfold look_of in O. destruct (mget lex (str r)) as [d'|]; [|reflexivity]. specialize (O _ _ eq_refl). destruct (nth_error (dArguments d') 2); [destruct O; discriminate|reflexivity]. }
  destruct (String.string_dec (str (dType d)) "AXIS_2_PLACEMENT_3D") as [T3|T3].
  { rewrite (B _ _ T3 ltac:(cbn; tauto)). cbn [runFn]. arg_at E 1%nat. destruct (nth_error (dArguments d) 1) as [r|] eqn:N; [|right; left; reflexivity]. cbn [rbind].
    destruct (dec_args (look_of lex) k r (fun args' => exists c, nth_error args' 1 = Some c /\ array_like c)) as [O|(Nk & O)].
    { intros l. destruct (nth_error l 1) as [c|]; [|right; intros (c & Q & _); discriminate]. destruct (array_like_dec c); [left; eauto|right; intros (c' & [= <-] & Q); auto]. }
    - left. rewrite T3. repeat split; intros Q; try discriminate Q. eauto.
    - right. right. exists FCartesianPoint, (str r), [(FDirection, str r); (FDirection, str r)]. split; [reflexivity|]. split; [exact Nk|]. cbn [runFn]. rewrite (argument_iff lex (str r) 1 : argument lex (str r) 1 = _).
      unfold look_of in O. destruct (mget lex (str r)) as [d'|]; [|reflexivity]. specialize (O _ _ eq_refl). destruct (nth_error (dArguments d') 1) as [c|]; [|reflexivity]. cbn [rbind].
      rewrite getArray_panic; [reflexivity|]. intros Q. apply O. eauto. }
  destruct (String.string_dec (str (dType d)) "ADVENCED_FACE") as [T4|T4].
  { rewrite (B _ _ T4 ltac:(cbn; tauto)). cbn [runFn]. arg_at E 1%nat. destruct (nth_error (dArguments d) 1) as [r|] eqn:N; [|right; left; reflexivity]. cbn [rbind].
    destruct (String.string_dec (str r) k) as [Er|Er].
    { left. rewrite T4. repeat split; intros Q; try discriminate Q. exists r. split; [reflexivity|left; exact Er]. }
    destruct (String.eqb_spec (str (trimSpace (dType (lexeme lex (str r))))) "SPHERICAL_SURFACE") as [Ts|Ts].
    - unfold lexeme in Ts. destruct (mget lex (str r)) as [d'|] eqn:E'; [|discriminate]. destruct (nth_error (dArguments d') 2) as [a|] eqn:N'; [|right; right; exists FSphericalSurface, (str r), []; split; [reflexivity|]; split; [exact Er|]; cbn [runFn]; rewrite (argument_iff lex (str r) 2 : argument lex (str r) 2 = _), E', N'; reflexivity].
      left. rewrite T4. repeat split; intros Q; try discriminate Q. exists r. split; [reflexivity|right]. fold (str r). unfold look_of. rewrite E'. intros ty' args' [= <- <-] _. rewrite N'. discriminate.
    - left. rewrite T4. repeat split; intros Q; try discriminate Q. exists r. split; [reflexivity|right]. fold (str r). unfold look_of, lexeme in *.
      destruct (mget lex (str r)) as [d'|]; [|discriminate]. intros ty' args' [= <- <-] Q2. contradiction. }
  destruct (String.string_dec (str (dType d)) "SPHERICAL_SURFACE") as [T5|T5].
  { rewrite (B _ _ T5 ltac:(cbn; tauto)). cbn [runFn]. arg_at E 2%nat. destruct (nth_error (dArguments d) 2) as [r|] eqn:N; [|right; left; reflexivity].
    left. rewrite T5. repeat split; intros Q; try discriminate Q. discriminate. }
  destruct (String.string_dec (str (dType d)) "B_SPLINE_SURFACE_WITH_KNOTS") as [T6|T6].
  { rewrite (B _ _ T6 ltac:(cbn; tauto)). destruct (bspline_args lex k d E) as [X|X]; [right; left; exact X|left].
    rewrite T6. repeat split; intros Q; try discriminate Q. exact X. }
  left. repeat split; intros Q; contradiction.
Qed.
Lemma Parse_bad lex k d fuel : NoDup (map fst lex) -> mget lex k = Some d -> bad_root lex (bridge d, k) -> (2 <= fuel)%nat ->
  Parse fuel (first_key k) lex = Panic.
Proof.
  intros N E B L. unfold Parse. destruct (first_key_head k d lex N E) as (m & ->). cbn [parseEntries].
  pose proof (bad_root_panic fuel lex _ B L) as P. unfold parseState, SymbolTable, gomap in *. rewrite P. reflexivity.
Qed.
