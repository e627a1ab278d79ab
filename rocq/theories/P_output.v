(** Proofs about what Parse prints. *)
From Coq Require Import Ascii String ZArith List Bool Lia Permutation.
From Verif Require Import Base GoMap M_step M_job M_output Spec_step Spec_surface Spec_output P_step P_parse P_job.
Import ListNotations.
Open Scope Z_scope.

Definition unfinished : string -> bytes := says.
(** the lines of one handler; for a handler that panics, those before the panic *)
Definition block (addr : parseFn -> bytes) (lex : SymbolTable) (s : parseState) : bytes :=
  let '(fn, key) := s in
  match fn with
  | FSkipUtility => skipped (dType (lexeme lex key))
  | FAdvancedFace =>
      match argument lex key 1 with
      | Ok nid => let ty := dType (lexeme lex (str nid)) in
          if String.eqb (str (trimSpace ty)) "SPHERICAL_SURFACE" then sphere_face_lines ty (addr FAdvancedFace) (lit key) (addr FSphericalSurface) nid
          else face_lines ty
      | _ => unfinished "parsing advanced face"
      end
  | FSphericalSurface => match argument lex key 2 with Ok r => sphere_lines r | _ => unfinished "Bazinga!!!!!!" end
  | FToroidalSurface => torus_lines
  | FBSplineSurfaceWithKnots =>
      surface_head (lit (Itoa (Z.of_nat (length (dArguments (lexeme lex key)))))) ++ match surfaceJob lex key with Ok j => print j | _ => [] end
  | _ => []
  end.
Definition blocks addr lex (ran : list parseState) : bytes := flat_map (block addr lex) ran.

Lemma lit_str b : lit (str b) = b.
Proof. apply list_ascii_of_string_of_list_ascii. Qed.
Lemma outFn_result addr lex next fn key : snd (outFn addr lex next fn key) = runFn lex fn key.
Proof.
  destruct fn; cbn [outFn]; try reflexivity.
  - unfold after, quietly, obind. cbn [fst snd]. rewrite runFn_job. destruct (surfaceJob lex key); reflexivity.
  - unfold after, quietly, obind. cbn [fst snd runFn]. destruct (argument lex key 1) as [n| |]; cbn [rbind]; try reflexivity. cbn [fst snd].
    destruct (String.eqb _ "SPHERICAL_SURFACE"); [reflexivity|]. destruct (String.eqb _ "TOROIDAL_SURFACE"); reflexivity.
  - unfold after, quietly, obind. cbn [fst snd runFn]. destruct (argument lex key 2); reflexivity.
Qed.
(** the printed work list: a face is run as the only entry *)
Lemma outFn_block addr lex next fn key : (fn = FAdvancedFace -> next = [(fn, key)]) -> fst (outFn addr lex next fn key) = block addr lex (fn, key).
Proof.
  intros A. destruct fn; cbn [outFn]; try reflexivity.
  - unfold after, quietly. cbn [fst snd]. rewrite app_nil_r. reflexivity.
  - unfold after, quietly, obind, block, surface_head, says, line, Println. cbn [fst snd]. destruct (surfaceJob lex key); cbn [fst snd]; rewrite <- ?app_assoc, ?app_nil_r; reflexivity.
  - rewrite (A eq_refl). unfold after, quietly, obind, block. cbn [fst snd]. destruct (argument lex key 1) as [n| |]; cbn [fst snd]; try reflexivity.
    cbv zeta. destruct (String.eqb _ "SPHERICAL_SURFACE").
    + cbn [fst snd app]. rewrite !app_nil_r. unfold sphere_face_lines, face_lines. rewrite <- !app_assoc. cbn [map app]. unfold showState. cbn [fst snd spaced]. rewrite lit_str.
      unfold says, line, Println, showSlice, shown_list, Spec_surface.shown_list. cbn [spaced blank_joined]. repeat rewrite <- app_assoc. cbn [app]. repeat rewrite <- app_assoc. reflexivity.
    + destruct (String.eqb _ "TOROIDAL_SURFACE"); cbn [fst snd app]; rewrite ?app_nil_r; reflexivity.
  - unfold after, quietly, obind, block. cbn [fst snd]. destruct (argument lex key 2) as [r| |]; cbn [fst snd app]; rewrite ?app_nil_r; reflexivity.
Qed.
(** only Parse itself puts a face on the work list *)
Definition no_face (s : parseState) : Prop := fst s <> FAdvancedFace.
Lemma runFn_no_face lex fn key new : runFn lex fn key = Ok new -> Forall no_face new.
Proof.
  destruct fn; cbn [runFn]; intros E; repeat match type of E with rbind ?m _ = _ => destruct m; cbn [rbind] in E; try discriminate E end;
    injection E as <-; try (repeat constructor; discriminate).
  destruct (String.eqb _ "SPHERICAL_SURFACE"); [repeat constructor; discriminate|]. destruct (String.eqb _ "TOROIDAL_SURFACE"); repeat constructor; discriminate.
Qed.
Definition queue (next : list parseState) : Prop := match next with [] => True | s :: rest => Forall no_face rest /\ (fst s = FAdvancedFace -> rest = []) end.
Lemma no_face_queue next : Forall no_face next -> queue next.
Proof. destruct next as [|s rest]; [constructor|]. intros H. inversion H as [|? ? N F]; subst. split; [exact F|]. intros E. contradiction (N E). Qed.
Lemma inferOut_ok fuel : forall addr lex next visited ran, queue next ->
  let o := inferOut fuel addr lex next visited ran in
  snd o = inferLoop fuel lex next visited ran /\
  match snd o with
  | Ok (v, r) => exists more, r = ran ++ more /\ fst o = blocks addr lex more
  | Panic => exists more fn key, fst o = blocks addr lex (more ++ [(fn, key)]) /\ runFn lex fn key = Panic /\ NoDup (map snd (more ++ [(fn, key)])) /\
               (forall k, In k (map snd (more ++ [(fn, key)])) -> ~ In k visited)
  | Diverge => True
  end.
Proof.
  induction fuel as [|fuel IH]; intros addr lex next visited ran Q; destruct next as [|[fn key] rest]; cbn zeta; cbn [inferOut inferLoop].
  - split; [reflexivity|]. exists []. rewrite app_nil_r. split; reflexivity.
  - split; [reflexivity|exact I].
  - split; [reflexivity|]. exists []. rewrite app_nil_r. split; reflexivity.
  - destruct Q as (Q1 & Q2). destruct (visitedKey visited key) eqn:V; [apply IH, no_face_queue, Q1|]. apply visitedKey_false in V.
    match goal with |- context [outFn _ _ ?q _ _] => set (q0 := q); assert (B : fst (outFn addr lex q0 fn key) = block addr lex (fn, key)) by (apply outFn_block; intros A; unfold q0; rewrite (Q2 A); reflexivity);
      pose proof (outFn_result addr lex q0 fn key) as R; unfold obind; destruct (outFn addr lex q0 fn key) as [ob ores]; clear q0 end.
    cbn [fst snd] in B, R |- *. subst ob ores.
    destruct (runFn lex fn key) as [new| |] eqn:E; cbn [rbind fst snd].
    + specialize (IH addr lex (rest ++ new) (key :: visited) (ran ++ [(fn, key)])). cbv zeta in IH. destruct IH as (R1 & R2).
      { apply no_face_queue, Forall_app. split; [exact Q1|exact (runFn_no_face lex fn key new E)]. }
      unfold after. cbn [fst snd]. split; [exact R1|]. destruct (snd (inferOut fuel addr lex (rest ++ new) (key :: visited) (ran ++ [(fn, key)]))) as [[v r]| |]; [| |exact I].
      * destruct R2 as (more & -> & O). exists ((fn, key) :: more). rewrite <- app_assoc. split; [reflexivity|]. rewrite O. reflexivity.
      * destruct R2 as (more & f & k & O & P & N & D). exists ((fn, key) :: more), f, k. split; [rewrite O; reflexivity|]. split; [exact P|]. cbn [app map snd]. split.
        -- constructor; [|exact N]. intros I. apply (D key I). left. reflexivity.
        -- intros x [<-|I]; [exact V|]. intros J. apply (D x I). right. exact J.
    + split; [reflexivity|]. exists [], fn, key. split; [cbn [app]; unfold blocks; cbn [flat_map]; rewrite app_nil_r; reflexivity|]. split; [exact E|]. split; [cbn; constructor; [intros []|constructor]|].
      intros k [<-|[]]. exact V.
    + split; [reflexivity|exact I].
Qed.
Lemma blocks_app addr lex a b : blocks addr lex (a ++ b) = blocks addr lex a ++ blocks addr lex b.
Proof. apply flat_map_app. Qed.
Lemma inferLoop_visits fuel lex : forall next visited ran v r, inferLoop fuel lex next visited ran = Ok (v, r) -> inv visited ran -> inv v r.
Proof.
  induction fuel as [|fuel IH]; intros [|[fn key] next] visited ran v r E I; cbn [inferLoop] in E; try congruence.
  destruct (visitedKey visited key) eqn:V; [exact (IH _ _ _ _ _ E I)|]. apply visitedKey_false in V.
  destruct (runFn lex fn key) as [new| |]; cbn [rbind] in E; try discriminate E. exact (IH _ _ _ _ _ E (inv_step _ _ fn _ I V)).
Qed.
Lemma NoDup_two {T} (a b : list T) : NoDup a -> NoDup b -> (forall x, In x a -> ~ In x b) -> NoDup (a ++ b).
Proof.
  induction a as [|x a IH]; intros A B D; [exact B|]. inversion A; subst. cbn [app]. constructor.
  - intros I. apply in_app_or in I. destruct I as [I|I]; [contradiction|]. exact (D x (or_introl eq_refl) I).
  - apply IH; [assumption|exact B|]. intros y Hy. apply D. right. exact Hy.
Qed.
Lemma entriesOut_ok fuel addr lex entries : forall visited ran, inv visited ran ->
  let o := entriesOut fuel addr lex entries visited ran in
  snd o = parseEntries fuel lex entries visited ran /\
  match snd o with
  | Ok (v, r) => exists more, r = ran ++ more /\ fst o = blocks addr lex more
  | Panic => exists more fn key, fst o = blocks addr lex (more ++ [(fn, key)]) /\ runFn lex fn key = Panic /\ NoDup (map snd (ran ++ more ++ [(fn, key)]))
  | Diverge => True
  end.
Proof.
  induction entries as [|[key d] entries IH]; intros visited ran Hi; cbn zeta; cbn [entriesOut parseEntries].
  { split; [reflexivity|]. exists []. rewrite app_nil_r. split; reflexivity. }
  pose proof (inferOut_ok fuel addr lex [(bridge d, key)] visited ran (conj (Forall_nil _) (fun _ => eq_refl))) as (R1 & R2). cbv zeta in *.
  unfold obind. rewrite R1 in *. destruct (inferLoop fuel lex [(bridge d, key)] visited ran) as [[v r]| |] eqn:L; cbn [rbind fst snd].
  - destruct R2 as (more & -> & O). pose proof (inferLoop_visits _ _ _ _ _ _ _ L Hi) as Hi'. specialize (IH v (ran ++ more) Hi'). cbv zeta in IH. destruct IH as (S1 & S2). unfold after. cbn [fst snd].
    split; [exact S1|]. rewrite S1 in *. destruct (parseEntries fuel lex entries v (ran ++ more)) as [[v' r']| |]; [| |exact I].
    + destruct S2 as (m2 & -> & O2). exists (more ++ m2). rewrite app_assoc. split; [reflexivity|]. rewrite blocks_app, O, O2. reflexivity.
    + destruct S2 as (m2 & f & k & O2 & P & N). exists (more ++ m2), f, k. rewrite <- app_assoc, blocks_app, O, O2. split; [reflexivity|]. split; [exact P|]. rewrite <- app_assoc in N. exact N.
  - split; [reflexivity|]. destruct R2 as (more & f & k & O & P & N & D). exists more, f, k. split; [exact O|]. split; [exact P|]. rewrite map_app. destruct Hi as (H1 & H2).
    apply NoDup_two; [exact H1|exact N|]. intros x Hx Hy. apply (D x Hy), H2, Hx.
  - split; [reflexivity|exact I].
Qed.
Lemma ParseOut_ok fuel addr ord lex : let o := ParseOut fuel addr ord lex in
  snd o = Parse fuel ord lex /\
  match snd o with
  | Ok ran => fst o = blocks addr lex ran
  | Panic => exists ran fn key, fst o = blocks addr lex (ran ++ [(fn, key)]) /\ runFn lex fn key = Panic /\ NoDup (map snd (ran ++ [(fn, key)]))
  | Diverge => True
  end.
Proof.
  cbn zeta. unfold ParseOut, Parse. pose proof (entriesOut_ok fuel addr lex (ord lex) [] []) as H. cbv zeta in H.
  destruct H as (R1 & R2). { split; [constructor|]. intros k. cbn. tauto. }
  unfold obind. rewrite R1 in *. destruct (parseEntries fuel lex (ord lex) [] []) as [[v r]| |]; cbn [rbind fst snd].
  - unfold after, quietly. cbn [fst snd]. split; [reflexivity|]. destruct R2 as (more & -> & ->). apply app_nil_r.
  - split; [reflexivity|exact R2].
  - split; [reflexivity|exact I].
Qed.
(** ** tables without definitions that pass keys on *)
Definition linked (fn : parseFn) : Prop := fn = FAxis2Placement3D \/ fn = FAdvancedFace \/ fn = FProductDefinition \/ fn = FProductDefinitionShape.
Lemma unlinked_run lex fn key new : ~ linked fn -> runFn lex fn key = Ok new -> new = [].
Proof.
  unfold linked. destruct fn; cbn [runFn]; intros N E; try (exfalso; apply N; tauto);
  repeat match type of E with rbind ?m _ = _ => destruct m; cbn [rbind] in E; try discriminate E end; injection E as <-; reflexivity.
Qed.
Lemma unlinked_entries fuel lex entries : (2 <= fuel)%nat -> forall visited ran v r,
  NoDup (map fst entries) -> (forall k, In k (map fst entries) -> ~ In k visited) -> Forall (fun e => ~ linked (bridge (snd e))) entries ->
  parseEntries fuel lex entries visited ran = Ok (v, r) -> r = ran ++ map (fun e => (bridge (snd e), fst e)) entries.
Proof.
  intros Hf. induction entries as [|[k d] entries IH]; intros visited ran v r N D F E; cbn [parseEntries] in E; [cbn; rewrite app_nil_r; congruence|].
  inversion F as [|? ? F1 F2]; subst. cbn [snd] in F1. inversion N as [|? ? N1 N2]; subst.
  destruct fuel as [|[|fuel]]; [lia|lia|]. cbn [inferLoop] in E. rewrite (proj2 (visitedKey_false visited k) (D k (or_introl eq_refl))) in E.
  destruct (runFn lex (bridge d) k) as [new| |] eqn:R; cbn [rbind] in E; try discriminate E. rewrite (unlinked_run lex _ _ _ F1 R) in E. cbn [app rbind] in E.
  apply (IH (k :: visited) (ran ++ [(bridge d, k)])) in E; [|exact N2| |exact F2].
  - rewrite E, <- app_assoc. reflexivity.
  - intros x Hx [<-|Hv]; [apply N1, Hx|]. exact (D x (or_intror Hx) Hv).
Qed.
