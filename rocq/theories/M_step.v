(** Model of package step (/repo/step: lex.go, util.go, parse.go, bridge.go, template.go).

    Go strings are byte lists ([bytes]); map keys are the same strings as Coq [string]s (via [str]).
    What is printed is modelled in M_job.v and M_output.v. Not modelled: opening the file (Lex takes its contents), flag.Parse, the channel and
    the unused functions emit, manifoldSolidBRep, vectorLoop, vertexPoint and marshallToJSON. *)
From Coq Require Import Ascii String ZArith List Bool.
From Verif Require Import Base GoMap.
Import ListNotations.
Open Scope res_scope.
Open Scope Z_scope.

Notation bytes := (list ascii).
Definition bv (b : ascii) : Z := Z.of_N (N_of_ascii b).
Definition chr (z : Z) : ascii := ascii_of_N (Z.to_N z).
Definition str : bytes -> string := string_of_list_ascii.
Definition lit : string -> bytes := list_ascii_of_string.

(** ** Go's UTF-8 (language spec "For statements with range clause", package unicode/utf8) *)
Definition runeError : Z := 65533.
Definition cont (b : ascii) : bool := (128 <=? bv b) && (bv b <? 192).
Definition between (lo hi : Z) (b : ascii) : bool := (lo <=? bv b) && (bv b <=? hi).
(* the ranges of the second byte are those of utf8.acceptRanges *)
Definition utf8_2 (b0 b1 : ascii) : bool := between 194 223 b0 && cont b1.
Definition utf8_3 (b0 b1 b2 : ascii) : bool :=
  (((bv b0 =? 224) && between 160 191 b1) || (between 225 236 b0 && cont b1) ||
   ((bv b0 =? 237) && between 128 159 b1) || (between 238 239 b0 && cont b1)) && cont b2.
Definition utf8_4 (b0 b1 b2 b3 : ascii) : bool :=
  (((bv b0 =? 240) && between 144 191 b1) || (between 241 243 b0 && cont b1) ||
   ((bv b0 =? 244) && between 128 143 b1)) && cont b2 && cont b3.
(* the runes visited by [for _, r := range s] *)
Fixpoint runes (l : bytes) : list Z :=
  match l with
  | [] => []
  | b0 :: t0 =>
    if bv b0 <? 128 then bv b0 :: runes t0
    else match t0 with
    | [] => runeError :: runes t0
    | b1 :: t1 =>
      if utf8_2 b0 b1 then ((bv b0 - 192) * 64 + (bv b1 - 128)) :: runes t1
      else match t1 with
      | [] => runeError :: runes t0
      | b2 :: t2 =>
        if utf8_3 b0 b1 b2 then ((bv b0 - 224) * 4096 + (bv b1 - 128) * 64 + (bv b2 - 128)) :: runes t2
        else match t2 with
        | [] => runeError :: runes t0
        | b3 :: t3 =>
          if utf8_4 b0 b1 b2 b3
          then ((bv b0 - 240) * 262144 + (bv b1 - 128) * 4096 + (bv b2 - 128) * 64 + (bv b3 - 128)) :: runes t3
          else runeError :: runes t0
        end
      end
    end
  end.
(* a code point that is not a surrogate *)
Definition scalar (r : Z) : bool := (0 <=? r) && (r <? 1114112) && negb ((55296 <=? r) && (r <=? 57343)).
(* utf8.AppendRune / string([]rune) / Builder.WriteRune *)
Definition encodeRune (r0 : Z) : bytes :=
  let r := if scalar r0 then r0 else runeError in
  if r <? 128 then [chr r]
  else if r <? 2048 then [chr (192 + r / 64); chr (128 + r mod 64)]
  else if r <? 65536 then [chr (224 + r / 4096); chr (128 + (r / 64) mod 64); chr (128 + r mod 64)]
  else [chr (240 + r / 262144); chr (128 + (r / 4096) mod 64); chr (128 + (r / 64) mod 64); chr (128 + r mod 64)].
Definition encode (l : list Z) : bytes := flat_map encodeRune l.

(* unicode.IsSpace *)
Definition isSpace (r : Z) : bool :=
  ((9 <=? r) && (r <=? 13)) || (r =? 32) || (r =? 133) || (r =? 160) || (r =? 5760) ||
  ((8192 <=? r) && (r <=? 8202)) || (r =? 8232) || (r =? 8233) || (r =? 8239) || (r =? 8287) || (r =? 12288).

(** ** util.go *)
(* step/util.go:17-30 and, identically, 50-63: the state is (finished pieces, openBrackets, current piece) *)
Definition splitStep (s : list bytes * Z * list Z) (r : Z) : list bytes * Z * list Z :=
  let '(arguments, openBrackets, argument) := s in
  let openBrackets := if r =? 40 then openBrackets + 1 else openBrackets in
  let openBrackets := if r =? 41 then openBrackets - 1 else openBrackets in
  if (openBrackets =? 0) && (r =? 44) then (arguments ++ [encode argument], openBrackets, [])
  else (arguments, openBrackets, argument ++ [r]).
(* step/util.go:13-35 *)
Definition getArguments (argumentsText : bytes) : res (list bytes) :=
  let '(arguments, _, argument) := fold_left splitStep (runes argumentsText) ([], 0, []) in
  (* string(argument)[:len(argument)-2] *)
  if Z.of_nat (length argument) - 2 <? 0 then Panic
  else Ok (arguments ++ [firstn (length argument - 2) (encode argument)]).
(* step/util.go:44-66 *)
Definition getArray (arrayText : bytes) : res (list bytes) :=
  (* arrayText[1 : len(arrayText)-1] *)
  if Z.of_nat (length arrayText) <? 2 then Panic
  else
    let arrayText := firstn (length arrayText - 2) (skipn 1 arrayText) in
    let '(array, _, element) := fold_left splitStep (runes arrayText) ([], 0, []) in
    Ok (array ++ [encode element]).
(* step/util.go:69-77 *)
Fixpoint getRows (cols : list bytes) : res (list (list bytes)) :=
  match cols with
  | [] => Ok []
  | col :: cols' => let! row := getArray col in let! rows := getRows cols' in Ok (row :: rows)
  end.
Definition getMatrix (matrixText : bytes) : res (list (list bytes)) :=
  let! cols := getArray matrixText in getRows cols.
(* step/util.go:80-89 *)
Definition getLogical (logicText : bytes) : bool :=
  if String.eqb (str logicText) ".T." then true else if String.eqb (str logicText) ".F." then false else false.
(* step/util.go:91-100 *)
Definition stripWhiteSpaces (s : bytes) : bytes :=
  flat_map (fun ch => if negb (isSpace ch) then encodeRune ch else []) (runes s).

(** ** lex.go *)
(* step/lex.go:34-37 *)
Record Definition_ := mkDef { dType : bytes; dArguments : list bytes }.
Definition SymbolTable := gomap Definition_.
(* strings.SplitN(s, sep, 2) for a one-byte separator *)
Fixpoint splitN2 (sep : ascii) (s : bytes) : list bytes :=
  match s with
  | [] => [[]]
  | b :: t => if Ascii.eqb b sep then [[]; t]
              else match splitN2 sep t with p :: q => (b :: p) :: q | [] => [[b]] end
  end.
(* step/lex.go:133-143 *)
Definition tokenize (definitionText : bytes) : res Definition_ :=
  let split := splitN2 "(" definitionText in
  let! argumentsText := zget split 1 in
  let! definitionArguments := getArguments argumentsText in
  let! s0 := zget split 0 in
  Ok (mkDef (stripWhiteSpaces s0) definitionArguments).
(* step/lex.go:124-130 *)
Definition add (st : SymbolTable) (symbolText : bytes) : res SymbolTable :=
  let split := splitN2 "=" symbolText in
  let! identifier := zget split 0 in
  let! s1 := zget split 1 in
  let! definition := tokenize s1 in
  Ok (mset st (str identifier) definition).
(* strings.Contains(s, "=") *)
Definition contains (c : ascii) (s : bytes) : bool := existsb (Ascii.eqb c) s.

Definition LF : ascii := "010".
Definition CR : ascii := "013".
Definition bufSize : nat := Z.to_nat 4096.
(* the bytes before the first newline and those after it, looking at most n bytes ahead *)
Fixpoint cutLF (n : nat) (l : bytes) : option (bytes * bytes) :=
  match n, l with
  | S n', b :: t => if Ascii.eqb b LF then Some ([], t)
                    else match cutLF n' t with Some (p, q) => Some (b :: p, q) | None => None end
  | _, _ => None
  end.
Definition dropCR (l : bytes) : bytes :=
  match rev l with b :: t => if Ascii.eqb b CR then rev t else l | [] => l end.
Definition endsCR (l : bytes) : bool := match rev l with b :: _ => Ascii.eqb b CR | [] => false end.
(* bufio.Reader.ReadLine on the remaining bytes of a file, default buffer size: None at io.EOF; isPrefix is dropped,
   as in lex.go:68 *)
Definition readLine (l : bytes) : option (bytes * bytes) :=
  match l with
  | [] => None
  | _ :: _ =>
    match cutLF bufSize l with
    | Some (p, q) => Some (dropCR p, q)
    | None =>
      if (bufSize <=? length l)%nat then
        let line := firstn bufSize l in
        if endsCR line then Some (firstn (bufSize - 1) l, skipn (bufSize - 1) l)
        else Some (line, skipn bufSize l)
      else Some (l, [])
    end
  end.
(* step/lex.go:67-112; the loop runs at most once per byte *)
Fixpoint lexLoop (fuel : nat) (file : bytes) (symbolText : bytes) (symbolTable : SymbolTable) : res SymbolTable :=
  match fuel with
  | O => Diverge
  | S fuel' =>
    match readLine file with
    | None => add symbolTable symbolText
    | Some (buffer, rest) =>
      if Z.of_nat (length buffer) =? 0 then lexLoop fuel' rest symbolText symbolTable
      else if contains "=" buffer then
        let! symbolTable := if 0 <? Z.of_nat (length symbolText) then add symbolTable symbolText else Ok symbolTable in
        lexLoop fuel' rest buffer symbolTable
      else lexLoop fuel' rest (symbolText ++ buffer) symbolTable
    end
  end.
(* step/lex.go:54-114 *)
Definition Lex (fuel : nat) (file : bytes) : res SymbolTable := lexLoop fuel file [] [].

(** ** parse.go, bridge.go, template.go *)
(* the methods of Parser used as parseFn *)
Inductive parseFn :=
| FSkipUtility | FVertexLoop | FAxis2Placement3D | FFace | FBSplineSurfaceWithKnots | FAdvancedFace | FClosedShell
| FDirection | FProductDefinition | FProductDefinitionContext | FProductDefinitionFormation | FProductDefinitionShape
| FSphericalSurface | FToroidalSurface | FCartesianPoint.
(* step/parse.go:36-39 *)
Definition parseState := (parseFn * string)%type.
(* step/bridge.go:9-48 *)
Definition bridge (definition : Definition_) : parseFn :=
  let t := str (dType definition) in
  if String.eqb t "CARTESIAN_POINT" then FSkipUtility
  else if String.eqb t "VERTEX_POINT" then FSkipUtility
  else if String.eqb t "VERTEX_LOOP" then FVertexLoop
  else if String.eqb t "AXIS_2_PLACEMENT_3D" then FAxis2Placement3D
  else if String.eqb t "FACE" then FFace
  else if String.eqb t "B_SPLINE_SURFACE_WITH_KNOTS" then FBSplineSurfaceWithKnots
  else if String.eqb t "ADVENCED_FACE" then FAdvancedFace
  else if String.eqb t "CLOSED_SHELL" then FClosedShell
  else if String.eqb t "DIRECTION" then FDirection
  else if String.eqb t "PRODUCT_DEFINITION" then FProductDefinition
  else if String.eqb t "PRODUCT_DEFINITION_CONTEXT" then FProductDefinitionContext
  else if String.eqb t "PRODUCT_DEFINITION_FORMATION" then FProductDefinitionFormation
  else if String.eqb t "PRODUCT_DEFINITION_SHAPE" then FProductDefinitionShape
  else if String.eqb t "SPHERICAL_SURFACE" then FSphericalSurface
  else if String.eqb t "TOROIDAL_SURFACE" then FToroidalSurface
  else FSkipUtility.
(* p.lexemes[key]: the zero Definition for a missing key *)
Definition lexeme (lexemes : SymbolTable) (key : string) : Definition_ :=
  match mget lexemes key with Some d => d | None => mkDef [] [] end.
Definition argument (lexemes : SymbolTable) (key : string) (i : Z) : res bytes :=
  zget (dArguments (lexeme lexemes key)) i.
(* strings.TrimSpace, on runes *)
Fixpoint trimLeft (l : list Z) : list Z :=
  match l with r :: t => if isSpace r then trimLeft t else l | [] => [] end.
Definition trimSpace (s : bytes) : bytes := encode (rev (trimLeft (rev (trimLeft (runes s))))).
(* the states appended to p.nextStates by each parseFn *)
Definition runFn (lexemes : SymbolTable) (fn : parseFn) (key : string) : res (list parseState) :=
  match fn with
  (* step/template.go:10-12, 29-35, 57-59, 77-79, 123-128, 134-141 *)
  | FSkipUtility | FVertexLoop | FFace | FClosedShell | FDirection | FProductDefinitionContext
  | FProductDefinitionFormation | FToroidalSurface => Ok []
  (* step/template.go:14-19 *)
  | FProductDefinitionShape =>
      let! a := argument lexemes key 2 in Ok [(FProductDefinition, str a)]
  (* step/template.go:20-27 *)
  | FProductDefinition =>
      let! a := argument lexemes key 2 in
      let! b := argument lexemes key 2 in
      Ok [(FProductDefinitionFormation, str a); (FProductDefinitionContext, str b)]
  (* step/template.go:37-44 *)
  | FAxis2Placement3D =>
      let! a := argument lexemes key 1 in
      let! b := argument lexemes key 1 in
      let! c := argument lexemes key 1 in
      Ok [(FCartesianPoint, str a); (FDirection, str b); (FDirection, str c)]
  (* step/template.go:46-55 *)
  | FCartesianPoint =>
      let! a := argument lexemes key 1 in
      let! _ := getArray a in Ok []
  (* step/template.go:88-111 *)
  | FAdvancedFace =>
      let! neighbourID := argument lexemes key 1 in
      let faceType := str (trimSpace (dType (lexeme lexemes (str neighbourID)))) in
      Ok (if String.eqb faceType "SPHERICAL_SURFACE" then [(FSphericalSurface, str neighbourID)]
          else if String.eqb faceType "TOROIDAL_SURFACE" then [(FToroidalSurface, str neighbourID)]
          else [])
  (* step/template.go:113-121 *)
  | FSphericalSurface =>
      let! _ := argument lexemes key 2 in Ok []
  (* step/template.go:143-189 *)
  | FBSplineSurfaceWithKnots =>
      let! _ := argument lexemes key 0 in
      let! _ := argument lexemes key 1 in
      let! _ := argument lexemes key 2 in
      let! a := argument lexemes key 3 in
      let! _ := getMatrix a in
      let! _ := argument lexemes key 4 in
      let! _ := argument lexemes key 5 in
      let! _ := argument lexemes key 6 in
      let! _ := argument lexemes key 7 in
      let! a := argument lexemes key 8 in
      let! _ := getArray a in
      let! a := argument lexemes key 9 in
      let! _ := getArray a in
      let! a := argument lexemes key 10 in
      let! _ := getArray a in
      let! a := argument lexemes key 11 in
      let! _ := getArray a in
      Ok []
  end.
Definition visitedKey (visited : list string) (key : string) : bool := existsb (String.eqb key) visited.
(* step/parse.go:57-66; [ran] is a trace of the handlers that were run, in order *)
Fixpoint inferLoop (fuel : nat) (lexemes : SymbolTable) (nextStates : list parseState) (visited : list string)
  (ran : list parseState) : res (list string * list parseState) :=
  match nextStates with
  | [] => Ok (visited, ran)
  | (fn, key) :: rest =>
    match fuel with
    | O => Diverge
    | S fuel' =>
      if visitedKey visited key then inferLoop fuel' lexemes rest visited ran
      else
        let! new := runFn lexemes fn key in
        inferLoop fuel' lexemes (rest ++ new) (key :: visited) (ran ++ [(fn, key)])
    end
  end.
(* step/parse.go:75-79 *)
Fixpoint parseEntries (fuel : nat) (lexemes : SymbolTable) (entries : list (string * Definition_))
  (visited : list string) (ran : list parseState) : res (list string * list parseState) :=
  match entries with
  | [] => Ok (visited, ran)
  | (key, lexeme) :: entries' =>
    let! (visited, ran) := inferLoop fuel lexemes [(bridge lexeme, key)] visited ran in
    parseEntries fuel lexemes entries' visited ran
  end.
(* step/parse.go:71-80; [ord] is the order in which range visits the map, the result is the trace *)
Definition Parse (fuel : nat) (ord : SymbolTable -> SymbolTable) (lexemes : SymbolTable) : res (list parseState) :=
  let! (_, ran) := parseEntries fuel lexemes (ord lexemes) [] [] in Ok ran.
