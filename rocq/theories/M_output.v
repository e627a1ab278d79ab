(** What package step prints while parsing (/repo/step: parse.go, template.go): the handlers of M_step.v together with
    their calls of fmt.Println. A panic keeps what was printed before it. *)
From Coq Require Import Ascii String ZArith List Bool.
From Verif Require Import Base GoMap M_step M_job.
Import ListNotations.
Open Scope Z_scope.

(* fmt.Println: the operands separated by a space, then a newline *)
Definition Println (operands : list bytes) : bytes := spaced operands ++ [LF].
(* a parseState as fmt prints it, {function key}; [addr] is the printed address of the code of a handler *)
Definition showState (addr : parseFn -> bytes) (s : parseState) : bytes := "{"%char :: spaced [addr (fst s); lit (snd s)] ++ ["}"%char].
Definition output T := (bytes * res T)%type.
(* printing [b] before a computation *)
Definition after {T} (b : bytes) (m : output T) : output T := (b ++ fst m, snd m).
Definition quietly {T} (m : res T) : output T := ([], m).
Definition obind {T U} (m : output T) (f : T -> output U) : output U :=
  match snd m with Ok x => after (fst m) (f x) | Panic => (fst m, Panic) | Diverge => (fst m, Diverge) end.

(* the handlers; [nextStates] is p.nextStates when the handler is called, the result the states it appends *)
Definition outFn (addr : parseFn -> bytes) (lexemes : SymbolTable) (nextStates : list parseState) (fn : parseFn) (key : string)
  : output (list parseState) :=
  match fn with
  (* step/template.go:10-12 *)
  | FSkipUtility =>
      after (Println [lit "doesn't loop like i've implemented `"; dType (lexeme lexemes key); lit "` skipping to next States.."])
        (quietly (Ok []))
  (* step/template.go:88-111 *)
  | FAdvancedFace =>
      after (Println [lit "parsing advanced face"])
        (obind (quietly (argument lexemes key 1)) (fun neighbourID =>
         after (Println [dType (lexeme lexemes (str neighbourID))])
           (let faceType := str (trimSpace (dType (lexeme lexemes (str neighbourID)))) in
            if String.eqb faceType "SPHERICAL_SURFACE" then
              let new := [(FSphericalSurface, str neighbourID)] in
              after (Println [lit "it's a sphere"])
                (after (Println [lit "STATES"; showSlice (map (showState addr) (nextStates ++ new))]) (quietly (Ok new)))
            else if String.eqb faceType "TOROIDAL_SURFACE" then quietly (Ok [(FToroidalSurface, str neighbourID)])
            else quietly (Ok []))))
  (* step/template.go:113-121 *)
  | FSphericalSurface =>
      after (Println [lit "Bazinga!!!!!!"])
        (obind (quietly (argument lexemes key 2)) (fun radius => after (Println [lit "radius:"; radius]) (quietly (Ok []))))
  (* step/template.go:123-128 *)
  | FToroidalSurface => after (Println [lit "Bazinga!!!!!!"]) (quietly (Ok []))
  (* step/template.go:143-189 *)
  | FBSplineSurfaceWithKnots =>
      after (Println [lit "Hooray! we found an awesome bSplineSurface with KNOTS"])
        (after (Println [lit "len(arguemnts):"; lit (Itoa (Z.of_nat (length (dArguments (lexeme lexemes key)))))])
           (obind (quietly (surfaceJob lexemes key)) (fun surfaceJob => after (print surfaceJob) (quietly (Ok [])))))
  (* the other handlers print nothing *)
  | _ => quietly (runFn lexemes fn key)
  end.
(* step/parse.go:57-66: the state that is run is still the first of parser.nextStates *)
Fixpoint inferOut (fuel : nat) (addr : parseFn -> bytes) (lexemes : SymbolTable) (nextStates : list parseState) (visited : list string)
  (ran : list parseState) : output (list string * list parseState) :=
  match nextStates with
  | [] => quietly (Ok (visited, ran))
  | (fn, key) :: rest =>
    match fuel with
    | O => quietly Diverge
    | S fuel' =>
      if visitedKey visited key then inferOut fuel' addr lexemes rest visited ran
      else obind (outFn addr lexemes nextStates fn key) (fun new =>
             inferOut fuel' addr lexemes (rest ++ new) (key :: visited) (ran ++ [(fn, key)]))
    end
  end.
(* step/parse.go:75-79 *)
Fixpoint entriesOut (fuel : nat) (addr : parseFn -> bytes) (lexemes : SymbolTable) (entries : list (string * Definition_))
  (visited : list string) (ran : list parseState) : output (list string * list parseState) :=
  match entries with
  | [] => quietly (Ok (visited, ran))
  | (key, lexeme) :: entries' =>
    obind (inferOut fuel addr lexemes [(bridge lexeme, key)] visited ran) (fun '(visited, ran) =>
    entriesOut fuel addr lexemes entries' visited ran)
  end.
(* step/parse.go:71-80 *)
Definition ParseOut (fuel : nat) (addr : parseFn -> bytes) (ord : SymbolTable -> SymbolTable) (lexemes : SymbolTable) : output (list parseState) :=
  obind (entriesOut fuel addr lexemes (ord lexemes) [] []) (fun '(_, ran) => quietly (Ok ran)).
