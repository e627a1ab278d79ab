(** The channel of the lexer (step/lex.go): a buffered Go channel as the list of the values waiting in it, oldest first.
    A send with no room and a receive with nothing waiting block; a goroutine that blocks is one with no step to make.
    Nothing in the repository closes the channel, and the only call of emit (lex.go:104) is inside a comment. *)
From Coq Require Import ZArith List Bool.
From Verif Require Import Base M_step.
Import ListNotations.

(* step/lex.go:22-25 *)
Record Symbol := mkSymbol { sID : bytes; sDef : Definition_ }.
Record chan := mkChan { chCap : nat; chBuf : list Symbol }.
(* make(chan Symbol, n) *)
Definition makeChan (n : nat) : chan := mkChan n [].
(* c <- s; None: no room, the sender waits *)
Definition send (c : chan) (s : Symbol) : option chan :=
  if Nat.ltb (length (chBuf c)) (chCap c) then Some (mkChan (chCap c) (chBuf c ++ [s])) else None.
(* <-c; None: nothing there, the receiver waits *)
Definition receive (c : chan) : option (Symbol * chan) :=
  match chBuf c with [] => None | s :: b => Some (s, mkChan (chCap c) b) end.
(* step/lex.go:14-17 *)
Record Lexer := mkLexer { lFilename : bytes; lSymbolsChan : chan }.
(* step/lex.go:45-50 *)
Definition initLexer (filename : bytes) : Lexer := mkLexer filename (makeChan 2).
(* step/lex.go:117-119 *)
Definition emit (l : Lexer) (s : Symbol) : option Lexer :=
  match send (lSymbolsChan l) s with Some c => Some (mkLexer (lFilename l) c) | None => None end.

(** One goroutine emitting the symbols of a list in order, another one receiving a number of times, in any interleaving. *)
Record world := mkWorld { wLexer : Lexer; wToSend : list Symbol; wToReceive : nat; wGot : list Symbol }.
Inductive step : world -> world -> Prop :=
| step_emit l l' s p r g : emit l s = Some l' -> step (mkWorld l (s :: p) r g) (mkWorld l' p r g)
| step_recv l c s p r g : receive (lSymbolsChan l) = Some (s, c) ->
    step (mkWorld l p (S r) g) (mkWorld (mkLexer (lFilename l) c) p r (g ++ [s])).
Inductive steps : nat -> world -> world -> Prop :=
| steps_none w : steps 0 w w
| steps_more n w w' w'' : step w w' -> steps n w' w'' -> steps (S n) w w''.
