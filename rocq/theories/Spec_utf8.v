(** Specification side: reading a byte string as UTF-8 with damaged bytes, and the white-space characters as bytes. *)
From Coq Require Import Ascii NArith List.
From Verif Require Import Spec_step.
Import ListNotations.

(** the text is cut into well-formed characters; a byte where no well-formed character starts is a piece of its own ([None]) *)
Inductive pieces : text -> list (option text) -> Prop :=
| pieces_nil : pieces [] []
| pieces_char c t l : utf8_char c -> pieces t l -> pieces (c ++ t) (Some c :: l)
| pieces_bad b t l : (forall c u, utf8_char c -> b :: t <> c ++ u) -> pieces t l -> pieces (b :: t) (None :: l).
Definition bs (l : list nat) : text := map ascii_of_nat l.
(** the 25 characters with the property White_Space *)
Definition white_chars : list text := map bs
  ([[9]; [10]; [11]; [12]; [13]; [32]; [194; 133]; [194; 160]; [225; 154; 128]]
   ++ map (fun k => [226; 128; k]) [128; 129; 130; 131; 132; 133; 134; 135; 136; 137; 138; 168; 169; 175]
   ++ [[226; 129; 159]; [227; 128; 128]])%nat.
(** a damaged byte is replaced by the character U+FFFD *)
Definition replacement : text := bs [239; 191; 189]%nat.
(** what is left of a piece when white space is dropped *)
Inductive kept : option text -> text -> Prop :=
| kept_white c : In c white_chars -> kept (Some c) []
| kept_other c : ~ In c white_chars -> kept (Some c) c
| kept_bad : kept None replacement.
