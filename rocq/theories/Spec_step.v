(** Specification side for package step: bracketed texts, UTF-8 (RFC 3629), printed definitions and files. *)
From Coq Require Import Ascii String ZArith NArith List.
Import ListNotations.

Notation text := (list ascii).
(** ** Bracket structure *)
(** brackets match; commas anywhere *)
Inductive nested : text -> Prop :=
| nested_nil : nested []
| nested_char c : c <> "("%char -> c <> ")"%char -> nested [c]
| nested_paren w : nested w -> nested ("("%char :: w ++ [")"%char])
| nested_app u w : nested u -> nested w -> nested (u ++ w).
(** one argument: brackets match and commas are only inside brackets *)
Inductive one_arg : text -> Prop :=
| arg_nil : one_arg []
| arg_char c : c <> "("%char -> c <> ")"%char -> c <> ","%char -> one_arg [c]
| arg_paren w : nested w -> one_arg ("("%char :: w ++ [")"%char])
| arg_app u w : one_arg u -> one_arg w -> one_arg (u ++ w).
Fixpoint join (l : list text) : text :=
  match l with [] => [] | [a] => a | a :: l' => a ++ ","%char :: join l' end.
Definition parens (w : text) : text := "("%char :: w ++ [")"%char].

(** ** UTF-8: [utf8 n t] says that t is a well-formed sequence of n characters (RFC 3629, section 4) *)
Definition byte_in (lo hi : N) (c : ascii) : Prop := (lo <= N_of_ascii c <= hi)%N.
Definition tail := byte_in 128 191.
Inductive utf8_char : text -> Prop :=
| utf8_char1 a : byte_in 0 127 a -> utf8_char [a]
| utf8_char2 a b : byte_in 194 223 a -> tail b -> utf8_char [a; b]
| utf8_char3a a b c : byte_in 224 224 a -> byte_in 160 191 b -> tail c -> utf8_char [a; b; c]
| utf8_char3b a b c : byte_in 225 236 a -> tail b -> tail c -> utf8_char [a; b; c]
| utf8_char3c a b c : byte_in 237 237 a -> byte_in 128 159 b -> tail c -> utf8_char [a; b; c]
| utf8_char3d a b c : byte_in 238 239 a -> tail b -> tail c -> utf8_char [a; b; c]
| utf8_char4a a b c d : byte_in 240 240 a -> byte_in 144 191 b -> tail c -> tail d -> utf8_char [a; b; c; d]
| utf8_char4b a b c d : byte_in 241 243 a -> tail b -> tail c -> tail d -> utf8_char [a; b; c; d]
| utf8_char4c a b c d : byte_in 244 244 a -> byte_in 128 143 b -> tail c -> tail d -> utf8_char [a; b; c; d].
Inductive utf8 : nat -> text -> Prop :=
| utf8_nil : utf8 0 []
| utf8_cons n c t : utf8_char c -> utf8 n t -> utf8 (S n) (c ++ t).
Definition ascii_text (t : text) : Prop := Forall (byte_in 0 127) t.
(** letters, digits and underscores *)
Definition keyword_char (c : ascii) : Prop := byte_in 48 57 c \/ byte_in 65 90 c \/ c = "_"%char \/ byte_in 97 122 c.
Definition keyword (t : text) : Prop := Forall keyword_char t.
Definition blank_text (t : text) : Prop := Forall (fun c => c = " "%char \/ c = "009"%char) t.

(** ** Definitions and files *)
Record entity := mkEntity { eId : text; eType : text; eArgs : list text }.
(** id=TYPE(args); with blanks around TYPE *)
Definition print_entity (sp1 sp2 : text) (e : entity) : text :=
  eId e ++ "="%char :: sp1 ++ eType e ++ sp2 ++ "("%char :: join (eArgs e) ++ [")"%char; ";"%char].
Definition wf_entity (e : entity) : Prop :=
  ~ In "="%char (eId e) /\ keyword (eType e) /\ eArgs e <> [] /\
  Forall (fun a => one_arg a /\ exists n, utf8 n a) (eArgs e) /\ ascii_text (last (eArgs e) []).
Definition eol_ok (e : text) : Prop := e = ["010"%char] \/ e = ["013"%char; "010"%char].
(** a physical line (without its end) *)
Definition line_ok (l : text) : Prop :=
  ~ In "010"%char l /\ (forall p, l <> p ++ ["013"%char]) /\ (Z.of_nat (length l) + 2 <= 4096)%Z.
(** [lines_of ls f]: f is the sequence of lines ls, each with a line end *)
Inductive lines_of : list text -> text -> Prop :=
| lines_nil : lines_of [] []
| lines_cons l e ls f : line_ok l -> eol_ok e -> lines_of ls f -> lines_of (l :: ls) (l ++ e ++ f).
(** an entity printed on a first line with the equals sign and any number of further lines without one
    (empty lines allowed) *)
Definition entity_lines (e : entity) (ls : list text) : Prop :=
  exists sp1 sp2 first rest, blank_text sp1 /\ blank_text sp2 /\ ls = first :: rest /\
    In "="%char first /\ Forall (fun l => ~ In "="%char l) rest /\ concat ls = print_entity sp1 sp2 e.
Inductive step_file : list entity -> text -> Prop :=
| step_file_intro es lss f : Forall2 entity_lines es lss -> lines_of (concat lss) f -> step_file es f.
(** the last definition of an identifier wins *)
Fixpoint lookup_last (es : list entity) (id : text) : option entity :=
  match es with
  | [] => None
  | e :: es' => match lookup_last es' id with
                | Some e' => Some e'
                | None => if list_eq_dec ascii_dec id (eId e) then Some e else None
                end
  end.

(** ** Symbol tables: [look k] is the (type, arguments) stored under k *)
Definition lookup := string -> option (text * list text).
Definition has_type (look : lookup) (ref : text) (ty : string) : Prop :=
  exists args, look (string_of_list_ascii ref) = Some (list_ascii_of_string ty, args).
Definition array_text (t : text) : Prop :=
  exists es, es <> [] /\ Forall (fun a => one_arg a /\ exists n, utf8 n a) es /\ t = parens (join es).
Definition matrix_text (t : text) : Prop :=
  exists rows, rows <> [] /\ Forall (fun r => array_text r /\ exists n, utf8 n r) rows /\ t = parens (join rows).
(** every entity has the arguments its type requires, and its references resolve to entities of the right type *)
Definition wf_def (look : lookup) (ty : text) (args : list text) : Prop :=
  let t := string_of_list_ascii ty in
  keyword ty /\
  (t = "CARTESIAN_POINT"%string -> exists c, nth_error args 1 = Some c /\ array_text c) /\
  (t = "AXIS_2_PLACEMENT_3D"%string -> exists r, nth_error args 1 = Some r /\ has_type look r "CARTESIAN_POINT") /\
  (t = "B_SPLINE_SURFACE_WITH_KNOTS"%string -> exists a0 a1 a2 m a4 a5 a6 a7 um vm uk vk rest,
     args = [a0; a1; a2; m; a4; a5; a6; a7; um; vm; uk; vk] ++ rest /\
     matrix_text m /\ array_text um /\ array_text vm /\ array_text uk /\ array_text vk) /\
  (t = "ADVENCED_FACE"%string -> exists r, nth_error args 1 = Some r) /\
  (t = "PRODUCT_DEFINITION"%string -> exists r, nth_error args 2 = Some r) /\
  (t = "PRODUCT_DEFINITION_SHAPE"%string -> exists r, nth_error args 2 = Some r /\ has_type look r "PRODUCT_DEFINITION") /\
  (t = "SPHERICAL_SURFACE"%string -> exists r, nth_error args 2 = Some r).
Definition wf_table (look : lookup) : Prop := forall k ty args, look k = Some (ty, args) -> wf_def look ty args.
