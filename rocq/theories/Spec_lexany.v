(** Specification side for the lexer on arbitrary files: how bufio.Reader.ReadLine cuts a file, which pieces belong
    together, and what a definition text denotes.  [runes], [encode] and [isSpace] are Go's own (range over a string,
    string([]rune) and unicode.IsSpace), not functions of the repository. *)
From Coq Require Import Ascii String ZArith List Bool.
From Verif Require Import Spec_step M_step.
Import ListNotations.
Open Scope Z_scope.

Definition newline : ascii := "010".
Definition return_ : ascii := "013".
(** [pieces f ps]: f is read as the pieces ps: lines without their ends, where a line is also cut after 4096 bytes (one
    earlier if the cut would separate a carriage return from what follows), and the last line needs no end *)
Inductive pieces : text -> list text -> Prop :=
| pieces_nil : pieces [] []
| pieces_lf l f ps : ~ In newline l -> (forall p, l <> p ++ [return_]) -> Z.of_nat (length l) < 4096 ->
    pieces f ps -> pieces (l ++ newline :: f) (l :: ps)
| pieces_crlf l f ps : ~ In newline l -> Z.of_nat (length l) + 1 < 4096 ->
    pieces f ps -> pieces (l ++ return_ :: newline :: f) (l :: ps)
| pieces_end l : l <> [] -> ~ In newline l -> Z.of_nat (length l) < 4096 -> pieces l [l]
| pieces_full l f ps : ~ In newline l -> (forall p, l <> p ++ [return_]) -> Z.of_nat (length l) = 4096 ->
    pieces f ps -> pieces (l ++ f) (l :: ps)
| pieces_full_cr l f ps : ~ In newline l -> Z.of_nat (length l) + 1 = 4096 ->
    pieces (return_ :: f) ps -> pieces (l ++ return_ :: f) (l :: ps).

(** a piece with an equals sign and the pieces without one that follow it *)
Definition definition_pieces (g : list text) : Prop :=
  exists first rest, g = first :: rest /\ In "="%char first /\ Forall (fun p => ~ In "="%char p) rest.
(** [layout f head gs]: f starts with pieces without an equals sign (head), then come the definitions gs *)
Definition layout (f : text) (head : list text) (gs : list (list text)) : Prop :=
  pieces f (head ++ concat gs) /\ Forall (fun p => ~ In "="%char p) head /\ Forall definition_pieces gs.

(** bracket level after the characters rs; it may be negative *)
Definition level (rs : list Z) : Z := fold_right (fun r s => (if r =? 40 then 1 else if r =? 41 then -1 else 0) + s) 0 rs.
Definition no_top_comma (p : list Z) : Prop := forall u v, p = u ++ 44 :: v -> level u <> 0.
(** rs cut at its commas of level 0: the parts ps, and the part after the last such comma *)
Definition cut (rs : list Z) (ps : list (list Z)) (last : list Z) : Prop :=
  rs = flat_map (fun p => p ++ [44]) ps ++ last /\
  Forall (fun p => level p = 0 /\ no_top_comma p) ps /\ no_top_comma last.
(** the definition text t denotes the entity e: identifier up to the first equals sign, type (without white space) up to
    the next bracket, then the arguments; of the last one as many bytes are kept as it has characters, less two *)
Definition defines (t : text) (e : entity) : Prop :=
  exists w a ps last, t = eId e ++ "="%char :: w ++ "("%char :: a /\ ~ In "="%char (eId e) /\ ~ In "("%char w /\
    eType e = encode (filter (fun r => negb (isSpace r)) (runes w)) /\
    cut (runes a) ps last /\ (2 <= length last)%nat /\
    eArgs e = map encode ps ++ [firstn (length last - 2) (encode last)].

(** ** Tables that are parsed without a crash in every order *)
Definition array_like (t : text) : Prop := (2 <= length t)%nat.
(** what is between the outer characters of t, cut at its top-level commas, consists of texts of at least two bytes *)
Definition matrix_like (t : text) : Prop :=
  array_like t /\ exists ps last, cut (runes (removelast (tl t))) ps last /\
    Forall (fun p => array_like (encode p)) (ps ++ [last]).
(** the arguments each handled type needs, for the definition itself and for the one it refers to; nothing is required of
    the definition referred to if that is the definition itself *)
Definition other_args (look : lookup) (k : string) (r : text) (P : list text -> Prop) : Prop :=
  string_of_list_ascii r = k \/ exists ty args, look (string_of_list_ascii r) = Some (ty, args) /\ P args.
Definition safe_def (look : lookup) (k : string) (ty : text) (args : list text) : Prop :=
  let t := string_of_list_ascii ty in
  (t = "PRODUCT_DEFINITION"%string -> exists r, nth_error args 2 = Some r) /\
  (t = "PRODUCT_DEFINITION_SHAPE"%string -> exists r, nth_error args 2 = Some r /\
     other_args look k r (fun args' => nth_error args' 2 <> None)) /\
  (t = "AXIS_2_PLACEMENT_3D"%string -> exists r, nth_error args 1 = Some r /\
     other_args look k r (fun args' => exists c, nth_error args' 1 = Some c /\ array_like c)) /\
  (t = "ADVENCED_FACE"%string -> exists r, nth_error args 1 = Some r /\
     (string_of_list_ascii r = k \/ forall ty' args', look (string_of_list_ascii r) = Some (ty', args') ->
        string_of_list_ascii (trimSpace ty') = "SPHERICAL_SURFACE"%string -> nth_error args' 2 <> None)) /\
  (t = "SPHERICAL_SURFACE"%string -> nth_error args 2 <> None) /\
  (t = "B_SPLINE_SURFACE_WITH_KNOTS"%string -> exists a0 a1 a2 m a4 a5 a6 a7 um vm uk vk rest,
     args = [a0; a1; a2; m; a4; a5; a6; a7; um; vm; uk; vk] ++ rest /\
     matrix_like m /\ array_like um /\ array_like vm /\ array_like uk /\ array_like vk).
Definition safe_table (look : lookup) : Prop := forall k ty args, look k = Some (ty, args) -> safe_def look k ty args.
