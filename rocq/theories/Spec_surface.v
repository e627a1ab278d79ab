(** Specification side for B_SPLINE_SURFACE_WITH_KNOTS: the entity of ISO 10303-42, its text, and which definitions
    of a table take a key away from its own handler. *)
From Coq Require Import Ascii String List.
From Verif Require Import Spec_step.
Import ListNotations.

Inductive logical := LTrue | LFalse | LUnknown.
Definition logical_text (l : logical) : text :=
  list_ascii_of_string (match l with LTrue => ".T." | LFalse => ".F." | LUnknown => ".U." end).
Record surface := mkSurface {
  sName : text; sUDegree : text; sVDegree : text; sPoints : list (list text); sForm : text;
  sUClosed : logical; sVClosed : logical; sSelf : logical;
  sUMult : list text; sVMult : list text; sUKnots : list text; sVKnots : list text; sSpec : text }.
Definition array_print (l : list text) : text := parens (join l).
Definition surface_args (s : surface) : list text :=
  [sName s; sUDegree s; sVDegree s; array_print (map array_print (sPoints s)); sForm s;
   logical_text (sUClosed s); logical_text (sVClosed s); logical_text (sSelf s);
   array_print (sUMult s); array_print (sVMult s); array_print (sUKnots s); array_print (sVKnots s); sSpec s].
Definition surface_entity (id : text) (s : surface) : entity :=
  mkEntity id (list_ascii_of_string "B_SPLINE_SURFACE_WITH_KNOTS") (surface_args s).
(** texts with matching brackets and without outer commas, in UTF-8 *)
Definition item (a : text) : Prop := one_arg a /\ exists n, utf8 n a.
Definition items (l : list text) : Prop := l <> [] /\ Forall item l.
Definition surface_ok (s : surface) : Prop :=
  item (sName s) /\ item (sUDegree s) /\ item (sVDegree s) /\ sPoints s <> [] /\ Forall items (sPoints s) /\ item (sForm s) /\
  items (sUMult s) /\ items (sVMult s) /\ items (sUKnots s) /\ items (sVKnots s) /\ item (sSpec s) /\ ascii_text (sSpec s).

(** [claims look k j]: the handler of definition j passes the key k on to another handler *)
Definition claims (look : lookup) (k j : string) : Prop :=
  exists ty args, look j = Some (list_ascii_of_string ty, args) /\
   (ty = "AXIS_2_PLACEMENT_3D"%string /\ nth_error args 1 = Some (list_ascii_of_string k) \/
    ty = "PRODUCT_DEFINITION"%string /\ nth_error args 2 = Some (list_ascii_of_string k) \/
    ty = "PRODUCT_DEFINITION_SHAPE"%string /\
      (nth_error args 2 = Some (list_ascii_of_string k) \/
       exists r ty' args', nth_error args 2 = Some (list_ascii_of_string r) /\ r <> j /\ look r = Some (ty', args') /\
         nth_error args' 2 = Some (list_ascii_of_string k))).

(** ** Reading a report back *)
Definition plain (bad : list ascii) (t : text) : Prop := forall c, In c t -> ~ In c bad.
Definition LFc : ascii := "010"%char.
Definition word (t : text) : Prop := plain [LFc; " "; "["; "]"]%char t.

(** ** The report: twelve lines, each a label, a blank and a value *)
Definition shown_bool (b : bool) : text := list_ascii_of_string (if b then "true" else "false").
Fixpoint blank_joined (l : list text) : text := match l with [] => [] | [a] => a | a :: l' => a ++ " "%char :: blank_joined l' end.
Definition shown_list (l : list text) : text := "["%char :: blank_joined l ++ ["]"%char].
Definition report_labels : list string :=
  ["name:"; "uDegree:"; "vDegree:"; "controlPointsList:"; "surfaceForm:"; "uClosed:"; "vClosed"; "selfIntersect:";
   "uMultiplicities:"; "vMultiplicities:"; "uKnots:"; "vKnots:"]%string.
Definition logical_shown (l : logical) : text := shown_bool (match l with LTrue => true | _ => false end).
Definition surface_values (s : surface) : list text :=
  [sName s; sUDegree s; sVDegree s; shown_list (map shown_list (sPoints s)); sForm s; logical_shown (sUClosed s); logical_shown (sVClosed s); logical_shown (sSelf s);
   shown_list (sUMult s); shown_list (sVMult s); shown_list (sUKnots s); shown_list (sVKnots s)].
Definition report (s : surface) : text :=
  flat_map (fun '(label, value) => list_ascii_of_string label ++ " "%char :: value ++ [LFc]) (combine report_labels (surface_values s)).
