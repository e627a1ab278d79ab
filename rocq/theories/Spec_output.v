(** Specification side for what Parse prints: a block of lines for every handler that was run. *)
From Coq Require Import Ascii String List.
From Verif Require Import Spec_step Spec_surface.
Import ListNotations.

Definition line (words : list text) : text := blank_joined words ++ [LFc].
Definition says (s : string) : text := line [list_ascii_of_string s].
(** a definition without a handler of its own *)
Definition skipped (ty : text) : text :=
  line [list_ascii_of_string "doesn't loop like i've implemented `"; ty; list_ascii_of_string "` skipping to next States.."].
(** a sphere and a torus *)
Definition sphere_lines (radius : text) : text := says "Bazinga!!!!!!" ++ line [list_ascii_of_string "radius:"; radius].
Definition torus_lines : text := says "Bazinga!!!!!!".
(** a face on a sphere: the printed work list has two entries, the face and the sphere, with the addresses of their handlers *)
Definition face_lines (ty : text) : text := says "parsing advanced face" ++ line [ty].
Definition sphere_face_lines (ty face_addr key sphere_addr neighbour : text) : text :=
  face_lines ty ++ says "it's a sphere" ++
  line [list_ascii_of_string "STATES"; shown_list ["{"%char :: face_addr ++ " "%char :: key ++ ["}"%char]; "{"%char :: sphere_addr ++ " "%char :: neighbour ++ ["}"%char]]].
(** a surface *)
Definition surface_head (n : text) : text :=
  says "Hooray! we found an awesome bSplineSurface with KNOTS" ++ line [list_ascii_of_string "len(arguemnts):"; n].
Definition surface_lines (s : surface) : text := surface_head (list_ascii_of_string "13") ++ report s.
(** types with a handler of their own *)
Definition handled : list string :=
  ["VERTEX_LOOP"; "AXIS_2_PLACEMENT_3D"; "FACE"; "B_SPLINE_SURFACE_WITH_KNOTS"; "ADVENCED_FACE"; "CLOSED_SHELL"; "DIRECTION"; "PRODUCT_DEFINITION";
   "PRODUCT_DEFINITION_CONTEXT"; "PRODUCT_DEFINITION_FORMATION"; "PRODUCT_DEFINITION_SHAPE"; "SPHERICAL_SURFACE"; "TOROIDAL_SURFACE"]%string.
(** types whose handler passes keys on to other handlers *)
Definition linking : list string := ["AXIS_2_PLACEMENT_3D"; "ADVENCED_FACE"; "PRODUCT_DEFINITION"; "PRODUCT_DEFINITION_SHAPE"]%string.
