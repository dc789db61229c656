(** [options_description] with its two parallel vectors, and running out of memory while options are added:
    src/options_description.cpp.  In OptDesc.v the vectors are one vector of pairs. *)

From Coq Require Import List Ascii String NArith ZArith Bool.
From Verif Require Import Base Errors Values OptDesc Format.
Import ListNotations.

(** options_description.hpp 267-286: the members: [m_options], [belong_to_group] and [groups], which holds copies. *)
Inductive raw_description := mk_raw {
  rw_caption : str;
  rw_line_length : Z;
  rw_min_description_length : Z;
  rw_options : list option_description;
  rw_belongs : list bool;
  rw_groups : list raw_description }.

(** options_description.cpp 300-318: constructors *)
Definition raw_new (caption : str) (line_length min_desc : Z) : outcome raw_description :=
  if Z.ltb min_desc (Z.modulo (line_length - 1) 4294967296)
  then Ok (mk_raw caption line_length min_desc [] [] [])
  else Undef UB_assert.

(** options_description.cpp 323: the first [push_back] *)
Definition push_option (r : raw_description) (d : option_description) : raw_description :=
  mk_raw (rw_caption r) (rw_line_length r) (rw_min_description_length r) (rw_options r ++ [d]) (rw_belongs r) (rw_groups r).
(** options_description.cpp 324: the second [push_back] *)
Definition push_belongs (r : raw_description) (b : bool) : raw_description :=
  mk_raw (rw_caption r) (rw_line_length r) (rw_min_description_length r) (rw_options r) (rw_belongs r ++ [b]) (rw_groups r).
(** options_description.cpp 331 *)
Definition push_group (r g : raw_description) : raw_description :=
  mk_raw (rw_caption r) (rw_line_length r) (rw_min_description_length r) (rw_options r) (rw_belongs r) (rw_groups r ++ [g]).
(** options_description.cpp 335: [belong_to_group.back() = true]; always after a [push_back], so that the vector is not empty *)
Definition set_back (r : raw_description) : raw_description :=
  mk_raw (rw_caption r) (rw_line_length r) (rw_min_description_length r) (rw_options r)
    (removelast (rw_belongs r) ++ [true]) (rw_groups r).

(** options_description.cpp 320-325 [add] *)
Definition raw_add (r : raw_description) (d : option_description) : raw_description := push_belongs (push_option r d) false.

(** options_description.cpp 333-336: the loop *)
Fixpoint raw_add_loop (r : raw_description) (ds : list option_description) : raw_description :=
  match ds with
  | [] => r
  | d :: ds' => raw_add_loop (set_back (raw_add r d)) ds'
  end.

(** options_description.cpp 327-339 [add], for a description that is not added to itself (C77) *)
Definition raw_add_group (r g : raw_description) : raw_description := raw_add_loop (push_group r g) (rw_options g).

(** options_description.cpp 320-325: memory runs out in [add].  A [push_back] that throws changes nothing. *)
Inductive cut_add (r : raw_description) (d : option_description) : raw_description -> Prop :=
| ca_before : cut_add r d r                                  (* 323 *)
| ca_half : cut_add r d (push_option r d).                   (* 324 *)

(** options_description.cpp 327-339: memory runs out while a group is added *)
Inductive cut_add_group (r g : raw_description) : raw_description -> Prop :=
| cg_before : cut_add_group r g r                            (* 330, 331 *)
| cg_loop done d todo r' :                                   (* 334 *)
    rw_options g = done ++ d :: todo -> cut_add (raw_add_loop (push_group r g) done) d r' -> cut_add_group r g r'.

(** A program that builds descriptions and goes on when memory runs out. (options_description.cpp 300-339) *)
Inductive assembled : raw_description -> Prop :=
| bu_new caption line_length min_desc r : raw_new caption line_length min_desc = Ok r -> assembled r
| bu_add r d : assembled r -> assembled (raw_add r d)
| bu_add_cut r d r' : assembled r -> cut_add r d r' -> assembled r'
| bu_group r g : assembled r -> assembled g -> assembled (raw_add_group r g)
| bu_group_cut r g r' : assembled r -> assembled g -> cut_add_group r g r' -> assembled r'.

(** options_description.cpp 643-670 [get_option_column_width] *)
Fixpoint raw_column_width (r : raw_description) : outcome Z :=
  match r with
  | mk_raw _ line_length min_desc opts _ groups =>
      let* w := max_column 23 opts in
      let* w := (fix group_widths (w : Z) (gs : list raw_description) : outcome Z :=
                   match gs with
                   | [] => Ok w
                   | g :: gs' =>
                       let* wg := raw_column_width g in
                       group_widths (Z.max w wg) gs'
                   end) w groups in
      let start := usub line_length min_desc in
      Ok (Z.modulo (Z.min w (usub start 1) + 1) 4294967296)
  end.

(** options_description.cpp 682-692: the loop; [belong_to_group] is read at the index of the option. *)
Fixpoint raw_print_options (ndebug : bool) (opts : list option_description) (belongs : list bool) (width line_length : Z)
    : outcome str :=
  match opts, belongs with
  | [], _ => Ok []
  | _ :: _, [] => Undef UB_index
  | _ :: opts', true :: belongs' => raw_print_options ndebug opts' belongs' width line_length
  | d :: opts', false :: belongs' =>
      let* t := format_one ndebug d width line_length in
      let* rest := raw_print_options ndebug opts' belongs' width line_length in
      Ok (t ++ [c_nl] ++ rest)
  end.

(** options_description.cpp 672-698 [print] *)
Fixpoint raw_print (ndebug : bool) (r : raw_description) (width : Z) : outcome str :=
  match r with
  | mk_raw caption line_length min_desc opts belongs groups =>
      let head := if is_empty caption then [] else caption ++ [":"%char; c_nl] in
      let* width := if Z.eqb width 0 then raw_column_width r else Ok width in
      let* body := raw_print_options ndebug opts belongs width line_length in
      let* tail := (fix print_groups (gs : list raw_description) : outcome str :=
                      match gs with
                      | [] => Ok []
                      | g :: gs' =>
                          let* t := raw_print ndebug g width in
                          let* rest := print_groups gs' in
                          Ok ([c_nl] ++ t ++ rest)
                      end) groups in
      Ok (head ++ body ++ tail)
  end.
