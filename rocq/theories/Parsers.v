(** Front ends: include/boost/program_options/parsers.hpp,
    include/boost/program_options/detail/parsers.hpp, src/parsers.cpp,
    include/boost/program_options/environment_iterator.hpp. *)

From Coq Require Import List Ascii String NArith ZArith Bool.
From Verif Require Import Base Errors Values OptDesc Positional Cmdline.
Import ListNotations.

Set Implicit Arguments.

(** parsers.hpp 37-62 [basic_parsed_options<char>].  [pr_desc = None] is the null
    pointer. *)
Record parsed_options := mk_parsed {
  pr_options : list popt;
  pr_desc : option (list option_description);
  pr_prefix : Z }.

(** detail/parsers.hpp 84-98 [basic_command_line_parser<char>::run] *)
Definition parser_run (fuel : nat) (c : cmdline) (args : list str) : outcome parsed_options :=
  let* opts := run fuel c args in
  Ok (mk_parsed opts (Some (cl_desc c)) (cl_prefix c)).

(** detail/parsers.hpp 101-111 [parse_command_line], on the arguments after the
    program name. *)
Definition parse_command_line (fuel : nat) (args : list str) (ds : list option_description)
    (style : Z) (ext : option (str -> str * str)) : outcome parsed_options :=
  let* s := set_style style in
  parser_run fuel (mk_cl s false ds None ext None) args.

(** parsers.hpp 211-212 [collect_unrecognized_mode] *)
Inductive collect_mode := include_positional | exclude_positional.

(** detail/parsers.hpp 113-130 [collect_unrecognized] *)
Fixpoint collect_unrecognized (opts : list popt) (mode : collect_mode) : list str :=
  match opts with
  | [] => []
  | o :: opts' =>
      (if po_unreg o
          || match mode with
             | include_positional => negb (Z.eqb (po_pos o) (-1))
             | exclude_positional => false
             end
       then po_orig o else [])
      ++ collect_unrecognized opts' mode
  end.

(** ** Environment *)

(** environment_iterator.hpp 33-46 [get]: split one environment string *)
Definition env_split (s : str) : outcome (str * str) :=
  match find_char c_eq s with
  | Some n => Ok (substr_n s 0 n, substr s (n + 1))
  | None => Undef UB_assert
  end.

(** parsers.cpp 200-218 [parse_environment(desc, name_mapper)]; [env] is the
    array of C strings [environ].  The mapper is user code. *)
Fixpoint parse_environment_loop (env : list str) (mapper : str -> outcome str)
    : outcome (list popt) :=
  match env with
  | [] => Ok []
  | s :: env' =>
      let* p := env_split s in
      let* name := mapper (fst p) in
      let* rest := parse_environment_loop env' mapper in
      Ok ((if is_empty name then []
           else [mk_popt name (-1) [snd p] [] false false]) ++ rest)
  end.
Definition parse_environment (env : list str) (ds : list option_description)
    (mapper : str -> outcome str) : outcome parsed_options :=
  let* opts := parse_environment_loop env mapper in
  Ok (mk_parsed opts (Some ds) 0).

(** parsers.cpp 221-242 [prefix_name_mapper] *)
Definition prefix_name_mapper (prefix s : str) : outcome str :=
  if found_at_0 prefix s then mapM tolower_char (substr s (List.length prefix))
  else Ok [].

(** parsers.cpp 245-256 [parse_environment(desc, prefix)] *)
Definition parse_environment_prefix (env : list str) (ds : list option_description)
    (prefix : str) : outcome parsed_options :=
  parse_environment env ds (prefix_name_mapper prefix).
