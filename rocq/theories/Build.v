(** The interfaces a program builds its options and parsers with: the setters of
    [typed_value], [add_options()], [basic_command_line_parser] and its chain of
    calls, and the accessors of exceptions. *)

From Coq Require Import List Ascii String NArith ZArith Bool.
From Verif Require Import Base Errors Values OptDesc Positional Cmdline Parsers ConfigFile.
Import ListNotations.

Set Implicit Arguments.

(** ** Setters of [typed_value] *)

(** value_semantic.hpp 199-298: one call of a setter. *)
Inductive tv_call :=
| call_default (v : value)                      (* default_value(v) *)
| call_default_text (v : value) (text : str)    (* default_value(v, textual) *)
| call_implicit (v : value)
| call_implicit_text (v : value) (text : str)
| call_value_name (name : str)
| call_notifier (f : nat * (value -> option exn))
| call_composing
| call_multitoken
| call_zero_tokens
| call_required.

Section Setters.
(** [lexical_cast<std::string>(v)]: an arbitrary function. *)
Variable to_text : value -> outcome str.

(** value_semantic.hpp 199-217: the assignments *)
Definition set_default (tv : typed_value) (d : value * str) : typed_value :=
  mk_typed (tv_type tv) (tv_store_to tv) (tv_value_name tv) (Some d) (tv_implicit tv)
    (tv_composing tv) (tv_multitoken tv) (tv_zero_tokens tv) (tv_required tv) (tv_notifier tv).
(** value_semantic.hpp 223-253: the assignments *)
Definition set_implicit (tv : typed_value) (d : value * str) : typed_value :=
  mk_typed (tv_type tv) (tv_store_to tv) (tv_value_name tv) (tv_default tv) (Some d)
    (tv_composing tv) (tv_multitoken tv) (tv_zero_tokens tv) (tv_required tv) (tv_notifier tv).

(** value_semantic.hpp 199-298: the setters return [this].  If [lexical_cast] throws,
    nothing is returned; the object, changed in part, is not represented. *)
Definition tv_apply (tv : typed_value) (c : tv_call) : outcome typed_value :=
  match c with
  | call_default v => let* t := to_text v in Ok (set_default tv (v, t))
  | call_default_text v t => Ok (set_default tv (v, t))
  | call_implicit v => let* t := to_text v in Ok (set_implicit tv (v, t))
  | call_implicit_text v t => Ok (set_implicit tv (v, t))
  | call_value_name n =>
      Ok (mk_typed (tv_type tv) (tv_store_to tv) n (tv_default tv) (tv_implicit tv)
            (tv_composing tv) (tv_multitoken tv) (tv_zero_tokens tv) (tv_required tv) (tv_notifier tv))
  | call_notifier f =>
      Ok (mk_typed (tv_type tv) (tv_store_to tv) (tv_value_name tv) (tv_default tv) (tv_implicit tv)
            (tv_composing tv) (tv_multitoken tv) (tv_zero_tokens tv) (tv_required tv) (Some f))
  | call_composing =>
      Ok (mk_typed (tv_type tv) (tv_store_to tv) (tv_value_name tv) (tv_default tv) (tv_implicit tv)
            true (tv_multitoken tv) (tv_zero_tokens tv) (tv_required tv) (tv_notifier tv))
  | call_multitoken =>
      Ok (mk_typed (tv_type tv) (tv_store_to tv) (tv_value_name tv) (tv_default tv) (tv_implicit tv)
            (tv_composing tv) true (tv_zero_tokens tv) (tv_required tv) (tv_notifier tv))
  | call_zero_tokens =>
      Ok (mk_typed (tv_type tv) (tv_store_to tv) (tv_value_name tv) (tv_default tv) (tv_implicit tv)
            (tv_composing tv) (tv_multitoken tv) true (tv_required tv) (tv_notifier tv))
  | call_required =>
      Ok (mk_typed (tv_type tv) (tv_store_to tv) (tv_value_name tv) (tv_default tv) (tv_implicit tv)
            (tv_composing tv) (tv_multitoken tv) (tv_zero_tokens tv) true (tv_notifier tv))
  end.

(** A chain of calls, [value->c1->c2...]. (value_semantic.hpp 199-298: every setter returns [this]) *)
Fixpoint tv_chain (tv : typed_value) (cs : list tv_call) : outcome typed_value :=
  match cs with
  | [] => Ok tv
  | c :: cs' => let* tv' := tv_apply tv c in tv_chain tv' cs'
  end.

(** detail/value_semantic.hpp 215-222 [value<T>(T* v)], followed by a chain of calls *)
Definition declare_value (t : vty) (store_to : option nat) (cs : list tv_call) : outcome typed_value :=
  tv_chain (value_of_type t store_to) cs.

End Setters.

(** ** [add_options()] *)

(** options_description.hpp 166-177: one pair of parentheses. *)
Inductive add_call :=
| add_flag (name description : str)
| add_undescribed (name : str) (s : value_semantic)
| add_described (name : str) (s : value_semantic) (description : str).

(** The text a [const char*] stands for: up to the first NUL.
    (option_description and options_description_easy_init take [const char*], options_description.hpp 166-177) *)
Fixpoint c_text (s : str) : str :=
  match s with
  | [] => []
  | c :: s' => if char_eqb c "000"%char then [] else c :: c_text s'
  end.

(** options_description.cpp 261-296 [operator()]; [flag] is [new untyped_value(true)] *)
Definition easy_init (flag : value_semantic) (ds : options_description) (a : add_call)
    : outcome options_description :=
  let* d := match a with
            | add_flag n t => new_option (c_text n) flag (c_text t)
            | add_undescribed n s => new_option (c_text n) s []
            | add_described n s t => new_option (c_text n) s (c_text t)
            end in
  Ok (ods_add ds d).

Fixpoint easy_chain (flag : value_semantic) (ds : options_description) (l : list add_call)
    : outcome options_description :=
  match l with
  | [] => Ok ds
  | a :: l' => let* ds' := easy_init flag ds a in easy_chain flag ds' l'
  end.

(** ** [basic_command_line_parser<char>] *)

(** detail/cmdline.hpp 138-147: the members.  Functions may be empty. *)
Record parser := mk_parser {
  ps_args : list str;
  ps_style : Z;
  ps_allow_unregistered : bool;
  ps_desc : option (list option_description);     (* None: null pointer *)
  ps_positional : option positional;
  ps_additional : option (str -> str * str);
  ps_style_parser : option style_parser }.

(** cmdline.cpp 107-115 [init]; detail/parsers.hpp 15-20: constructor from a vector (it leaves
    the copy of [m_desc] in the derived class uninitialised, which only matters if [run] is called
    without [options], where an assertion fails anyway) *)
Definition new_parser (args : list str) : parser :=
  mk_parser args default_style false None None None None.

(** detail/parsers.hpp 23-29: constructor from [argc] and [argv], the array as a list of
    pointers ([None] is null): the strings [argv+1 .. argv+argc], or none if [argc] is 0. *)
Fixpoint argv_strings (ps : list (option str)) : outcome (list str) :=
  match ps with
  | [] => Ok []
  | None :: _ => Undef UB_null
  | Some s :: ps' => let* r := argv_strings ps' in Ok (s :: r)
  end.
Definition new_parser_argv (argc : Z) (argv : list (option str)) : outcome parser :=
  if Z.ltb argc 0 || Z.ltb (Z.of_nat (List.length argv)) argc then Undef UB_index
  else
    let* args := argv_strings (if Z.eqb argc 0 then [] else firstn (Z.to_nat argc - 1) (tl argv)) in
    Ok (new_parser args).

(** detail/parsers.hpp 32-80: one call. *)
Inductive parser_call :=
| call_options (ds : list option_description)
| call_positional (p : positional)
| call_style (style : Z)
| call_extra_parser (p : option (str -> str * str))
| call_allow_unregistered
| call_extra_style_parser (p : option style_parser).

Definition parser_apply (p : parser) (c : parser_call) : outcome parser :=
  match c with
  | call_options ds =>
      Ok (mk_parser (ps_args p) (ps_style p) (ps_allow_unregistered p) (Some ds) (ps_positional p)
            (ps_additional p) (ps_style_parser p))
  | call_positional q =>
      Ok (mk_parser (ps_args p) (ps_style p) (ps_allow_unregistered p) (ps_desc p) (Some q)
            (ps_additional p) (ps_style_parser p))
  | call_style s =>
      let* s' := set_style s in
      Ok (mk_parser (ps_args p) s' (ps_allow_unregistered p) (ps_desc p) (ps_positional p)
            (ps_additional p) (ps_style_parser p))
  | call_extra_parser f =>
      Ok (mk_parser (ps_args p) (ps_style p) (ps_allow_unregistered p) (ps_desc p) (ps_positional p)
            f (ps_style_parser p))
  | call_allow_unregistered =>
      Ok (mk_parser (ps_args p) (ps_style p) true (ps_desc p) (ps_positional p)
            (ps_additional p) (ps_style_parser p))
  | call_extra_style_parser f =>
      Ok (mk_parser (ps_args p) (ps_style p) (ps_allow_unregistered p) (ps_desc p) (ps_positional p)
            (ps_additional p) f)
  end.

Fixpoint parser_chain (p : parser) (cs : list parser_call) : outcome parser :=
  match cs with
  | [] => Ok p
  | c :: cs' => let* p' := parser_apply p c in parser_chain p' cs'
  end.

(** detail/parsers.hpp 84-98 [run], cmdline.cpp 207-398: the result, and the parser
    afterwards.  The loop works on the member [m_args] (251) and ends when it is empty.  For
    the parser left behind by an exception see [Rerun]. *)
Definition parser_object_run (fuel : nat) (p : parser) : outcome (parsed_options * parser) :=
  match ps_desc p with
  | None => Undef UB_assert
  | Some ds =>
      let* r := parser_run fuel
        (mk_cl (ps_style p) (ps_allow_unregistered p) ds (ps_positional p) (ps_additional p) (ps_style_parser p))
        (ps_args p) in
      Ok (r, mk_parser [] (ps_style p) (ps_allow_unregistered p) (ps_desc p) (ps_positional p)
               (ps_additional p) (ps_style_parser p))
  end.

(** detail/parsers.hpp 101-111 [parse_command_line] *)
Definition parse_argv (fuel : nat) (argc : Z) (argv : list (option str)) (ds : list option_description)
    (style : Z) (ext : option (str -> str * str)) : outcome parsed_options :=
  let* p := new_parser_argv argc argv in
  let* p := parser_chain p [call_options ds; call_style style; call_extra_parser ext] in
  let* r := parser_object_run fuel p in
  Ok (fst r).

(** ** Accessors of exceptions *)

(** errors.hpp 177-178 [get_option_name] *)
Definition get_option_name (e : exn) : outcome str := canonical_option_name e.

(** errors.hpp 328, 346: [tokens], of the two classes derived from [invalid_syntax] *)
Definition tokens (e : exn) : outcome str :=
  match ex_class e with
  | invalid_config_file_syntax _ => subst_get $"invalid_line" (ex_subst e)
  | _ => get_option_name e
  end.

(** errors.hpp 325: [invalid_syntax::kind] *)
Definition syntax_kind_of (e : exn) : option syntax_kind :=
  match ex_class e with
  | invalid_config_file_syntax k => Some k
  | invalid_command_line_syntax k => Some k
  | _ => None
  end.
