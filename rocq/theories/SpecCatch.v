(** Vocabulary for C117: what must be caught. *)

From Coq Require Import List Ascii String NArith ZArith Bool.
From Verif Require Import Base Errors Spec Values OptDesc Positional Cmdline Parsers VarMap SpecStore Convert Wide SpecProgram.
Import ListNotations.

(** The classes derived from [boost::program_options::error]. *)
Definition program_options_error (c : exn_class) : Prop :=
  match c with
  | std_logic_error _ | escaped_list_error _ | bad_any_cast | user_exception _ => False
  | _ => True
  end.

(** Nothing is thrown but exceptions of these classes. *)
Definition only {A} (P : exn_class -> Prop) (x : outcome A) : Prop := forall e, x = Throw e -> P (ex_class e).

(** The errors in a command line. *)
Definition command_line_errors (c : cmdline) (x : exn_class) : Prop :=
  (x = unknown_option /\ cl_allow_unregistered c = false)
  \/ (exists alts, x = ambiguous_option alts)
  \/ x = invalid_command_line_syntax empty_adjacent_parameter
  \/ x = invalid_command_line_syntax missing_parameter
  \/ x = invalid_command_line_syntax extra_parameter
  \/ (x = too_many_positional_options_error /\ cl_positional c <> None).

(** The errors in a config file; the third is about the options, and does not depend on the file. *)
Definition file_errors (allow_unregistered : bool) (x : exn_class) : Prop :=
  (x = unknown_option /\ allow_unregistered = false)
  \/ x = invalid_config_file_syntax unrecognized_line
  \/ exists msg, x = po_error msg.

(** The errors in names and values *)
Definition store_errors (x : exn_class) : Prop :=
  x = unknown_option \/ (exists alts, x = ambiguous_option alts)
  \/ x = validation_error multiple_values_not_allowed \/ x = validation_error at_least_one_value_required
  \/ x = invalid_option_value \/ x = invalid_bool_value \/ x = multiple_values \/ x = multiple_occurrences.

(** The error of a conversion between encodings *)
Definition conversion_error (x : exn_class) : Prop := exists msg, x = std_logic_error msg.

(** A string of [char] is part of the type. *)
Fixpoint has_string (t : vty) : Prop :=
  match t with TString => True | TVec t | TOpt t => has_string t | _ => False end.

(** The value semantics of the library for [char] and for [wchar_t], with functions that convert encodings, or throw if they cannot.
    [narrow] tells whether a string of [char] is made of wide text. *)
Inductive library_value (narrow : Prop) : value_semantic -> Prop :=
| lv_typed lexical_cast local tv : (forall x, only conversion_error (local x)) -> library_value narrow (typed lexical_cast local tv)
| lv_untyped local zero : (forall x, only conversion_error (local x)) -> library_value narrow (untyped local zero)
| lv_wide to_local from_local lexical_cast n code tv :
    (forall x, only conversion_error (from_local x)) -> (has_string (tv_type tv) -> narrow) ->
    library_value narrow (wtyped to_local from_local lexical_cast n code tv).

(** The exception comes from a function of the user: the notifier of a value, *)
Definition notifier_throws (s : value_semantic) (e : exn) : Prop :=
  exists lexical_cast local tv f body x, s = typed lexical_cast local tv /\ tv_notifier tv = Some (f, body) /\ body x = Some e.

(** or, in a program, the notifier of an option or a function that maps the names in the environment. *)
Definition thrown_by_user (ds : list option_description) (inputs : list input) (e : exn) : Prop :=
  (exists d, In d ds /\ notifier_throws (od_sem d) e)
  \/ exists mapper env n, In (Environment mapper env) inputs /\ mapper n = Throw e.
