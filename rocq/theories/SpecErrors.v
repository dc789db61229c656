(** Vocabulary for the properties of error messages. *)

From Coq Require Import List Ascii String NArith ZArith Bool Sorted.
From Verif Require Import Base Errors Values Spec.
Import ListNotations.

(** ** The parts of an error object *)

Definition contains (p s : str) : Prop := exists a b, s = a ++ p ++ b.
Definition placeholder (name : str) : str := $"%" ++ name ++ $"%".

(** A detail set on the error: "option", "original_token", "value", "invalid_line". *)
Definition detail (e : exn) (name : str) : option str := sm_find name (ex_subst e).

(** The names with a placeholder. *)
Definition parameters (e : exn) : list str :=
  $"canonical_option" :: $"prefix" :: map fst (ex_subst e).

(** The text has no placeholder. *)
Definition inert (e : exn) (s : str) : Prop :=
  forall name, In name (parameters e) -> ~ contains (placeholder name) s.

(** The error is one the library can show: how it was written on the command line is known
    or irrelevant, and the details its message needs are there. *)
Record presentable (e : exn) : Prop := {
  pr_style : In (ex_style e) [0; allow_long; allow_long_disguise; allow_dash_for_short; allow_slash_for_short]%Z;
  pr_option : detail e $"option" <> None;
  pr_token : detail e $"original_token" <> None;
  pr_names : Forall (fun k => without "%"%char k /\ without "'"%char k) (map fst (ex_subst e));
  pr_alternatives : forall alts, ex_class e = ambiguous_option alts -> alts <> [];
  pr_line : forall k, ex_class e = invalid_command_line_syntax k \/ ex_class e = invalid_config_file_syntax k ->
    k = unrecognized_line -> detail e $"invalid_line" <> None }.

(** Only errors about an option have a computed message. *)
Definition showable (e : exn) : Prop := has_option_name (ex_class e) = true -> presentable e.

(** Throws only errors that can be shown. *)
Definition throws_showable {A} (x : outcome A) : Prop := forall e, x = Throw e -> showable e.

(** The semantic throws only errors that can be shown. *)
Definition polite (s : value_semantic) : Prop :=
  (forall v tokens utf8, throws_showable (snd (vs_parse s v tokens utf8)))
  /\ (forall v, throws_showable (snd (vs_notify s v))).

(** The call never returns. *)
Definition hangs (e : exn) : Prop := forall steps, what steps e = NoFuel.

(** ** The messages *)

Definition dash_or_slash (c : char) : Prop := c = "-"%char \/ c = "/"%char.

(** Without the leading dashes and slashes, if there is anything else. *)
Inductive stripped : str -> str -> Prop :=
| stripped_some p c s : Forall dash_or_slash p -> ~ dash_or_slash c -> stripped (p ++ c :: s) (c :: s)
| stripped_all s : Forall dash_or_slash s -> stripped s s.

Inductive style_prefix : Z -> str -> Prop :=
| sp_none : style_prefix 0 []
| sp_long : style_prefix allow_long $"--"
| sp_disguise : style_prefix allow_long_disguise $"-"
| sp_dash : style_prefix allow_dash_for_short $"-"
| sp_slash : style_prefix allow_slash_for_short $"/".

Definition short_style (style : Z) : Prop := style = allow_dash_for_short \/ style = allow_slash_for_short.
Definition long_style (style : Z) : Prop := style = allow_long \/ style = allow_long_disguise.

(** How the option is named: what was written, if the option is not known; a long option with its prefix;
    a short option by its first letter; else the name. *)
Inductive shown_name (style : Z) (option token : str) : str -> Prop :=
| sn_written : option = [] -> shown_name style option token token
| sn_long p o : option <> [] -> long_style style -> style_prefix style p -> stripped option o ->
    shown_name style option token (p ++ o)
| sn_letter p c t : option <> [] -> short_style style -> style_prefix style p -> stripped token (c :: t) ->
    shown_name style option token (p ++ [c])
| sn_no_token o : option <> [] -> short_style style -> token = [] -> stripped option o ->
    shown_name style option token o
| sn_plain o : option <> [] -> style = 0%Z -> stripped option o -> shown_name style option token o.

Definition quoted (s : str) : str := $"'" ++ s ++ $"'".
Definition the_option (name : str) : str :=
  match name with [] => $"option" | _ => $"option " ++ quoted name end.
Definition the_argument (value : option str) : str :=
  match value with None | Some [] => $"argument" | Some v => $"argument (" ++ quoted v ++ $")" end.
Definition the_line (line : option str) : str :=
  match line with Some l => quoted l | None => [] end.

(** The enumeration of the alternatives: each quoted with its prefix, "and" before the last. *)
Fixpoint enumeration (prefix : str) (names : list str) : str :=
  match names with
  | [] => []
  | [a] => quoted (prefix ++ a)
  | [a; b] => quoted (prefix ++ a) ++ $", and " ++ quoted (prefix ++ b)
  | a :: names' => quoted (prefix ++ a) ++ $", " ++ enumeration prefix names'
  end.

(** [names] holds the alternatives once each, in order. *)
Definition distinct_sorted (alts names : list str) : Prop :=
  StronglySorted str_lt names /\ forall a, In a names <-> In a alts.

Definition matches_text (style : Z) (prefix : str) (alts names : list str) : str :=
  if Z.eqb style allow_dash_for_short || Z.eqb style allow_slash_for_short then []
  else $" and matches " ++
       match names, alts with [_], _ :: _ :: _ => $"different versions of " | _, _ => [] end ++
       enumeration prefix names.

Definition syntax_message (k : syntax_kind) (name : str) (line : option str) : str :=
  match k with
  | long_not_allowed => $"the unabbreviated " ++ the_option name ++ $" is not valid"
  | long_adjacent_not_allowed => $"the unabbreviated " ++ the_option name ++ $" does not take any arguments"
  | short_adjacent_not_allowed => $"the abbreviated " ++ the_option name ++ $" does not take any arguments"
  | empty_adjacent_parameter =>
      $"the argument for " ++ the_option name ++ $" should follow immediately after the equal sign"
  | missing_parameter => $"the required argument for " ++ the_option name ++ $" is missing"
  | extra_parameter => the_option name ++ $" does not take any arguments"
  | unrecognized_line => $"the options configuration file contains an invalid line " ++ the_line line
  end.

Definition invalid_value_message (name : str) (value : option str) : str :=
  $"the " ++ the_argument value ++ $" for " ++ the_option name ++ $" is invalid".
Definition invalid_bool_message (name : str) (value : option str) : str :=
  invalid_value_message name value ++ $". Valid choices are 'on|off', 'yes|no', '1|0' and 'true|false'".

Definition validation_message (k : validation_kind) (name : str) (value : option str) : str :=
  match k with
  | multiple_values_not_allowed => the_option name ++ $" only takes a single argument"
  | at_least_one_value_required => the_option name ++ $" requires at least one argument"
  | vk_invalid_bool_value => invalid_bool_message name value
  | vk_invalid_option_value => invalid_value_message name value
  | vk_invalid_option => the_option name ++ $" is not valid"
  end.

(** The message of an error about an option. *)
Definition message (e : exn) (name prefix : str) (names : list str) : str :=
  let value := detail e $"value" in
  match ex_class e with
  | unknown_option => $"unrecognised " ++ the_option name
  | ambiguous_option alts => the_option name ++ $" is ambiguous" ++ matches_text (ex_style e) prefix alts names
  | invalid_command_line_syntax k | invalid_config_file_syntax k => syntax_message k name (detail e $"invalid_line")
  | validation_error k => validation_message k name value
  | invalid_option_value => invalid_value_message name value
  | invalid_bool_value => invalid_bool_message name value
  | multiple_values => the_option name ++ $" only takes a single argument"
  | multiple_occurrences => the_option name ++ $" cannot be specified more than once"
  | required_option => $"the " ++ the_option name ++ $" is required but missing"
  | _ => []
  end.

Definition alternatives (e : exn) : list str :=
  match ex_class e with ambiguous_option alts => alts | _ => [] end.
