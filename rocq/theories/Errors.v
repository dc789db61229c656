(** Exceptions: include/boost/program_options/errors.hpp, src/value_semantic.cpp
    (245-428), src/cmdline.cpp (42-76). *)

From Coq Require Import List Ascii String NArith ZArith Bool.
From Verif Require Import Base.
Import ListNotations.

Set Implicit Arguments.

(** errors.hpp 304-312, [invalid_syntax::kind_t] *)
Inductive syntax_kind :=
| long_not_allowed | long_adjacent_not_allowed | short_adjacent_not_allowed
| empty_adjacent_parameter | missing_parameter | extra_parameter | unrecognized_line.

(** errors.hpp 365-371, [validation_error::kind_t] *)
Inductive validation_kind :=
| multiple_values_not_allowed | at_least_one_value_required
| vk_invalid_bool_value | vk_invalid_option_value | vk_invalid_option.

(** The dynamic type of a thrown object, with the members that matter.
    The first group derives from [error_with_option_name]. (errors.hpp 38-410) *)
Inductive exn_class :=
| unknown_option                                       (* errors.hpp 266-274 *)
| ambiguous_option (alternatives : list str)           (* errors.hpp 279-296 *)
| invalid_command_line_syntax (k : syntax_kind)        (* errors.hpp 351-359 *)
| invalid_config_file_syntax (k : syntax_kind)         (* errors.hpp 335-347 *)
| validation_error (k : validation_kind)               (* errors.hpp 363-391 *)
| invalid_option_value                                 (* errors.hpp 394-402 *)
| invalid_bool_value                                   (* errors.hpp 405-410 *)
| multiple_values                                      (* errors.hpp 207-213 *)
| multiple_occurrences                                 (* errors.hpp 218-225 *)
| required_option                                      (* errors.hpp 228-237 *)
(* the rest does not derive from error_with_option_name *)
| po_error (msg : str)                                 (* errors.hpp 38-41 *)
| too_many_positional_options_error                    (* errors.hpp 47-52 *)
| invalid_command_line_style (msg : str)               (* errors.hpp 55-60 *)
| reading_file (file : str)                            (* errors.hpp 63-68 *)
| std_logic_error (msg : str)                          (* std::logic_error *)
| escaped_list_error (msg : str)                       (* Boost.Tokenizer *)
| bad_any_cast                                         (* Boost.Any *)
| user_exception (n : nat).                            (* thrown by user code *)

(** Is it caught by [catch (error_with_option_name&)]? (errors.hpp 94-410: the class hierarchy) *)
Definition has_option_name (c : exn_class) : bool :=
  match c with
  | unknown_option | ambiguous_option _ | invalid_command_line_syntax _
  | invalid_config_file_syntax _ | validation_error _ | invalid_option_value
  | invalid_bool_value | multiple_values | multiple_occurrences | required_option => true
  | _ => false
  end.

(** Derived from [error_with_no_option_name] (errors.hpp 250-262), whose
    [set_option_name] does nothing. *)
Definition no_option_name (c : exn_class) : bool :=
  match c with unknown_option | ambiguous_option _ => true | _ => false end.

(** An exception object: dynamic type, [m_option_style], [m_substitutions]. The
    [m_substitution_defaults] never change after construction and are constants
    below. (errors.hpp 94-197 [error_with_option_name]) *)
Record exn := mk_exn {
  ex_class : exn_class;
  ex_style : Z;
  ex_subst : smap str }.

(** value_semantic.cpp 245-260: constructor of [error_with_option_name]. *)
Definition make_exn (c : exn_class) (option_name original_token : str) (style : Z) : exn :=
  mk_exn c style
    (sm_set $"original_token" original_token (sm_set $"option" option_name [])).

(** An exception outside the hierarchy. (errors.hpp 38-68: classes without members of their own) *)
Definition plain_exn (c : exn_class) : exn := mk_exn c 0 [].

(** errors.hpp 147-148 [set_substitute] *)
Definition set_substitute (p v : str) (e : exn) : exn :=
  mk_exn (ex_class e) (ex_style e) (sm_set p v (ex_subst e)).

(** errors.hpp 160-181 [add_context], as executed in the [catch
    (error_with_option_name& e)] blocks; other exceptions pass unchanged. *)
Definition add_context (option_name original_token : str) (style : Z) (e : exn) : exn :=
  if has_option_name (ex_class e) then
    let e1 := if no_option_name (ex_class e) then e
              else set_substitute $"option" option_name e in
    let e2 := set_substitute $"original_token" original_token e1 in
    mk_exn (ex_class e2) style (ex_subst e2)
  else e.

(** Constructors of the concrete classes. (errors.hpp 266-274) *)
Definition mk_unknown_option (tok : str) : exn := make_exn unknown_option [] tok 0.
(** errors.hpp 279-285 *)
Definition mk_ambiguous (alts : list str) : exn := make_exn (ambiguous_option alts) [] [] 0.
(** errors.hpp 351-359 *)
Definition mk_cmdline_syntax (k : syntax_kind) (name tok : str) (style : Z) : exn :=
  make_exn (invalid_command_line_syntax k) name tok style.
(** errors.hpp 335-341 *)
Definition mk_config_syntax (line : str) (k : syntax_kind) : exn :=
  set_substitute $"invalid_line" line (make_exn (invalid_config_file_syntax k) [] [] 0).
(** errors.hpp 363-383 *)
Definition mk_validation (k : validation_kind) : exn := make_exn (validation_error k) [] [] 0.
(** value_semantic.cpp 215-220 *)
Definition mk_invalid_option_value (v : str) : exn :=
  set_substitute $"value" v (make_exn invalid_option_value [] [] 0).
(** value_semantic.cpp 233-238 *)
Definition mk_invalid_bool_value (v : str) : exn :=
  set_substitute $"value" v (make_exn invalid_bool_value [] [] 0).
Definition mk_multiple_values : exn := make_exn multiple_values [] [] 0.
Definition mk_multiple_occurrences : exn := make_exn multiple_occurrences [] [] 0.
Definition mk_required_option (name : str) : exn := make_exn required_option [] name 0.

(** ** Outcome of a computation *)
Inductive outcome (A : Type) :=
| Ok (a : A)            (* returned normally *)
| Throw (e : exn)       (* threw an exception *)
| Undef (u : ub)        (* undefined behaviour was executed *)
| NoFuel.               (* did not finish within the given number of steps *)
Arguments Ok {A} _.
Arguments Throw {A} _.
Arguments Undef {A} _.
Arguments NoFuel {A}.

Definition bind {A B} (x : outcome A) (f : A -> outcome B) : outcome B :=
  match x with
  | Ok a => f a
  | Throw e => Throw e
  | Undef u => Undef u
  | NoFuel => NoFuel
  end.
Notation "'let*' x ':=' e 'in' k" := (bind e (fun x => k))
  (at level 200, x pattern, e at level 200, k at level 200, right associativity).

(** [try { x } catch (error_with_option_name& e) { e.add_context(..); throw; }]
    (cmdline.cpp 311-316, 503-508, 574-579, 657-662, variables_map.cpp 96-101) *)
Definition with_context {A} (name tok : str) (style : Z) (x : outcome A) : outcome A :=
  match x with
  | Throw e => Throw (add_context name tok style e)
  | _ => x
  end.

(** [v[i]] (used in cmdline.cpp 314 and elsewhere; not in /repo: [std::vector::operator[]]) *)
Definition at_index {A} (v : list A) (i : nat) : outcome A :=
  match nth_error v i with Some a => Ok a | None => Undef UB_index end.

(** [*s.rbegin()] (options_description.cpp 90, config_file.cpp 43, 98, 100) *)
Definition last_char (s : str) : outcome char :=
  match rev s with c :: _ => Ok c | [] => Undef UB_rbegin end.

(** a loop over a vector whose body can throw; not in /repo *)
Fixpoint mapM {A B} (f : A -> outcome B) (l : list A) : outcome (list B) :=
  match l with
  | [] => Ok []
  | x :: l' => let* y := f x in let* ys := mapM f l' in Ok (y :: ys)
  end.

(** [tolower(c)] for a plain [char c] (C locale, signed char): bytes above 127
    are negative arguments, i.e. undefined behaviour. (the C library, not in /repo) *)
Definition lower_ascii (c : char) : char :=
  let n := N_of_ascii c in
  if (65 <=? n)%N && (n <=? 90)%N then ascii_of_N (n + 32) else c.
(** used in options_description.cpp 40, parsers.cpp 235, value_semantic.cpp 155 *)
Definition tolower_char (c : char) : outcome char :=
  if (N_of_ascii c <? 128)%N then Ok (lower_ascii c) else Undef UB_ctype.

(** ** [what()] *)

(** cmdline.cpp 42-76 [invalid_syntax::get_template] *)
Definition syntax_template (k : syntax_kind) : str :=
  match k with
  | empty_adjacent_parameter =>
      $"the argument for option '%canonical_option%' should follow immediately after the equal sign"
  | missing_parameter => $"the required argument for option '%canonical_option%' is missing"
  | unrecognized_line => $"the options configuration file contains an invalid line '%invalid_line%'"
  | long_not_allowed => $"the unabbreviated option '%canonical_option%' is not valid"
  | long_adjacent_not_allowed =>
      $"the unabbreviated option '%canonical_option%' does not take any arguments"
  | short_adjacent_not_allowed =>
      $"the abbreviated option '%canonical_option%' does not take any arguments"
  | extra_parameter => $"option '%canonical_option%' does not take any arguments"
  end.

(** value_semantic.cpp 400-428 [validation_error::get_template] *)
Definition validation_template (k : validation_kind) : str :=
  match k with
  | vk_invalid_bool_value =>
      $"the argument ('%value%') for option '%canonical_option%' is invalid. Valid choices are 'on|off', 'yes|no', '1|0' and 'true|false'"
  | vk_invalid_option_value =>
      $"the argument ('%value%') for option '%canonical_option%' is invalid"
  | multiple_values_not_allowed => $"option '%canonical_option%' only takes a single argument"
  | at_least_one_value_required => $"option '%canonical_option%' requires at least one argument"
  | vk_invalid_option => $"option '%canonical_option%' is not valid"
  end.

(** The template given to the base class by each constructor (errors.hpp). *)
Definition error_template (c : exn_class) : str :=
  match c with
  | unknown_option => $"unrecognised option '%canonical_option%'"
  | ambiguous_option _ => $"option '%canonical_option%' is ambiguous"
  | invalid_command_line_syntax k | invalid_config_file_syntax k => syntax_template k
  | validation_error k => validation_template k
  | invalid_option_value => validation_template vk_invalid_option_value
  | invalid_bool_value => validation_template vk_invalid_bool_value
  | multiple_values => $"option '%canonical_option%' only takes a single argument"
  | multiple_occurrences => $"option '%canonical_option%' cannot be specified more than once"
  | required_option => $"the option '%canonical_option%' is required but missing"
  | po_error m => m
  | too_many_positional_options_error =>
      $"too many positional options have been specified on the command line"
  | invalid_command_line_style m => m
  | reading_file f => $"can not read options configuration file '" ++ f ++ $"'"
  | std_logic_error m => m
  | escaped_list_error m => m
  | bad_any_cast => $"boost::bad_any_cast: failed conversion using boost::any_cast"
  | user_exception _ => []
  end.

(** value_semantic.cpp 271-281 [replace_token]: repeatedly replace the first
    occurrence.  Each iteration of the [for(;;)] costs one unit of fuel. *)
Fixpoint replace_token (fuel : nat) (from to : str) (msg : str) : outcome str :=
  match fuel with
  | O => NoFuel
  | S fuel' =>
      match find_sub from msg with
      | None => Ok msg
      | Some pos =>
          replace_token fuel' from to
            (firstn pos msg ++ to ++ skipn (pos + List.length from) msg)
      end
  end.

(** The style constants (cmdline.hpp 26-85 [style_t]). *)
Definition allow_long : Z := 1.
Definition allow_short : Z := 2.
Definition allow_dash_for_short : Z := 4.
Definition allow_slash_for_short : Z := 8.
Definition long_allow_adjacent : Z := 16.
Definition long_allow_next : Z := 32.
Definition short_allow_adjacent : Z := 64.
Definition short_allow_next : Z := 128.
Definition allow_sticky : Z := 256.
Definition allow_guessing : Z := 512.
Definition long_case_insensitive : Z := 1024.
Definition short_case_insensitive : Z := 2048.
Definition case_insensitive_style : Z := 3072.
Definition allow_long_disguise : Z := 4096.
(** cmdline.hpp 78-84 *)
Definition unix_style : Z := 1015.
Definition default_style : Z := unix_style.

(** value_semantic.cpp 283-301 [get_canonical_option_prefix].  The exception for
    an impossible style is thrown from the [noexcept] function [what()] and would
    terminate the program; the model reports it as [Throw]. *)
Definition canonical_prefix (style : Z) : outcome str :=
  if Z.eqb style allow_dash_for_short then Ok $"-"
  else if Z.eqb style allow_slash_for_short then Ok $"/"
  else if Z.eqb style allow_long_disguise then Ok $"-"
  else if Z.eqb style allow_long then Ok $"--"
  else if Z.eqb style 0 then Ok []
  else Throw (plain_exn (std_logic_error
    $"error_with_option_name::m_option_style can only be one of [0, allow_dash_for_short, allow_slash_for_short, allow_long_disguise or allow_long]")).

(** errors.hpp 26-35 [strip_prefixes] *)
Definition strip_prefixes (text : str) : str :=
  match find_first_not_of $"-/" text with
  | None => text
  | Some i => substr text i
  end.

(** [m_substitutions.find(k)->second]; dereferencing [end()] is undefined.
    (value_semantic.cpp 306-310, errors.hpp 346) *)
Definition subst_get (k : str) (m : smap str) : outcome str :=
  match sm_find k m with Some v => Ok v | None => Undef UB_null end.

(** value_semantic.cpp 304-323 [get_canonical_option_name] *)
Definition canonical_option_name (e : exn) : outcome str :=
  let* opt := subst_get $"option" (ex_subst e) in
  let* tok := subst_get $"original_token" (ex_subst e) in
  if is_empty opt then Ok tok
  else
    let original_token := strip_prefixes tok in
    let option_name := strip_prefixes opt in
    if Z.eqb (ex_style e) allow_long || Z.eqb (ex_style e) allow_long_disguise then
      let* p := canonical_prefix (ex_style e) in Ok (p ++ option_name)
    else
      match original_token with
      | c :: _ =>
          if Z.eqb (ex_style e) 0 then Ok option_name
          else let* p := canonical_prefix (ex_style e) in Ok (p ++ [c])
      | [] => Ok option_name
      end.

(** value_semantic.cpp 255-257: the constant [m_substitution_defaults], in map
    order: parameter, text replaced, replacement. *)
Definition substitution_defaults : list (str * (str * str)) :=
  [ ($"canonical_option", ($"option '%canonical_option%'", $"option"));
    ($"prefix", ($"%prefix%", []));
    ($"value", ($"argument ('%value%')", $"argument")) ].

(** value_semantic.cpp 334-344: the first loop. *)
Fixpoint apply_defaults (fuel : nat) (ds : list (str * (str * str)))
    (subst : smap str) (msg : str) : outcome str :=
  match ds with
  | [] => Ok msg
  | (name, (from, to)) :: ds' =>
      let missing := match sm_find name subst with
                     | None => true
                     | Some v => is_empty v
                     end in
      let* msg' := if missing then replace_token fuel from to msg else Ok msg in
      apply_defaults fuel ds' subst msg'
  end.

(** value_semantic.cpp 347-353: the second loop. *)
Fixpoint apply_substitutions (fuel : nat) (ss : smap str) (msg : str) : outcome str :=
  match ss with
  | [] => Ok msg
  | (name, v) :: ss' =>
      let* msg' := replace_token fuel ([c_percent] ++ name ++ [c_percent]) v msg in
      apply_substitutions fuel ss' msg'
  end.

(** value_semantic.cpp 326-354 [substitute_placeholders].  The lookups
    [substitutions[iter->first]] of the first loop only read keys that were found
    to exist, so they do not extend the map. *)
Definition substitute_placeholders (fuel : nat) (e : exn) (template : str) : outcome str :=
  let* name := canonical_option_name e in
  let* prefix := canonical_prefix (ex_style e) in
  let subst := sm_set $"prefix" prefix (sm_set $"canonical_option" name (ex_subst e)) in
  let* msg := apply_defaults fuel substitution_defaults subst template in
  apply_substitutions fuel subst msg.

(** value_semantic.cpp 379-388: the alternatives listed by [ambiguous_option]. *)
Fixpoint quote_alternatives (alts : list str) : str :=
  match alts with
  | [] => []
  | a :: alts' => $"'%prefix%" ++ a ++ $"', " ++ quote_alternatives alts'
  end.

(** value_semantic.cpp 357-393 [ambiguous_option::substitute_placeholders]: the
    extended template.  [alternatives_vec.back()] of an empty vector is undefined. *)
Definition ambiguous_template (template : str) (alts : list str) : outcome str :=
  let vec := ss_insert_all alts [] in
  let t1 := template ++ $" and matches " in
  let t2 := if (1 <? List.length vec)%nat
            then t1 ++ quote_alternatives (removelast vec) ++ $"and " else t1 in
  let t3 := if (1 <? List.length alts)%nat && (List.length vec =? 1)%nat
            then t2 ++ $"different versions of " else t2 in
  match rev vec with
  | [] => Undef UB_index
  | a :: _ => Ok (t3 ++ $"'%prefix%" ++ a ++ $"'")
  end.

(** value_semantic.cpp 263-269 [what], with the override for
    [ambiguous_option] (357-393); for other exceptions the stored message. *)
Definition what (fuel : nat) (e : exn) : outcome str :=
  let t := error_template (ex_class e) in
  if has_option_name (ex_class e) then
    match ex_class e with
    | ambiguous_option alts =>
        if Z.eqb (ex_style e) allow_dash_for_short || Z.eqb (ex_style e) allow_slash_for_short
        then substitute_placeholders fuel e t
        else let* t' := ambiguous_template t alts in substitute_placeholders fuel e t'
    | _ => substitute_placeholders fuel e t
    end
  else Ok t.
