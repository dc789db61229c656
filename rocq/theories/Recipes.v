(** Functions of the example programs: what a user of the library writes around it. *)

From Coq Require Import List Ascii String NArith ZArith Bool.
From Verif Require Import Base Errors Values OptDesc Positional Cmdline Parsers VarMap Objects.
Import ListNotations.

(** The condition [vm.count(name) && !vm[name].defaulted()] (example/real.cpp 20, 21, 31).  [next] are the maps that [vm] is linked
    to by [next]: [count] is that of [std::map] and sees [vm] only, [operator[]] sees all of them. *)
Definition counts (vm : variables_map) (name : str) : bool :=
  match sm_find name (vm_map vm) with Some _ => true | None => false end.
Definition seen (vm : variables_map) (next : list variables_map) (name : str) : bool :=
  counts vm name && negb (vv_defaulted (chain_get vm next name)).

(** example/real.cpp 17-24 [conflicting_options] *)
Definition conflicting_options (vm : variables_map) (next : list variables_map) (opt1 opt2 : str) : outcome unit :=
  if seen vm next opt1 && seen vm next opt2 then
    Throw (plain_exn (std_logic_error ($"Conflicting options '" ++ opt1 ++ $"' and '" ++ opt2 ++ $"'.")))
  else Ok tt.

(** example/real.cpp 28-35 [option_dependency] *)
Definition option_dependency (vm : variables_map) (next : list variables_map) (for_what required : str) : outcome unit :=
  if seen vm next for_what then
    if negb (counts vm required) || vv_defaulted (chain_get vm next required) then
      Throw (plain_exn (std_logic_error ($"Option '" ++ for_what ++ $"' requires option '" ++ required ++ $"'.")))
    else Ok tt
  else Ok tt.

(** example/custom_syntax.cpp 26-36 [reg_foo] *)
Definition reg_foo (s : str) : str * str :=
  if found_at_0 $"-f" s then
    if str_eqb (substr_n s 2 3) $"no-" then (substr s 5, $"false") else (substr s 2, $"true")
  else ([], []).

(** example/response_file.cpp 33-39 [at_option_parser]; [s[0]] of the empty string is the null character. *)
Definition at_option_parser (s : str) : str * str :=
  match s with
  | c :: _ => if char_eqb "@" c then ($"response-file", substr s 1) else ([], [])
  | [] => ([], [])
  end.

(** A digit, and its value; Boost.Regex is not in /repo: "\d" is taken to be '0' to '9'. (example/regex.cpp 48) *)
Definition digit_value (c : char) : option Z :=
  let n := Z.of_N (N_of_ascii c) in if ((48 <=? n) && (n <=? 57))%Z then Some (n - 48)%Z else None.

(** [regex_match] with the expression of example/regex.cpp 48 and [lexical_cast<int>] of what the group matched (line 62) *)
Definition match_magic (s : str) : option Z :=
  match s with
  | [a; b; c; d; x; y; z] =>
      match digit_value a, digit_value b, digit_value c, digit_value x, digit_value y, digit_value z with
      | Some _, Some _, Some _, Some x, Some y, Some z =>
          if char_eqb c_dash d then Some (100 * x + 10 * y + z)%Z else None
      | _, _, _, _, _, _ => None
      end
  | _ => None
  end.

(** example/regex.cpp 44-66 [validate(any&, vector<string>, magic_number*, int)]; a [magic_number] is a value of the type number [k].
    (Line 64 throws the base class [validation_error].) *)
Definition validate_magic (k : nat) (v : any) (xs : list str) : any * outcome unit :=
  assign_or v
    (let* _ := check_first_occurrence v in
     let* s := get_single_string xs false in
     match match_magic s with
     | Some n => Ok (VLex k n)
     | None => Throw (mk_validation vk_invalid_option_value)
     end).

(** [value<magic_number>()] (example/regex.cpp 76; value_semantic.hpp 370-377) *)
Definition magic_number (utf8_to_local : str -> outcome str) (k : nat) : value_semantic :=
  mk_sem $"arg" 1 1 false false (codecvt_parse utf8_to_local (validate_magic k)) None (fun _ => ([], Ok tt)).

(** [::toupper] in the "C" locale; undefined for negative characters. (example/env_options.cpp 14) *)
Definition upper_ascii (c : char) : char :=
  let n := N_of_ascii c in
  if ((97 <=? n) && (n <=? 122))%N then ascii_of_N (n - 32) else c.
Definition toupper_char (c : char) : outcome char :=
  if (N_of_ascii c <? 128)%N then Ok (upper_ascii c) else Undef UB_ctype.

(** example/env_options.cpp 11-19 [mapper] *)
Definition mapper (env_var : str) : outcome str :=
  let* up := mapM toupper_char env_var in
  Ok (if str_eqb up $"PATH" then $"path" else if str_eqb up $"EXAMPLE_VERBOSE" then $"verbosity" else []).

(** example/env_options.cpp 23-27: the options.  The texts are not used. *)
Definition env_config (lexical_cast : nat -> str -> option Z) (utf8_to_local : str -> outcome str) : list option_description :=
  [ mk_od [] [$"path"] [] (untyped utf8_to_local true);
    mk_od [] [$"verbosity"] [] (typed lexical_cast utf8_to_local
      (mk_typed TString None [] (Some (VString $"INFO", $"INFO")) None false false false false None)) ].

(** The characters of a value of type string (no code of the library) *)
Definition text_of (v : value) : str := match v with VString s => s | _ => [] end.

(** example/env_options.cpp 21-40 [get_env_options]: what it writes, the path if any and the verbosity *)
Definition get_env_options (lexical_cast : nat -> str -> option Z) (utf8_to_local : str -> outcome str) (env : list str)
    : outcome (option str * str) :=
  let* parsed := parse_environment env (env_config lexical_cast utf8_to_local) mapper in
  let (vm, r) := store parsed vm_new false in
  let* _ := r in
  let* _ := snd (notify vm) in
  let* path :=
    if counts vm $"path" then let* v := vv_as TString (vm_get vm $"path") in Ok (Some (substr_n (text_of v) 0 75))
    else Ok None in
  let* verbosity := vv_as TString (vm_get vm $"verbosity") in
  Ok (path, text_of verbosity).
