(** Wide character interfaces: include/boost/program_options/option.hpp, parsers.hpp,
    detail/parsers.hpp, detail/config_file.hpp, src/parsers.cpp, src/convert.cpp,
    src/value_semantic.cpp, src/variables_map.cpp, src/winmain.cpp instantiated for
    [wchar_t].  Everything is converted to UTF-8, parsed, and converted back. *)

From Coq Require Import List Ascii String NArith ZArith Bool.
From Verif Require Import Base Errors Values OptDesc Positional Cmdline Parsers ConfigFile VarMap
  Winmain Convert.
Import ListNotations.

Set Implicit Arguments.

(** convert.cpp 155-160 and detail/convert.hpp 74-81 [to_internal] *)
Definition to_internal (args : list wstr) : outcome (list str) := mapM to_utf8 args.

(** option.hpp 24-67 [basic_option<wchar_t>].  The key is a narrow string. *)
Record woption := mk_wopt {
  wo_key : str;
  wo_pos : Z;
  wo_value : list wstr;
  wo_orig : list wstr;
  wo_unreg : bool;
  wo_ci : bool }.

(** parsers.cpp 72-88 [woption_from_option]; [case_insensitive] keeps its initial value
    (option.hpp 29). *)
Definition woption_from_option (o : popt) : outcome woption :=
  let* value := mapM from_utf8 (po_value o) in
  let* orig := mapM from_utf8 (po_orig o) in
  Ok (mk_wopt (po_key o) (po_pos o) value orig (po_unreg o) false).

(** parsers.hpp 66-89 [basic_parsed_options<wchar_t>]; the description and the prefix are
    those of [wp_utf8]. *)
Record wparsed_options := mk_wparsed {
  wp_options : list woption;
  wp_utf8 : parsed_options }.

(** parsers.cpp 91-99: the constructor *)
Definition wparsed (p : parsed_options) : outcome wparsed_options :=
  let* ws := mapM woption_from_option (pr_options p) in
  Ok (mk_wparsed ws p).

(** detail/parsers.hpp 15-29 (constructors) and 84-98 [run] for [wchar_t] *)
Definition wparser_run (fuel : nat) (c : cmdline) (wargs : list wstr) : outcome wparsed_options :=
  let* args := to_internal wargs in
  let* p := parser_run fuel c args in
  wparsed p.

(** detail/parsers.hpp 113-130 [collect_unrecognized] for [wchar_t] *)
Fixpoint wcollect_unrecognized (opts : list woption) (mode : collect_mode) : list wstr :=
  match opts with
  | [] => []
  | o :: opts' =>
      (if wo_unreg o
          || match mode with
             | include_positional => negb (Z.eqb (wo_pos o) (-1))
             | exclude_positional => false
             end
       then wo_orig o else [])
      ++ wcollect_unrecognized opts' mode
  end.

(** [std::getline] over a wide stream (see [getline_aux])
    (config_file.cpp 158; the standard library, not in /repo) *)
Fixpoint wgetline_aux (cur : wstr) (s : wstr) : list wstr :=
  match s with
  | [] => match cur with [] => [] | _ => [rev cur] end
  | x :: s' => if N.eqb x (N_of_ascii c_nl) then rev cur :: wgetline_aux [] s'
               else wgetline_aux (x :: cur) s'
  end.
(** config_file.cpp 151-166, called until it returns false *)
Definition wgetline_all (s : wstr) : list wstr := wgetline_aux [] s.

(** parsers.cpp 102-130 [parse_config_file] for [wchar_t], with detail/config_file.hpp
    165-176 [getline].  The lines are converted before the first is parsed, which makes no
    difference as converting them does not fail; Streams.v has the program's order. *)
Definition wparse_config_file (content : wstr) (ds : list option_description)
    (allow_unregistered : bool) : outcome wparsed_options :=
  let* lines := mapM to_utf8 (wgetline_all content) in
  let* allowed := cf_allowed ds [] in
  let* prefixes := cf_add_options [] allowed in
  let* opts := cf_copy (S (List.length lines)) allowed prefixes allow_unregistered
                 (mk_cf [] lines) in
  wparsed (mk_parsed opts (Some ds) 0).

(** variables_map.cpp 145-149 *)
Definition wstore (p : wparsed_options) (vm : variables_map) : variables_map * outcome unit :=
  store (wp_utf8 p) vm true.

(** winmain.cpp 91-99 *)
Definition wsplit_winmain (cmdline : wstr) : outcome (list wstr) :=
  let* s := to_utf8 cmdline in
  mapM from_utf8 (split_winmain s).

(** ** Wide values *)

(** detail/value_semantic.hpp 59-72 for [wchar_t] *)
Definition wget_single_string (xs : list wstr) (allow_empty : bool) : outcome wstr :=
  match xs with
  | _ :: _ :: _ => Throw (mk_validation multiple_values_not_allowed)
  | [x] => Ok x
  | [] => if allow_empty then Ok [] else Throw (mk_validation at_least_one_value_required)
  end.

(** [tolower(s[i])] of a wide character: undefined if it is not an unsigned char (value_semantic.cpp 177) *)
Definition wtolower (w : wchar) : outcome wchar :=
  if (w <? 256)%N then Ok (if (65 <=? w)%N && (w <=? 90)%N then (w + 32)%N else w)
  else Undef UB_ctype.

(** A wide literal (value_semantic.cpp 178-183) *)
Definition widen (s : str) : wstr := map N_of_ascii s.

(** [std::wstring::operator==], used in value_semantic.cpp 178-183; not in /repo *)
Fixpoint wstr_eqb (a b : wstr) : bool :=
  match a, b with
  | [], [] => true
  | x :: a', y :: b' => N.eqb x y && wstr_eqb a' b'
  | _, _ => false
  end.

Section WithConversions.

(** [to_local_8_bit] and [from_local_8_bit] depend on the locale, [lexical_cast] is not in
    /repo: arbitrary functions. *)
Variable to_local : wstr -> outcome str.
Variable from_local : str -> outcome wstr.
Variable wlexical_cast : nat -> wstr -> option Z.

(** The values of type [std::wstring] are one of the types of [VLex]: its number, and the
    number of each string. *)
Variable wide_string : nat.
Variable wide_code : wstr -> Z.

(** value_semantic.cpp 25-33 [convert_value].  (Only exceptions are caught.) *)
Definition convert_value (s : wstr) : outcome str :=
  match to_local s with
  | Throw _ => Ok $"<unrepresentable unicode string>"
  | r => r
  end.

(** value_semantic.cpp 171-185 *)
Definition wbool_of_string (s : wstr) : outcome value :=
  let* l := mapM wtolower s in
  let is x := wstr_eqb l (widen x) in
  if is_empty l || is $"on" || is $"yes" || is $"1" || is $"true" then Ok (VBool true)
  else if is $"off" || is $"no" || is $"0" || is $"false" then Ok (VBool false)
  else let* t := convert_value l in Throw (mk_invalid_bool_value t).

Definition wvalidate_bool (v : any) (xs : list wstr) : any * outcome unit :=
  assign_or v
    (let* _ := check_first_occurrence v in
     let* s := wget_single_string xs true in
     wbool_of_string s).

(** value_semantic.cpp 195-200, the validator for [std::string*]: the [any] gets the wide
    string itself. *)
Definition wvalidate_string (v : any) (xs : list wstr) : any * outcome unit :=
  assign_or v
    (let* _ := check_first_occurrence v in
     let* s := wget_single_string xs false in
     Ok (VLex wide_string (wide_code s))).

(** detail/value_semantic.hpp 88-101 and value_semantic.cpp 223-228 *)
Definition wvalidate_lex (n : nat) (v : any) (xs : list wstr) : any * outcome unit :=
  assign_or v
    (let* _ := check_first_occurrence v in
     let* s := wget_single_string xs false in
     match wlexical_cast n s with
     | Some z => Ok (VLex n z)
     | None => let* t := convert_value s in Throw (mk_invalid_option_value t)
     end).

(** detail/value_semantic.hpp 144-159 *)
Fixpoint wpush_tokens (t : vty) (elem : list wstr -> any * outcome unit)
    (tv : list value) (xs : list wstr) : list value * outcome unit :=
  match xs with
  | [] => (tv, Ok tt)
  | x :: xs' =>
      match elem [x] with
      | (a, Ok _) =>
          match any_cast t a with
          | Some e => wpush_tokens t elem (tv ++ [e]) xs'
          | None => (tv, Throw (plain_exn bad_any_cast))
          end
      | (_, Throw e) => (tv, Throw e)
      | (_, Undef u) => (tv, Undef u)
      | (_, NoFuel) => (tv, NoFuel)
      end
  end.

(** detail/value_semantic.hpp 133-160 *)
Definition wvalidate_vec (t : vty) (elem : list wstr -> any * outcome unit)
    (v : any) (xs : list wstr) : any * outcome unit :=
  let v1 := if any_empty v then Some (VVec t []) else v in
  match any_cast (TVec t) v1 with
  | Some (VVec _ vs) =>
      let (vs', r) := wpush_tokens t elem vs xs in (Some (VVec t vs'), r)
  | _ => (v1, Undef UB_assert)
  end.

(** detail/value_semantic.hpp 163-190 *)
Definition wvalidate_opt (t : vty) (elem : list wstr -> any * outcome unit)
    (v : any) (xs : list wstr) : any * outcome unit :=
  assign_or v
    (let* _ := check_first_occurrence v in
     let* _ := wget_single_string xs false in
     match elem xs with
     | (a, Ok _) =>
         match any_cast t a with
         | Some e => Ok (VOpt t (Some e))
         | None => Throw (plain_exn bad_any_cast)
         end
     | (_, Throw e) => Throw e
     | (_, Undef u) => Undef u
     | (_, NoFuel) => NoFuel
     end).

(** Overload resolution of [validate(value_store, tokens, (T* )0, 0)] for wide tokens
    (detail/value_semantic.hpp 204) *)
Fixpoint wvalidate (t : vty) (v : any) (xs : list wstr) : any * outcome unit :=
  match t with
  | TBool => wvalidate_bool v xs
  | TString => wvalidate_string v xs
  | TLex n => wvalidate_lex n v xs
  | TVec t' => wvalidate_vec t' (fun ys => wvalidate t' None ys) v xs
  | TOpt t' => wvalidate_opt t' (fun ys => wvalidate t' None ys) v xs
  end.

(** detail/value_semantic.hpp 192-205 [xparse] for [wchar_t] *)
Definition wtv_xparse (tv : typed_value) (v : any) (xs : list wstr) : any * outcome unit :=
  match xs, tv_implicit tv with
  | [], Some (iv, _) => (Some iv, Ok tt)
  | _, _ => wvalidate (tv_type tv) v xs
  end.

(** value_semantic.cpp 62-84 [value_semantic_codecvt_helper<wchar_t>::parse] *)
Definition wcodecvt_parse (xparse : any -> list wstr -> any * outcome unit)
    (v : any) (xs : list str) (utf8 : bool) : any * outcome unit :=
  match mapM (if utf8 then from_utf8 else from_local) xs with
  | Ok ys => xparse v ys
  | Throw e => (v, Throw e)
  | Undef u => (v, Undef u)
  | NoFuel => (v, NoFuel)
  end.

(** A [typed_value<T, wchar_t>], as made by [wvalue<T>()] (detail/value_semantic.hpp
    224-238), seen through the interface.  Only parsing differs from [typed]. *)
Definition wtyped (tv : typed_value) : value_semantic :=
  mk_sem (tv_name tv) (tv_min_tokens tv) (tv_max_tokens tv) (tv_composing tv)
    (tv_required tv) (wcodecvt_parse (wtv_xparse tv))
    (option_map (fun d => Some (fst d)) (tv_default tv))
    (tv_notify tv).

(** value_semantic.cpp 47-50: what a narrow option receives for UTF-8 input, the parameter
    of [codecvt_parse] *)
Definition utf8_to_local (s : str) : outcome str :=
  let* w := from_utf8 s in to_local w.

End WithConversions.
