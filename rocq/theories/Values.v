(** Values and value semantics: include/boost/program_options/value_semantic.hpp,
    include/boost/program_options/detail/value_semantic.hpp,
    src/value_semantic.cpp (37-212). *)

From Coq Require Import List Ascii String NArith ZArith Bool.
From Verif Require Import Base Errors.
Import ListNotations.

Set Implicit Arguments.

(** ** [boost::any] *)

(** Types a [typed_value<T>] can be instantiated with.  [TLex n] stands for any
    type handled by the generic validator, i.e. through [lexical_cast].
    (detail/value_semantic.hpp 89-188: the overloads of [validate]) *)
Inductive vty :=
| TBool
| TString
| TLex (n : nat)
| TVec (t : vty)      (* std::vector<T> *)
| TOpt (t : vty).     (* boost::optional<T> / std::optional<T> *)

(** the values of these types, the content of a [boost::any]; not in /repo *)
Inductive value :=
| VBool (b : bool)
| VString (s : str)
| VLex (n : nat) (z : Z)
| VVec (t : vty) (vs : list value)
| VOpt (t : vty) (v : option value).

(** [any::type()] (Boost.Any, not in /repo) *)
Definition value_ty (v : value) : vty :=
  match v with
  | VBool _ => TBool
  | VString _ => TString
  | VLex n _ => TLex n
  | VVec t _ => TVec t
  | VOpt t _ => TOpt t
  end.

(** comparison of [std::type_info]; not in /repo *)
Fixpoint vty_eqb (a b : vty) : bool :=
  match a, b with
  | TBool, TBool => true
  | TString, TString => true
  | TLex n, TLex m => Nat.eqb n m
  | TVec x, TVec y => vty_eqb x y
  | TOpt x, TOpt y => vty_eqb x y
  | _, _ => false
  end.

(** A [boost::any]; [None] is [any::empty()]. (Boost.Any, not in /repo) *)
Definition any := option value.

(** Boost.Any, not in /repo *)
Definition any_empty (a : any) : bool := match a with None => true | Some _ => false end.

(** [any_cast<T>(&a)]: [None] is the null pointer.
    (used in detail/value_semantic.hpp 44, 142; Boost.Any, not in /repo) *)
Definition any_cast (t : vty) (a : any) : option value :=
  match a with
  | Some v => if vty_eqb (value_ty v) t then Some v else None
  | None => None
  end.

(** ** The interface [value_semantic] (value_semantic.hpp 21-71) *)

(** An observable effect of [notify]. (detail/value_semantic.hpp 45-50) *)
Inductive event :=
| EvStore (addr : nat) (v : value)     (* *m_store_to = value *)
| EvCall (f : nat) (v : value).        (* m_notifier(value) *)

(** Every implementation of the abstract class is such a record: user defined
    semantics are covered by quantifying over it.  [vs_parse] returns the new
    content of the [any] also when it throws. [vs_default] is [apply_default]
    ([None]: returned false); [vs_notify] returns the effects performed and the
    outcome. (value_semantic.hpp 26-72) *)
Record value_semantic := mk_sem {
  vs_name : str;
  vs_min : Z;
  vs_max : Z;
  vs_composing : bool;
  vs_required : bool;
  vs_parse : any -> list str -> bool -> any * outcome unit;
  vs_default : option any;
  vs_notify : any -> list event * outcome unit }.

(** ** Validators *)

(** value_semantic.cpp 205-212 *)
Definition check_first_occurrence (v : any) : outcome unit :=
  if any_empty v then Ok tt else Throw mk_multiple_occurrences.

(** detail/value_semantic.hpp 59-72 *)
Definition get_single_string (xs : list str) (allow_empty : bool) : outcome str :=
  match xs with
  | _ :: _ :: _ => Throw (mk_validation multiple_values_not_allowed)
  | [x] => Ok x
  | [] => if allow_empty then Ok [] else Throw (mk_validation at_least_one_value_required)
  end.

(** The pattern "either fail, leaving [v], or assign": the new any and the outcome.
    (the assignments to [v] in value_semantic.cpp 148-162, 188-193) *)
Definition assign_or (v : any) (r : outcome value) : any * outcome unit :=
  match r with
  | Ok x => (Some x, Ok tt)
  | Throw e => (v, Throw e)
  | Undef u => (v, Undef u)
  | NoFuel => (v, NoFuel)
  end.

(** value_semantic.cpp 154-162: recognising the spelled boolean. *)
Definition bool_of_string (s : str) : outcome value :=
  let* l := mapM tolower_char s in
  if is_empty l || str_eqb l $"on" || str_eqb l $"yes" || str_eqb l $"1" || str_eqb l $"true"
  then Ok (VBool true)
  else if str_eqb l $"off" || str_eqb l $"no" || str_eqb l $"0" || str_eqb l $"false"
  then Ok (VBool false)
  else Throw (mk_invalid_bool_value l).

(** value_semantic.cpp 148-163 [validate(any&, vector<string>, bool*, int)] *)
Definition validate_bool (v : any) (xs : list str) : any * outcome unit :=
  assign_or v
    (let* _ := check_first_occurrence v in
     let* s := get_single_string xs true in
     bool_of_string s).

(** value_semantic.cpp 187-192 [validate(any&, vector<string>, string*, int)] *)
Definition validate_string (v : any) (xs : list str) : any * outcome unit :=
  assign_or v
    (let* _ := check_first_occurrence v in
     let* s := get_single_string xs false in
     Ok (VString s)).

Section WithLexicalCast.

(** [lexical_cast<T>(s)] for the type number [n]: [None] is [bad_lexical_cast].
    It is an arbitrary function: Boost.LexicalCast is not in /repo. *)
Variable lexical_cast : nat -> str -> option Z.

(** detail/value_semantic.hpp 88-101: the generic validator *)
Definition validate_lex (n : nat) (v : any) (xs : list str) : any * outcome unit :=
  assign_or v
    (let* _ := check_first_occurrence v in
     let* s := get_single_string xs false in
     match lexical_cast n s with
     | Some z => Ok (VLex n z)
     | None => Throw (mk_invalid_option_value s)
     end).

(** detail/value_semantic.hpp 144-159: the loop over the tokens; [elem] is the
    call [validate(a, cv, (T* )0, 0)] on a fresh [any a] and the vector [cv]
    holding one token.  Returns the vector at the end or when the exception leaves.
    [any_cast<T>(a)] by value throws [bad_any_cast] on a type mismatch. *)
Fixpoint push_tokens (t : vty) (elem : list str -> any * outcome unit)
    (tv : list value) (xs : list str) : list value * outcome unit :=
  match xs with
  | [] => (tv, Ok tt)
  | x :: xs' =>
      match elem [x] with
      | (a, Ok _) =>
          match any_cast t a with
          | Some e => push_tokens t elem (tv ++ [e]) xs'
          | None => (tv, Throw (plain_exn bad_any_cast))
          end
      | (_, Throw e) => (tv, Throw e)
      | (_, Undef u) => (tv, Undef u)
      | (_, NoFuel) => (tv, NoFuel)
      end
  end.

(** detail/value_semantic.hpp 133-160: [validate] for [vector<T>] *)
Definition validate_vec (t : vty) (elem : list str -> any * outcome unit)
    (v : any) (xs : list str) : any * outcome unit :=
  let v1 := if any_empty v then Some (VVec t []) else v in
  match any_cast (TVec t) v1 with
  | Some (VVec _ vs) =>
      let (vs', r) := push_tokens t elem vs xs in (Some (VVec t vs'), r)
  | _ => (v1, Undef UB_assert)
  end.

(** detail/value_semantic.hpp 163-190: [validate] for [optional<T>] *)
Definition validate_opt (t : vty) (elem : list str -> any * outcome unit)
    (v : any) (xs : list str) : any * outcome unit :=
  assign_or v
    (let* _ := check_first_occurrence v in
     let* _ := get_single_string xs false in
     match elem xs with
     | (a, Ok _) =>
         match any_cast t a with
         | Some e => Ok (VOpt t (Some e))
         | None => Throw (plain_exn bad_any_cast)
         end
     | (_, Throw e) => Throw e
     | (_, Undef u) => Undef u
     | (_, NoFuel) => NoFuel
     end).

(** Overload resolution of [validate(value_store, tokens, (T* )0, 0)]. (detail/value_semantic.hpp 204) *)
Fixpoint validate (t : vty) (v : any) (xs : list str) : any * outcome unit :=
  match t with
  | TBool => validate_bool v xs
  | TString => validate_string v xs
  | TLex n => validate_lex n v xs
  | TVec t' => validate_vec t' (fun ys => validate t' None ys) v xs
  | TOpt t' => validate_opt t' (fun ys => validate t' None ys) v xs
  end.

(** ** [typed_value<T>] (value_semantic.hpp 180-374) *)

(** value_semantic.hpp 181-373: the members *)
Record typed_value := mk_typed {
  tv_type : vty;
  tv_store_to : option nat;                   (* address of the variable, if any *)
  tv_value_name : str;
  tv_default : option (value * str);          (* value and its text *)
  tv_implicit : option (value * str);
  tv_composing : bool;
  tv_multitoken : bool;
  tv_zero_tokens : bool;
  tv_required : bool;
  tv_notifier : option (nat * (value -> option exn)) }.
                                              (* identity, and what it throws *)

(** value_semantic.hpp 190-194: constructor *)
Definition value_of_type (t : vty) (store_to : option nat) : typed_value :=
  mk_typed t store_to [] None None false false false false None.

Definition is_some {A} (o : option A) : bool := match o with Some _ => true | None => false end.

(** value_semantic.hpp 306-313 *)
Definition tv_min_tokens (tv : typed_value) : Z :=
  if tv_zero_tokens tv || is_some (tv_implicit tv) then 0 else 1.

(** value_semantic.hpp 315-323 *)
Definition tv_max_tokens (tv : typed_value) : Z :=
  if tv_multitoken tv then UINT_MAX else if tv_zero_tokens tv then 0 else 1.

(** detail/value_semantic.hpp 192-205 [xparse] *)
Definition tv_xparse (tv : typed_value) (v : any) (xs : list str) : any * outcome unit :=
  match xs, tv_implicit tv with
  | [], Some (iv, _) => (Some iv, Ok tt)
  | _, _ => validate (tv_type tv) v xs
  end.

(** value_semantic.cpp 87, the global [arg]: its initial value; it is writable by
    users, see [typed_with] and [untyped_with]. *)
Definition arg : str := $"arg".

(** detail/value_semantic.hpp 22-38 [name], [arg] being the value of the global. *)
Definition tv_name_with (arg : str) (tv : typed_value) : str :=
  let var := if is_empty (tv_value_name tv) then arg else tv_value_name tv in
  let has o := match o with Some (_, t) => negb (is_empty (t : str)) | None => false end in
  let text o := match o with Some (_, t) => (t : str) | None => [] end in
  if has (tv_implicit tv) then
    $"[=" ++ var ++ $"(=" ++ text (tv_implicit tv) ++ $")]" ++
    (if has (tv_default tv) then $" (=" ++ text (tv_default tv) ++ $")" else [])
  else if has (tv_default tv) then var ++ $" (=" ++ text (tv_default tv) ++ $")"
  else var.

(** detail/value_semantic.hpp 22-38 [name], the global [arg] being untouched. *)
Definition tv_name (tv : typed_value) : str := tv_name_with arg tv.

(** detail/value_semantic.hpp 40-51 [notify]: [value] is a null pointer if the
    stored type is not [T]. *)
Definition tv_notify (tv : typed_value) (a : any) : list event * outcome unit :=
  let p := any_cast (tv_type tv) a in
  match tv_store_to tv, p with
  | Some _, None => ([], Undef UB_null)
  | st, _ =>
      let e1 := match st, p with Some addr, Some v => [EvStore addr v] | _, _ => [] end in
      match tv_notifier tv, p with
      | None, _ => (e1, Ok tt)
      | Some _, None => (e1, Undef UB_null)
      | Some (f, body), Some v =>
          (e1 ++ [EvCall f v],
           match body v with Some e => Throw e | None => Ok tt end)
      end
  end.

(** Conversion of UTF-8 input to the local encoding,
    [to_local_8_bit(from_utf8(s))] (value_semantic.cpp 47-50); locale dependent,
    hence an arbitrary function. *)
Variable utf8_to_local : str -> outcome str.

(** value_semantic.cpp 37-60 [value_semantic_codecvt_helper<char>::parse] *)
Definition codecvt_parse (xparse : any -> list str -> any * outcome unit)
    (v : any) (xs : list str) (utf8 : bool) : any * outcome unit :=
  if utf8 then
    match mapM utf8_to_local xs with
    | Ok ys => xparse v ys
    | Throw e => (v, Throw e)
    | Undef u => (v, Undef u)
    | NoFuel => (v, NoFuel)
    end
  else xparse v xs.

(** A [typed_value] seen through the interface. (value_semantic.hpp 302-355: the overrides) *)
Definition typed (tv : typed_value) : value_semantic :=
  mk_sem (tv_name tv) (tv_min_tokens tv) (tv_max_tokens tv) (tv_composing tv)
    (tv_required tv) (codecvt_parse (tv_xparse tv))
    (option_map (fun d => Some (fst d)) (tv_default tv))
    (tv_notify tv).

(** value_semantic.cpp 114-124 [untyped_value::xparse] *)
Definition untyped_xparse (v : any) (xs : list str) : any * outcome unit :=
  if negb (any_empty v) then (v, Throw mk_multiple_occurrences)
  else match xs with
       | _ :: _ :: _ => (v, Throw mk_multiple_values)
       | [x] => (Some (VString x), Ok tt)
       | [] => (Some (VString []), Ok tt)
       end.

(** [untyped_value] (value_semantic.hpp 124-157, value_semantic.cpp 89-124) *)
Definition untyped (zero_tokens : bool) : value_semantic :=
  let n := if zero_tokens then 0%Z else 1%Z in
  mk_sem arg n n false false (codecvt_parse untyped_xparse) None (fun _ => ([], Ok tt)).

(** The same value semantic, but for what [name()] returns. *)
Definition under_name (n : str) (s : value_semantic) : value_semantic :=
  mk_sem n (vs_min s) (vs_max s) (vs_composing s) (vs_required s) (vs_parse s) (vs_default s) (vs_notify s).

(** [typed_value] where the global [arg] has the given value
    (detail/value_semantic.hpp 26) *)
Definition typed_with (arg : str) (tv : typed_value) : value_semantic :=
  under_name (tv_name_with arg tv) (typed tv).

(** [untyped_value] where the global [arg] has the given value
    (value_semantic.cpp 89-93) *)
Definition untyped_with (arg : str) (zero_tokens : bool) : value_semantic :=
  under_name arg (untyped zero_tokens).

End WithLexicalCast.

(** value_semantic.cpp 132-140 [bool_switch(bool* v)]; the text of the default is
    [lexical_cast<string>(false)]. *)
Definition bool_switch (store_to : option nat) : typed_value :=
  mk_typed TBool store_to [] (Some (VBool false, $"0")) None false false true false None.
