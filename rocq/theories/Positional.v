(** [positional_options_description]: src/positional_options.cpp *)

From Coq Require Import List Ascii String NArith ZArith Bool.
From Verif Require Import Base Errors.
Import ListNotations.

Set Implicit Arguments.

(** positional_options.hpp: members *)
Record positional := mk_pos {
  pos_names : list str;       (* m_names *)
  pos_trailing : str }.       (* m_trailing *)

(** positional_options.cpp 19-20 *)
Definition positional_empty : positional := mk_pos [] [].

(** positional_options.cpp 22-33 [add].  [m_names.resize(size + max_count, name)]
    is computed in [size_t]: a negative count shrinks the vector, or, if larger in
    absolute value than the size, asks for an enormous vector and throws
    [std::length_error] (represented by [std_logic_error], its base class). *)
Definition positional_add (p : positional) (name : str) (max_count : Z) : outcome positional :=
  if Z.eqb max_count (-1) then
    if is_empty (pos_trailing p) then Ok (mk_pos (pos_names p) name) else Undef UB_assert
  else
    let n := (Z.of_nat (List.length (pos_names p)) + max_count)%Z in
    if Z.ltb n 0 then Throw (plain_exn (std_logic_error $"vector::_M_fill_insert"))
    else
      let n' := Z.to_nat n in
      Ok (mk_pos (firstn n' (pos_names p) ++
                  repeat name (n' - List.length (pos_names p))) (pos_trailing p)).

(** positional_options.cpp 35-40 [max_total_count]; vectors are shorter than 2^32. *)
Definition max_total_count (p : positional) : Z :=
  if is_empty (pos_trailing p) then Z.of_nat (List.length (pos_names p)) else UINT_MAX.

(** positional_options.cpp 42-51 [name_for_position] *)
Definition name_for_position (p : positional) (position : Z) : outcome str :=
  if Z.ltb position (max_total_count p) then
    match nth_error (pos_names p) (Z.to_nat position) with
    | Some n => Ok n
    | None => Ok (pos_trailing p)
    end
  else Undef UB_assert.
