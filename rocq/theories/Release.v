(** Programs built with the macro NDEBUG, where [assert] does nothing: the functions of the library that do something
    sensible, or seem to, although their assertion would fail.  The other assertions are followed by undefined behaviour anyway:
    a null pointer is used (cmdline.cpp 222 as soon as a name is looked up, variables_map.cpp 30, detail/value_semantic.hpp 143) or
    the last character of an empty string (config_file.cpp 42).  The assertion of [name_for_position] cannot fail in the parser
    (cmdline.cpp 371), and those about the widths of the help are modelled in [Format]. *)

From Coq Require Import List Ascii String NArith ZArith Bool.
From Verif Require Import Base Errors Values OptDesc Positional Cmdline Parsers Streams.
Import ListNotations.

Set Implicit Arguments.

(** environment_iterator.hpp 38-42, without the assertion: [n] is [npos] if there is no '=', and then [n+1] is 0. *)
Definition rel_env_split (s : str) : str * str :=
  match find_char c_eq s with
  | Some n => (substr_n s 0 n, substr s (n + 1))
  | None => (s, substr s 0)
  end.

(** environment_iterator.hpp 33-46 [get] *)
Definition rel_env_get (env : environment) (i : nat) : outcome (option (str * str)) :=
  match env with
  | None => Undef UB_null
  | Some a => match nth_error a i with
              | None => Undef UB_index
              | Some None => Ok None
              | Some (Some s) => Ok (Some (rel_env_split s))
              end
  end.

(** parsers.cpp 206-216: the loop over the iterator *)
Fixpoint rel_env_loop (fuel : nat) (env : environment) (i : nat) (mapper : str -> outcome str) : outcome (list popt) :=
  match fuel with
  | O => NoFuel
  | S fuel' =>
      let* v := rel_env_get env i in
      match v with
      | None => Ok []
      | Some p =>
          let* name := mapper (fst p) in
          let* rest := rel_env_loop fuel' env (S i) mapper in
          Ok ((if is_empty name then [] else [mk_popt name (-1) [snd p] [] false false]) ++ rest)
      end
  end.

(** parsers.cpp 200-219 [parse_environment(desc, name_mapper)] *)
Definition rel_parse_environ (env : environment) (ds : list option_description) (mapper : str -> outcome str)
    : outcome parsed_options :=
  let* opts := rel_env_loop (S (List.length (match env with Some a => a | None => [] end))) env 0 mapper in
  Ok (mk_parsed opts (Some ds) 0).

(** positional_options.cpp 22-33 [add] *)
Definition rel_positional_add (p : positional) (name : str) (max_count : Z) : outcome positional :=
  if Z.eqb max_count (-1) then Ok (mk_pos (pos_names p) name)
  else
    let n := (Z.of_nat (List.length (pos_names p)) + max_count)%Z in
    if Z.ltb n 0 then Throw (plain_exn (std_logic_error $"vector::_M_fill_insert"))
    else
      let n' := Z.to_nat n in
      Ok (mk_pos (firstn n' (pos_names p) ++ repeat name (n' - List.length (pos_names p))) (pos_trailing p)).

(** positional_options.cpp 22-33: several calls of [add] *)
Fixpoint rel_add_all (p : positional) (calls : list (str * Z)) : outcome positional :=
  match calls with
  | [] => Ok p
  | (n, k) :: calls' => let* p' := rel_positional_add p n k in rel_add_all p' calls'
  end.

(** positional_options.cpp 42-51 [name_for_position] *)
Definition rel_name_for_position (p : positional) (position : Z) : str :=
  match nth_error (pos_names p) (Z.to_nat position) with
  | Some n => n
  | None => pos_trailing p
  end.

(** options_description.cpp 191-220 [set_names] *)
Definition rel_set_names (names : str) : str * list str :=
  let pieces := getline_all c_comma names in
  if (1 <? List.length pieces)%nat then
    match rev pieces with
    | [c] :: rest_rev =>
        let longs := rev rest_rev in
        let longs' := match longs with [[]] => [] | _ => longs end in
        ([c_dash; c], longs')
    | _ => ([], pieces)
    end
  else ([], pieces).

(** options_description.cpp 52-68: constructors *)
Definition rel_new_option (names : str) (s : value_semantic) (text : str) : option_description :=
  mk_od (fst (rel_set_names names)) (snd (rel_set_names names)) text s.

(** options_description.cpp 300-318: constructors *)
Definition rel_new_options (caption : str) (line_length min_desc : Z) : options_description :=
  mk_ods caption line_length min_desc [] [].

(** cmdline.cpp 327-351: the inner loop; only the first value and the first token are taken. *)
Fixpoint rel_grab_positional (can_take_more : Z) (opt : popt) (following : list popt) : outcome (popt * list popt) :=
  match following with
  | [] => Ok (opt, [])
  | opt2 :: following' =>
      if Z.eqb can_take_more 0 then Ok (opt, following)
      else if negb (is_empty (po_key opt2)) then Ok (opt, following)
      else if Z.eqb (po_pos opt2) INT_MAX then Ok (opt, following)
      else
        let* v := at_index (po_value opt2) 0 in
        let* t := at_index (po_orig opt2) 0 in
        if Z.eqb can_take_more INT_MIN then Undef UB_overflow
        else
          rel_grab_positional (can_take_more - 1)
            (mk_popt (po_key opt) (po_pos opt) (po_value opt ++ [v]) (po_orig opt ++ [t]) (po_unreg opt) (po_ci opt)) following'
  end.

(** cmdline.cpp 295-354: the second pass *)
Fixpoint rel_merge_pass (fuel : nat) (c : cmdline) (result : list popt) : outcome (list popt) :=
  match result with
  | [] => Ok []
  | opt :: rest =>
      match fuel with
      | O => NoFuel
      | S fuel' =>
          if is_empty (po_key opt) then
            let* r := rel_merge_pass fuel' c rest in Ok (opt :: r)
          else
            let* xd :=
              match lookup c (po_key opt) with
              | Throw e =>
                  if has_option_name (ex_class e) then
                    let* tok := at_index (po_orig opt) 0 in
                    Throw (add_context (po_key opt) tok (cl_prefix c) e)
                  else Throw e
              | x => x
              end in
            match xd with
            | None => let* r := rel_merge_pass fuel' c rest in Ok (opt :: r)
            | Some d =>
                let min_tokens := vs_min (od_sem d) in
                let max_tokens := vs_max (od_sem d) in
                let nvalues := Z.of_nat (List.length (po_value opt)) in
                if Z.ltb min_tokens max_tokens && Z.ltb nvalues max_tokens then
                  let* g := rel_grab_positional (to_int (max_tokens - nvalues)) opt rest in
                  let* r := rel_merge_pass fuel' c (snd g) in Ok (fst g :: r)
                else
                  let* r := rel_merge_pass fuel' c rest in Ok (opt :: r)
            end
      end
  end.

(** cmdline.cpp 207-398 [run] *)
Definition rel_run (fuel : nat) (c : cmdline) (args : list str) : outcome (list popt) :=
  let* r1 := main_loop fuel c args in
  let* r2 := rel_merge_pass (List.length r1) c r1 in
  let r3 := number_positionals 0 r2 in
  let* r4 := match cl_positional c with
             | Some p => name_positionals p 0 r3
             | None => Ok r3
             end in
  Ok (map (set_case_flag c) r4).
