(** Parsers for which [options] is never called, in programs built with NDEBUG: [m_desc] is a null pointer, and each lookup in it is
    undefined.  (With assertions such a program stops at cmdline.cpp 222, see [Build.parser_object_run].) *)

From Coq Require Import List Ascii String NArith ZArith Bool.
From Verif Require Import Base Errors Values OptDesc Positional Cmdline Parsers Build Release.
Import ListNotations.

(** cmdline.cpp 549-613 [parse_short_option]: the lookup at 571 comes first. *)
Definition null_short_option : style_parser := fun args =>
  let* tok := at_index args 0 in
  match tok with
  | c1 :: c2 :: _ =>
      if char_eqb c1 c_dash && negb (char_eqb c2 c_dash) then Undef UB_null else Ok ([], args)
  | _ => Ok ([], args)
  end.

(** cmdline.cpp 636-665 [parse_disguised_long_option], with the lookup at 646 *)
Definition null_disguised_long_option (c : cmdline) : style_parser := fun args =>
  let* tok := at_index args 0 in
  match tok with
  | c1 :: c2 :: _ =>
      if (char_eqb c1 c_dash && negb (char_eqb c2 c_dash))
         || (has (cl_style c) allow_slash_for_short && char_eqb c1 c_slash) then Undef UB_null
      else Ok ([], args)
  | _ => Ok ([], args)
  end.

(** cmdline.cpp 224-248: the list of style parsers *)
Definition null_style_parsers (c : cmdline) : list style_parser :=
  let s := cl_style c in
  match cl_style_parser c with Some p => [p] | None => [] end
  ++ match cl_additional c with Some p => [handle_additional_parser p] | None => [] end
  ++ (if has s allow_long then [parse_long_option c] else [])
  ++ (if has s allow_long_disguise then [null_disguised_long_option c] else [])
  ++ (if has s allow_short && has s allow_dash_for_short then [null_short_option] else [])
  ++ (if has s allow_short && has s allow_slash_for_short then [parse_dos_option c] else [])
  ++ [parse_terminator].

(** cmdline.cpp 400-510 [finish_option], with the lookup at 418 *)
Definition null_finish_option (opt : popt) (other_tokens : list str) : outcome (popt * list str) :=
  if is_empty (po_key opt) then Ok (opt, other_tokens) else Undef UB_null.

(** cmdline.cpp 262-276 *)
Fixpoint null_finish_all (next : list popt) (args : list str) : outcome (list popt * list str) :=
  match next with
  | [] => Ok ([], args)
  | [o] => let* r := null_finish_option o args in Ok ([fst r], snd r)
  | o :: next' =>
      let* r := null_finish_option o [] in
      let* rs := null_finish_all next' args in
      Ok (fst r :: fst rs, snd rs)
  end.

(** cmdline.cpp 253-282 *)
Fixpoint null_try_parsers (todo : list style_parser) (args : list str) : outcome (list popt * list str * bool) :=
  match todo with
  | [] => Ok ([], args, false)
  | p :: todo' =>
      let* r := p args in
      let (next, args1) := (r : list popt * list str) in
      let* f := null_finish_all next args1 in
      let (finished, args2) := (f : list popt * list str) in
      if Nat.eqb (List.length args2) (List.length args) then
        let* r2 := null_try_parsers todo' args2 in
        let '(finished2, args3, ok) := (r2 : list popt * list str * bool) in
        Ok (finished ++ finished2, args3, ok)
      else Ok (finished, args2, true)
  end.

(** cmdline.cpp 252-289: one round of the main loop *)
Definition null_main_step (c : cmdline) (args : list str) : outcome (list popt * list str) :=
  let* r := null_try_parsers (null_style_parsers c) args in
  let '(opts, args1, ok) := (r : list popt * list str * bool) in
  if ok then Ok (opts, args1)
  else
    let* tok := at_index args1 0 in
    let* rest := erase_front args1 in
    Ok (opts ++ [mk_popt [] (-1) [tok] [tok] false false], rest).

(** cmdline.cpp 250-289: the main loop *)
Fixpoint null_main_loop (fuel : nat) (c : cmdline) (args : list str) : outcome (list popt) :=
  match args with
  | [] => Ok []
  | _ =>
      match fuel with
      | O => NoFuel
      | S fuel' =>
          let* r := null_main_step c args in
          let* rest := null_main_loop fuel' c (snd r) in
          Ok (fst r ++ rest)
      end
  end.

(** cmdline.cpp 295-354: the second pass, with the lookup at 306 *)
Fixpoint null_merge_pass (result : list popt) : outcome (list popt) :=
  match result with
  | [] => Ok []
  | opt :: rest =>
      if is_empty (po_key opt) then let* r := null_merge_pass rest in Ok (opt :: r) else Undef UB_null
  end.

(** cmdline.cpp 207-398 [run]; [cl_desc c] is not used. *)
Definition null_run (fuel : nat) (c : cmdline) (args : list str) : outcome (list popt) :=
  let* r1 := null_main_loop fuel c args in
  let* r2 := null_merge_pass r1 in
  let r3 := number_positionals 0 r2 in
  let* r4 := match cl_positional c with
             | Some p => name_positionals p 0 r3
             | None => Ok r3
             end in
  Ok (map (set_case_flag c) r4).

(** The command line parser of a parser object, with these descriptions. (detail/cmdline.hpp 138-147) *)
Definition cmdline_of (p : parser) (ds : list option_description) : cmdline :=
  mk_cl (ps_style p) (ps_allow_unregistered p) ds (ps_positional p) (ps_additional p) (ps_style_parser p).

(** detail/parsers.hpp 84-98 [run] in a program built with NDEBUG.  If the parser was constructed from a vector (detail/parsers.hpp
    15-20, [from_vector]) and [options] was not called, line 91 reads a pointer that was never set. *)
Definition rel_object_run (from_vector : bool) (fuel : nat) (p : parser) : outcome parsed_options :=
  match ps_desc p with
  | Some ds => let* opts := rel_run fuel (cmdline_of p ds) (ps_args p) in Ok (mk_parsed opts (Some ds) (cl_prefix (cmdline_of p ds)))
  | None => if from_vector then Undef UB_dangling
            else let* opts := null_run fuel (cmdline_of p []) (ps_args p) in
                 Ok (mk_parsed opts None (cl_prefix (cmdline_of p [])))
  end.
