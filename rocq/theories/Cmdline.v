(** The command line parser: src/cmdline.cpp. *)

From Coq Require Import List Ascii String NArith ZArith Bool.
From Verif Require Import Base Errors Values OptDesc Positional.
Import ListNotations.

Set Implicit Arguments.

(** ** Options (option.hpp 23-63) *)
Record popt := mk_popt {
  po_key : str;              (* string_key *)
  po_pos : Z;                (* position_key *)
  po_value : list str;       (* value *)
  po_orig : list str;        (* original_tokens *)
  po_unreg : bool;           (* unregistered *)
  po_ci : bool }.            (* case_insensitive *)

(** A style parser takes the unparsed tokens and returns the options together
    with the tokens left (detail/cmdline.hpp 67-69, [style_parser]). *)
Definition style_parser := list str -> outcome (list popt * list str).

(** ** Configuration of a parser (detail/cmdline.hpp, members of [cmdline]) *)
Record cmdline := mk_cl {
  cl_style : Z;                                     (* m_style *)
  cl_allow_unregistered : bool;                     (* m_allow_unregistered *)
  cl_desc : list option_description;                (* m_desc->options() *)
  cl_positional : option positional;                (* m_positional *)
  cl_additional : option (str -> str * str);        (* m_additional_parser *)
  cl_style_parser : option style_parser }.          (* m_style_parser *)

(** [style & flag] as a truth value. (cmdline.cpp 171-174 [is_style_active], 229-246) *)
Definition has (style flag : Z) : bool := negb (Z.eqb (Z.land style flag) 0).

(** cmdline.cpp 132-168 [check_style] *)
Definition check_style (style : Z) : outcome unit :=
  let allow_some_long := has style allow_long || has style allow_long_disguise in
  if allow_some_long && negb (has style long_allow_adjacent) && negb (has style long_allow_next)
  then Throw (plain_exn (invalid_command_line_style
    $"boost::program_options misconfiguration: choose one or other of 'command_line_style::long_allow_next' (whitespace separated arguments) or 'command_line_style::long_allow_adjacent' ('=' separated arguments) for long options."))
  else if has style allow_short && negb (has style short_allow_adjacent)
          && negb (has style short_allow_next)
  then Throw (plain_exn (invalid_command_line_style
    $"boost::program_options misconfiguration: choose one or other of 'command_line_style::short_allow_next' (whitespace separated arguments) or 'command_line_style::short_allow_adjacent' ('=' separated arguments) for short options."))
  else if has style allow_short && negb (has style allow_dash_for_short)
          && negb (has style allow_slash_for_short)
  then Throw (plain_exn (invalid_command_line_style
    $"boost::program_options misconfiguration: choose one or other of 'command_line_style::allow_slash_for_short' (slashes) or 'command_line_style::allow_dash_for_short' (dashes) for short options."))
  else Ok tt.

(** cmdline.cpp 117-125 [style] *)
Definition set_style (style : Z) : outcome Z :=
  let s := if Z.eqb style 0 then default_style else style in
  let* _ := check_style s in Ok s.

(** cmdline.cpp 188-205 [get_canonical_option_prefix] *)
Definition cl_prefix (c : cmdline) : Z :=
  let s := cl_style c in
  if has s allow_long then allow_long
  else if has s allow_long_disguise then allow_long_disguise
  else if has s allow_short && has s allow_dash_for_short then allow_dash_for_short
  else if has s allow_short && has s allow_slash_for_short then allow_slash_for_short
  else 0.

(** [m_desc->find_nothrow(name, is_style_active(allow_guessing),
    is_style_active(long_case_insensitive), is_style_active(short_case_insensitive))]
    (cmdline.cpp 306-309, 418-421, 481-484, 646-649) *)
Definition lookup (c : cmdline) (name : str) : outcome (option option_description) :=
  find_nothrow (cl_desc c) name (has (cl_style c) allow_guessing)
    (has (cl_style c) long_case_insensitive) (has (cl_style c) short_case_insensitive).

(** [args.erase(args.begin())] (cmdline.cpp 287, 543, 631, 698) *)
Definition erase_front (args : list str) : outcome (list str) :=
  match args with _ :: t => Ok t | [] => Undef UB_index end.

(** cmdline.cpp 512-546 [parse_long_option] *)
Definition parse_long_option (c : cmdline) : style_parser := fun args =>
  let* tok := at_index args 0 in
  match tok with
  | c1 :: c2 :: (_ :: _) =>
      if char_eqb c1 c_dash && char_eqb c2 c_dash then
        let* p :=
          match find_char c_eq tok with
          | Some p =>
              let name := substr_n tok 2 (p - 2) in
              let adjacent := substr tok (p + 1) in
              if is_empty adjacent then
                Throw (mk_cmdline_syntax empty_adjacent_parameter name name (cl_prefix c))
              else Ok (name, adjacent)
          | None => Ok (substr tok 2, [])
          end in
        let (name, adjacent) := p in
        let opt := mk_popt name (-1) (if is_empty adjacent then [] else [adjacent])
                     [tok] false false in
        let* rest := erase_front args in
        Ok ([opt], rest)
      else Ok ([], args)
  | _ => Ok ([], args)
  end.

(** cmdline.cpp 567-609: the loop of [parse_short_option].  It either ends or
    moves one character from [adjacent] to [name], hence structural recursion over
    [adjacent].  (Lines 591-595 are unreachable: [adjacent] is not empty there.) *)
Fixpoint short_loop (c : cmdline) (tok : str) (name adjacent : str) (result : list popt)
    : outcome (list popt) :=
  let* d := with_context name name (cl_prefix c)
              (find_nothrow (cl_desc c) name false false
                 (has (cl_style c) short_case_insensitive)) in
  let last := mk_popt name (-1) (if is_empty adjacent then [] else [adjacent])
                [tok] false false in
  match d, adjacent with
  | Some d, a :: adjacent' =>
      if has (cl_style c) allow_sticky && Z.eqb (vs_max (od_sem d)) 0 then
        short_loop c tok [c_dash; a] adjacent'
          (result ++ [mk_popt name (-1) [] [] false false])
      else Ok (result ++ [last])
  | _, _ => Ok (result ++ [last])
  end.

(** cmdline.cpp 549-613 [parse_short_option] *)
Definition parse_short_option (c : cmdline) : style_parser := fun args =>
  let* tok := at_index args 0 in
  match tok with
  | c1 :: c2 :: adjacent =>
      if char_eqb c1 c_dash && negb (char_eqb c2 c_dash) then
        let* result := short_loop c tok [c1; c2] adjacent [] in
        let* rest := erase_front args in
        Ok (result, rest)
      else Ok ([], args)
  | _ => Ok ([], args)
  end.

(** cmdline.cpp 615-634 [parse_dos_option] *)
Definition parse_dos_option (c : cmdline) : style_parser := fun args =>
  let* tok := at_index args 0 in
  match tok with
  | c1 :: c2 :: adjacent =>
      if char_eqb c1 c_slash then
        let opt := mk_popt [c_dash; c2] (-1) (if is_empty adjacent then [] else [adjacent])
                     [tok] false false in
        let* rest := erase_front args in
        Ok ([opt], rest)
      else Ok ([], args)
  | _ => Ok ([], args)
  end.

(** cmdline.cpp 636-665 [parse_disguised_long_option].  [tok] is a reference to
    [args[0]]: when [parse_long_option] throws, the context added is the rewritten
    token. *)
Definition parse_disguised_long_option (c : cmdline) : style_parser := fun args =>
  let* tok := at_index args 0 in
  match tok with
  | c1 :: c2 :: _ =>
      if (char_eqb c1 c_dash && negb (char_eqb c2 c_dash))
         || (has (cl_style c) allow_slash_for_short && char_eqb c1 c_slash) then
        let name := match find_char c_eq tok with
                    | Some p => substr_n tok 1 (p - 1)
                    | None => substr tok 1
                    end in
        let* d := with_context tok tok (cl_prefix c) (lookup c name) in
        match d with
        | Some _ =>
            let tok' := c_dash :: (if char_eqb c1 c_slash then c_dash else c1) :: tl tok in
            let* rest := erase_front args in
            with_context tok' tok' (cl_prefix c) (parse_long_option c (tok' :: rest))
        | None => Ok ([], args)
        end
      else Ok ([], args)
  | _ => Ok ([], args)
  end.

(** cmdline.cpp 667-685 [parse_terminator] *)
Definition parse_terminator : style_parser := fun args =>
  let* tok := at_index args 0 in
  if str_eqb tok $"--" then
    Ok (map (fun a => mk_popt [] INT_MAX [a] [a] false false) (tl args), [])
  else Ok ([], args).

(** cmdline.cpp 687-701 [handle_additional_parser] *)
Definition handle_additional_parser (p : str -> str * str) : style_parser := fun args =>
  let* tok := at_index args 0 in
  let (first, second) := p tok in
  if is_empty first then Ok ([], args)
  else
    let* rest := erase_front args in
    Ok ([mk_popt first (-1) (if is_empty second then [] else [second]) [] false false], rest).

(** cmdline.cpp 224-248: the list of style parsers *)
Definition style_parsers (c : cmdline) : list style_parser :=
  let s := cl_style c in
  match cl_style_parser c with Some p => [p] | None => [] end
  ++ match cl_additional c with Some p => [handle_additional_parser p] | None => [] end
  ++ (if has s allow_long then [parse_long_option c] else [])
  ++ (if has s allow_long_disguise then [parse_disguised_long_option c] else [])
  ++ (if has s allow_short && has s allow_dash_for_short then [parse_short_option c] else [])
  ++ (if has s allow_short && has s allow_slash_for_short then [parse_dos_option c] else [])
  ++ [parse_terminator].

(** ** [finish_option] (cmdline.cpp 400-510) *)

(** cmdline.cpp 468-471: try the style parsers until one returns an option;
    [next_token] is passed by reference.  Returns whether [followed_option] is
    non-empty. *)
Fixpoint looks_like_option (ps : list style_parser) (next_token : list str) : outcome bool :=
  match ps with
  | [] => Ok false
  | p :: ps' =>
      let* r := p next_token in
      let (followed, next_token') := (r : list popt * list str) in
      if is_empty followed then looks_like_option ps' next_token' else Ok true
  end.

(** cmdline.cpp 460-486: grab [min_tokens] values.  [key] is the canonized name
    and [tok_exc] the variable [original_token_for_exceptions]; exceptions get the
    context of the [catch] block (504-508). *)
Fixpoint grab_tokens (c : cmdline) (ps : list style_parser) (key tok_exc : str)
    (min_tokens : Z) (opt : popt) (other_tokens : list str)
    : outcome (popt * list str) :=
  match other_tokens with
  | [] => Ok (opt, [])
  | tok :: rest =>
      if Z.eqb min_tokens 0 then Ok (opt, other_tokens)
      else
        let* followed := with_context key tok_exc (cl_prefix c) (looks_like_option ps [tok]) in
        let* tok_exc' :=
          if (followed : bool) then
            let* od := with_context key tok (cl_prefix c) (lookup c tok) in
            match od with
            | Some _ => with_context key tok (cl_prefix c)
                          (Throw (mk_cmdline_syntax missing_parameter [] [] 0))
            | None => Ok tok
            end
          else Ok tok_exc in
        grab_tokens c ps key tok_exc' (min_tokens - 1)
          (mk_popt (po_key opt) (po_pos opt) (po_value opt ++ [tok]) (po_orig opt ++ [tok])
             (po_unreg opt) (po_ci opt)) rest
  end.

(** cmdline.cpp 400-510 [finish_option]; returns the finished option and the
    tokens left. *)
Definition finish_option (c : cmdline) (ps : list style_parser) (opt : popt)
    (other_tokens : list str) : outcome (popt * list str) :=
  if is_empty (po_key opt) then Ok (opt, other_tokens)
  else
    let tok_exc := match po_orig opt with t :: _ => t | [] => po_key opt end in
    let ctx {A} (key : str) (x : outcome A) := with_context key tok_exc (cl_prefix c) x in
    let* xd := ctx (po_key opt) (lookup c (po_key opt)) in
    match xd with
    | None =>
        if cl_allow_unregistered c then
          Ok (mk_popt (po_key opt) (po_pos opt) (po_value opt) (po_orig opt) true (po_ci opt),
              other_tokens)
        else ctx (po_key opt) (Throw (mk_unknown_option []))
    | Some d =>
        let key := od_key d (po_key opt) in
        let opt1 := mk_popt key (po_pos opt) (po_value opt) (po_orig opt)
                      (po_unreg opt) (po_ci opt) in
        let min_tokens := vs_min (od_sem d) in
        let max_tokens := vs_max (od_sem d) in
        let nvalues := Z.of_nat (List.length (po_value opt)) in
        let present := (nvalues + Z.of_nat (List.length other_tokens))%Z in
        if Z.leb min_tokens present then
          if negb (is_empty (po_value opt)) && Z.eqb max_tokens 0 then
            ctx key (Throw (mk_cmdline_syntax extra_parameter [] [] 0))
          else
            let need := if Z.leb nvalues min_tokens then (min_tokens - nvalues)%Z else 0%Z in
            grab_tokens c ps key tok_exc need opt1 other_tokens
        else ctx key (Throw (mk_cmdline_syntax missing_parameter [] [] 0))
    end.

(** ** [run] (cmdline.cpp 207-398) *)

(** cmdline.cpp 262-276: finish the options returned by a style parser; all but
    the last get the empty vector [e] of other tokens, which [finish_option] cannot
    extend. Returns the finished options and the tokens left. *)
Fixpoint finish_all (c : cmdline) (ps : list style_parser) (next : list popt)
    (args : list str) : outcome (list popt * list str) :=
  match next with
  | [] => Ok ([], args)
  | [o] => let* r := finish_option c ps o args in Ok ([fst r], snd r)
  | o :: next' =>
      let* r := finish_option c ps o [] in
      let* rs := finish_all c ps next' args in
      Ok (fst r :: fst rs, snd rs)
  end.

(** cmdline.cpp 253-282: the [for] loop over the style parsers.  [todo] is the
    part not tried yet.  Returns the options to append, the tokens left and [ok]. *)
Fixpoint try_parsers (c : cmdline) (ps todo : list style_parser) (args : list str)
    : outcome (list popt * list str * bool) :=
  match todo with
  | [] => Ok ([], args, false)
  | p :: todo' =>
      let* r := p args in
      let (next, args1) := (r : list popt * list str) in
      let* f := finish_all c ps next args1 in
      let (finished, args2) := (f : list popt * list str) in
      if Nat.eqb (List.length args2) (List.length args) then
        let* r2 := try_parsers c ps todo' args2 in
        let '(finished2, args3, ok) := (r2 : list popt * list str * bool) in
        Ok (finished ++ finished2, args3, ok)
      else Ok (finished, args2, true)
  end.

(** cmdline.cpp 252-289: one iteration of the main loop (only run with non-empty
    [args]). *)
Definition main_step (c : cmdline) (args : list str) : outcome (list popt * list str) :=
  let ps := style_parsers c in
  let* r := try_parsers c ps ps args in
  let '(opts, args1, ok) := (r : list popt * list str * bool) in
  if ok then Ok (opts, args1)
  else
    let* tok := at_index args1 0 in
    let* rest := erase_front args1 in
    Ok (opts ++ [mk_popt [] (-1) [tok] [tok] false false], rest).

(** cmdline.cpp 250-289: the main loop; one unit of fuel per iteration. *)
Fixpoint main_loop (fuel : nat) (c : cmdline) (args : list str) : outcome (list popt) :=
  match args with
  | [] => Ok []
  | _ =>
      match fuel with
      | O => NoFuel
      | S fuel' =>
          let* r := main_step c args in
          let* rest := main_loop fuel' c (snd r) in
          Ok (fst r ++ rest)
      end
  end.

(** cmdline.cpp 327-351: the inner loop: [can_take_more] is an [int].  Returns the
    option and the options not grabbed. *)
Fixpoint grab_positional (can_take_more : Z) (opt : popt) (following : list popt)
    : outcome (popt * list popt) :=
  match following with
  | [] => Ok (opt, [])
  | opt2 :: following' =>
      if Z.eqb can_take_more 0 then Ok (opt, following)
      else if negb (is_empty (po_key opt2)) then Ok (opt, following)
      else if Z.eqb (po_pos opt2) INT_MAX then Ok (opt, following)
      else
        match po_value opt2, po_orig opt2 with
        | [v], [t] =>
            if Z.eqb can_take_more INT_MIN then Undef UB_overflow
            else
              grab_positional (can_take_more - 1)
                (mk_popt (po_key opt) (po_pos opt) (po_value opt ++ [v]) (po_orig opt ++ [t])
                   (po_unreg opt) (po_ci opt)) following'
        | _, _ => Undef UB_assert
        end
  end.

(** cmdline.cpp 295-354: the second pass.  [fuel] bounds the iterations of the
    outer loop; [length result] always suffices (theorem [merge_fuel_enough]). *)
Fixpoint merge_pass (fuel : nat) (c : cmdline) (result : list popt) : outcome (list popt) :=
  match result with
  | [] => Ok []
  | opt :: rest =>
      match fuel with
      | O => NoFuel
      | S fuel' =>
          if is_empty (po_key opt) then
            let* r := merge_pass fuel' c rest in Ok (opt :: r)
          else
            let* xd :=
              match lookup c (po_key opt) with
              | Throw e =>
                  if has_option_name (ex_class e) then
                    let* tok := at_index (po_orig opt) 0 in
                    Throw (add_context (po_key opt) tok (cl_prefix c) e)
                  else Throw e
              | x => x
              end in
            match xd with
            | None => let* r := merge_pass fuel' c rest in Ok (opt :: r)
            | Some d =>
                let min_tokens := vs_min (od_sem d) in
                let max_tokens := vs_max (od_sem d) in
                let nvalues := Z.of_nat (List.length (po_value opt)) in
                if Z.ltb min_tokens max_tokens && Z.ltb nvalues max_tokens then
                  let* g := grab_positional (to_int (max_tokens - nvalues)) opt rest in
                  let* r := merge_pass fuel' c (snd g) in Ok (fst g :: r)
                else
                  let* r := merge_pass fuel' c rest in Ok (opt :: r)
            end
      end
  end.

(** cmdline.cpp 358-363: number the positional options.  More than 2^31 of them
    would overflow [position_key]; not represented. *)
Fixpoint number_positionals (position_key : Z) (result : list popt) : list popt :=
  match result with
  | [] => []
  | o :: rest =>
      if is_empty (po_key o) then
        mk_popt (po_key o) position_key (po_value o) (po_orig o) (po_unreg o) (po_ci o)
        :: number_positionals (position_key + 1) rest
      else o :: number_positionals position_key rest
  end.

(** cmdline.cpp 365-379: name the positional options *)
Fixpoint name_positionals (p : positional) (position : Z) (result : list popt)
    : outcome (list popt) :=
  match result with
  | [] => Ok []
  | o :: rest =>
      if Z.eqb (po_pos o) (-1) then
        let* r := name_positionals p position rest in Ok (o :: r)
      else if Z.leb (max_total_count p) position then
        Throw (plain_exn too_many_positional_options_error)
      else
        let* n := name_for_position p position in
        let* r := name_positionals p (position + 1) rest in
        Ok (mk_popt n (po_pos o) (po_value o) (po_orig o) (po_unreg o) (po_ci o) :: r)
  end.

(** cmdline.cpp 382-395: the case flag of one option *)
Definition set_case_flag (c : cmdline) (o : popt) : popt :=
  let is_long := match po_key o with
                 | _ :: _ :: _ :: _ => true
                 | [c1; _] => negb (char_eqb c1 c_dash)
                 | _ => false
                 end in
  mk_popt (po_key o) (po_pos o) (po_value o) (po_orig o) (po_unreg o)
    (has (cl_style c) (if is_long then long_case_insensitive else short_case_insensitive)).

(** cmdline.cpp 207-398 [run] *)
Definition run (fuel : nat) (c : cmdline) (args : list str) : outcome (list popt) :=
  let* r1 := main_loop fuel c args in
  let* r2 := merge_pass (List.length r1) c r1 in
  let r3 := number_positionals 0 r2 in
  let* r4 := match cl_positional c with
             | Some p => name_positionals p 0 r3
             | None => Ok r3
             end in
  Ok (map (set_case_flag c) r4).
