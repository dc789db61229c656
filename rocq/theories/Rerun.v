(** A [basic_command_line_parser] whose [run] has thrown and that is used again: src/cmdline.cpp.  [run] works on the member
    [m_args] (251).  The functions of [Cmdline] return what is left of the arguments only if they succeed; here every function
    takes and leaves the vector it works on, as in the source, whatever the outcome.  C113_same says that the outcome is that
    of [Cmdline].  No other member changes. *)

From Coq Require Import List Ascii String NArith ZArith Bool.
From Verif Require Import Base Errors Values OptDesc Positional Cmdline Parsers Build.
Import ListNotations.

(** The vector of arguments and the outcome of some code. *)
Definition on_args (A : Type) : Type := list str * outcome A.

(** Code that throws or goes on, with the vector as it is *)
Definition keep {A B} (args : list str) (x : outcome A) (go_on : A -> on_args B) : on_args B :=
  match x with
  | Ok a => go_on a
  | Throw e => (args, Throw e)
  | Undef u => (args, Undef u)
  | NoFuel => (args, NoFuel)
  end.

(** One piece of code after another *)
Definition and_then {A B} (x : on_args A) (go_on : A -> list str -> on_args B) : on_args B :=
  let (args, r) := x in keep args r (fun a => go_on a args).

(** cmdline.cpp 460-486 (the loop in [finish_option]): each token is erased once it has been moved to the option. *)
Fixpoint grab_here (c : cmdline) (ps : list style_parser) (key tok_exc : str) (min_tokens : Z) (opt : popt)
    (other_tokens : list str) : on_args popt :=
  match other_tokens with
  | [] => ([], Ok opt)
  | tok :: rest =>
      if Z.eqb min_tokens 0 then (other_tokens, Ok opt)
      else
        keep other_tokens (with_context key tok_exc (cl_prefix c) (looks_like_option ps [tok])) (fun followed : bool =>
        keep other_tokens
          (if followed then
             let* od := with_context key tok (cl_prefix c) (lookup c tok) in
             match od with
             | Some _ => with_context key tok (cl_prefix c) (Throw (mk_cmdline_syntax missing_parameter [] [] 0))
             | None => Ok tok
             end
           else Ok tok_exc) (fun tok_exc' =>
        grab_here c ps key tok_exc' (min_tokens - 1)
          (mk_popt (po_key opt) (po_pos opt) (po_value opt ++ [tok]) (po_orig opt ++ [tok]) (po_unreg opt) (po_ci opt)) rest))
  end.

(** cmdline.cpp 400-510 [finish_option] *)
Definition finish_here (c : cmdline) (ps : list style_parser) (opt : popt) (other_tokens : list str) : on_args popt :=
  if is_empty (po_key opt) then (other_tokens, Ok opt)
  else
    let tok_exc := match po_orig opt with t :: _ => t | [] => po_key opt end in
    keep other_tokens (with_context (po_key opt) tok_exc (cl_prefix c) (lookup c (po_key opt))) (fun xd =>
    match xd with
    | None =>
        if cl_allow_unregistered c
        then (other_tokens, Ok (mk_popt (po_key opt) (po_pos opt) (po_value opt) (po_orig opt) true (po_ci opt)))
        else (other_tokens, with_context (po_key opt) tok_exc (cl_prefix c) (Throw (mk_unknown_option [])))
    | Some d =>
        let key := od_key d (po_key opt) in
        let opt1 := mk_popt key (po_pos opt) (po_value opt) (po_orig opt) (po_unreg opt) (po_ci opt) in
        let min_tokens := vs_min (od_sem d) in
        let nvalues := Z.of_nat (List.length (po_value opt)) in
        if Z.leb min_tokens (nvalues + Z.of_nat (List.length other_tokens)) then
          if negb (is_empty (po_value opt)) && Z.eqb (vs_max (od_sem d)) 0
          then (other_tokens, with_context key tok_exc (cl_prefix c) (Throw (mk_cmdline_syntax extra_parameter [] [] 0)))
          else grab_here c ps key tok_exc (if Z.leb nvalues min_tokens then (min_tokens - nvalues)%Z else 0%Z) opt1 other_tokens
        else (other_tokens, with_context key tok_exc (cl_prefix c) (Throw (mk_cmdline_syntax missing_parameter [] [] 0)))
    end).

(** cmdline.cpp 262-276: all options but the last work on the empty vector [e], the last on [args]. *)
Fixpoint finish_all_here (c : cmdline) (ps : list style_parser) (next : list popt) (args : list str) : on_args (list popt) :=
  match next with
  | [] => (args, Ok [])
  | [o] => and_then (finish_here c ps o args) (fun o' args' => (args', Ok [o']))
  | o :: next' =>
      keep args (snd (finish_here c ps o [])) (fun o' =>
      and_then (finish_all_here c ps next' args) (fun os args' => (args', Ok (o' :: os))))
  end.

(** A style parser that works on the vector. (cmdline.cpp 512-701) *)
Definition parser_here : Type := list str -> on_args (list popt).

(** [parse_long_option], [parse_short_option], [parse_dos_option], [parse_terminator] and [handle_additional_parser] throw
    before they change [args]. (cmdline.cpp 512-634, 667-701) *)
Definition unchanged (p : style_parser) : parser_here := fun args =>
  match p args with
  | Ok (os, args') => (args', Ok os)
  | Throw e => (args, Throw e)
  | Undef u => (args, Undef u)
  | NoFuel => (args, NoFuel)
  end.

(** cmdline.cpp 636-665 [parse_disguised_long_option]: changes [args[0]] (649-651) before it calls [parse_long_option]. *)
Definition disguised_here (c : cmdline) : parser_here := fun args =>
  match args with
  | [] => ([], Undef UB_index)
  | tok :: rest =>
      match tok with
      | c1 :: c2 :: _ =>
          if (char_eqb c1 c_dash && negb (char_eqb c2 c_dash))
             || (has (cl_style c) allow_slash_for_short && char_eqb c1 c_slash) then
            let name := match find_char c_eq tok with
                        | Some p => substr_n tok 1 (p - 1)
                        | None => substr tok 1
                        end in
            keep args (with_context tok tok (cl_prefix c) (lookup c name)) (fun d =>
            match d with
            | Some _ =>
                let tok' := c_dash :: (if char_eqb c1 c_slash then c_dash else c1) :: tl tok in
                let r := unchanged (parse_long_option c) (tok' :: rest) in
                (fst r, with_context tok' tok' (cl_prefix c) (snd r))
            | None => (args, Ok [])
            end)
          else (args, Ok [])
      | _ => (args, Ok [])
      end
  end.

(** cmdline.cpp 224-248: the style parsers, without one of the user *)
Definition parsers_here (c : cmdline) : list parser_here :=
  let s := cl_style c in
  match cl_additional c with Some p => [unchanged (handle_additional_parser p)] | None => [] end
  ++ (if has s allow_long then [unchanged (parse_long_option c)] else [])
  ++ (if has s allow_long_disguise then [disguised_here c] else [])
  ++ (if has s allow_short && has s allow_dash_for_short then [unchanged (parse_short_option c)] else [])
  ++ (if has s allow_short && has s allow_slash_for_short then [unchanged (parse_dos_option c)] else [])
  ++ [unchanged parse_terminator].

(** cmdline.cpp 253-282: the [for] loop over the style parsers; returns the options to append and [ok]. *)
Fixpoint try_here (c : cmdline) (ps : list style_parser) (todo : list parser_here) (args : list str)
    : on_args (list popt * bool) :=
  match todo with
  | [] => (args, Ok ([], false))
  | p :: todo' =>
      and_then (p args) (fun next args1 =>
      and_then (finish_all_here c ps next args1) (fun finished args2 =>
      if Nat.eqb (List.length args2) (List.length args)
      then and_then (try_here c ps todo' args2) (fun r args3 => (args3, Ok (finished ++ fst r, snd r)))
      else (args2, Ok (finished, true))))
  end.

(** cmdline.cpp 250-289: the main loop; one unit of fuel per iteration *)
Fixpoint main_here (fuel : nat) (c : cmdline) (args : list str) : on_args (list popt) :=
  match args with
  | [] => ([], Ok [])
  | _ :: _ =>
      match fuel with
      | O => (args, NoFuel)
      | S fuel' =>
          and_then (try_here c (style_parsers c) (parsers_here c) args) (fun r args1 =>
          and_then (if snd r then (args1, Ok (fst r))
                    else match args1 with
                         | [] => ([], Undef UB_index)
                         | tok :: rest => (rest, Ok (fst r ++ [mk_popt [] (-1) [tok] [tok] false false]))
                         end) (fun os args2 =>
          and_then (main_here fuel' c args2) (fun more args3 => (args3, Ok (os ++ more)))))
      end
  end.

(** cmdline.cpp 207-398 [run]; the passes after the main loop (292-395) do not touch [m_args]. *)
Definition run_here (fuel : nat) (c : cmdline) (args : list str) : on_args (list popt) :=
  and_then (main_here fuel c args) (fun r1 args' =>
  (args', let* r2 := merge_pass (List.length r1) c r1 in
          let* r4 := match cl_positional c with
                     | Some p => name_positionals p 0 (number_positionals 0 r2)
                     | None => Ok (number_positionals 0 r2)
                     end in
          Ok (map (set_case_flag c) r4))).

(** detail/parsers.hpp 84-98 [run], cmdline.cpp 207-398: the parser afterwards and the outcome; [m_desc] must not be null (222). *)
Definition parser_run_here (fuel : nat) (p : parser) : parser * outcome parsed_options :=
  match ps_desc p with
  | None => (p, Undef UB_assert)
  | Some ds =>
      let c := mk_cl (ps_style p) (ps_allow_unregistered p) ds (ps_positional p) (ps_additional p) (ps_style_parser p) in
      let r := run_here fuel c (ps_args p) in
      (mk_parser (fst r) (ps_style p) (ps_allow_unregistered p) (ps_desc p) (ps_positional p) (ps_additional p)
         (ps_style_parser p),
       let* opts := snd r in Ok (mk_parsed opts (Some ds) (cl_prefix c)))
  end.
