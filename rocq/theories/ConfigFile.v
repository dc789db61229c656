(** Config files: src/config_file.cpp, include/boost/program_options/detail/config_file.hpp,
    src/parsers.cpp (102-168). *)

From Coq Require Import List Ascii String NArith ZArith Bool.
From Verif Require Import Base Errors Values OptDesc Positional Cmdline Parsers.
Import ListNotations.

Set Implicit Arguments.

(** config_file.cpp 38-66 [add_option]: the new set [allowed_prefixes].  [fst lb]
    holds the elements before the iterator, nearest first; [snd lb] those from the
    iterator on. The element named in the message is the one the iterator points to
    after the checks, i.e. after [--i] unless it was at the beginning. *)
Definition cf_add_option (prefixes : sset) (name : str) : outcome sset :=
  if is_empty name then Undef UB_assert
  else
    let* last := last_char name in
    if char_eqb last c_star then
      let s := removelast name in
      let lb := ss_lower_bound s prefixes in
      let bad1 := match snd lb with i :: _ => found_at_0 s i | [] => false end in
      let bad2 := match fst lb with i :: _ => found_at_0 i s | [] => false end in
      if bad1 || bad2 then
        let i := match fst lb, snd lb with
                 | i :: _, _ => i
                 | [], i :: _ => i
                 | [], [] => []
                 end in
        Throw (plain_exn (po_error ($"options '" ++ name ++ $"' and '" ++ i ++
          $"*' will both match the same arguments from the configuration file")))
      else Ok (ss_insert s prefixes)
    else Ok prefixes.

(** config_file.cpp 24-36: constructor of [common_config_file_iterator] *)
Fixpoint cf_add_options (prefixes : sset) (allowed : sset) : outcome sset :=
  match allowed with
  | [] => Ok prefixes
  | n :: allowed' =>
      let* p := cf_add_option prefixes n in cf_add_options p allowed'
  end.

(** The white space of [trim_ws]: " \t\r\n" (config_file.cpp 72, 76) *)
Definition ws : str := [c_space; c_tab; c_cr; c_nl].

(** config_file.cpp 69-79 [trim_ws] *)
Definition trim_ws (s : str) : str :=
  match find_first_not_of ws s, find_last_not_of ws s with
  | Some n, Some n2 => substr_n s n (n2 - n + 1)
  | _, _ => []
  end.

(** config_file.cpp 131-145 [allowed_option] *)
Definition allowed_option (allowed prefixes : sset) (s : str) : bool :=
  if ss_mem s allowed then true
  else match fst (ss_lower_bound s prefixes) with
       | i :: _ => found_at_0 i s
       | [] => false
       end.

(** The state of the iterator that matters: [m_prefix] (detail/config_file.hpp 114) and
    the lines not read yet. *)
Record cf_state := mk_cf { cf_prefix : str; cf_lines : list str }.

(** config_file.cpp 91-94: strip the comment and white space of a line *)
Definition strip_line (s : str) : str :=
  trim_ws (match find_char c_hash s with Some n => substr_n s 0 n | None => s end).

(** Does the (non-empty) stripped line start with '[' and end with ']'
    (config_file.cpp 98)? *)
Definition is_section (s : str) : bool :=
  match s, rev s with
  | b :: _, e :: _ => char_eqb b c_lbr && char_eqb e c_rbr
  | _, _ => false
  end.

(** config_file.cpp 99-101: the new [m_prefix].  For the line "[" (one character
    that is not both brackets) this is not reached; [s.size() - 2] does not wrap. *)
Definition section_prefix (s : str) : outcome str :=
  let p := substr_n s 1 (List.length s - 2) in
  let* last := last_char p in
  Ok (if char_eqb last c_dot then p else p ++ [c_dot]).

(** config_file.cpp 83-129 [get]: read lines until an option is found; [None] for
    the option is [found_eof]. *)
Fixpoint cf_get (allowed prefixes : sset) (allow_unregistered : bool)
    (prefix : str) (lines : list str) : outcome (option popt * cf_state) :=
  match lines with
  | [] => Ok (None, mk_cf prefix [])
  | line :: rest =>
      let s := strip_line line in
      if is_empty s then cf_get allowed prefixes allow_unregistered prefix rest
      else if is_section s then
        let* p := section_prefix s in
        cf_get allowed prefixes allow_unregistered p rest
      else
        match find_char c_eq s with
        | Some n =>
            let name := prefix ++ trim_ws (substr_n s 0 n) in
            let value := trim_ws (substr s (n + 1)) in
            let registered := allowed_option allowed prefixes name in
            if negb registered && negb allow_unregistered
            then Throw (mk_unknown_option name)
            else Ok (Some (mk_popt name (-1) [value] [name; value] (negb registered) false),
                     mk_cf prefix rest)
        | None => Throw (mk_config_syntax s unrecognized_line)
        end
  end.

(** parsers.cpp 124-127 (std::copy from the iterator to the end).  Each step
    consumes a line: [length lines + 1] steps suffice. *)
Fixpoint cf_copy (fuel : nat) (allowed prefixes : sset) (allow_unregistered : bool)
    (st : cf_state) : outcome (list popt) :=
  match fuel with
  | O => NoFuel
  | S fuel' =>
      let* r := cf_get allowed prefixes allow_unregistered (cf_prefix st) (cf_lines st) in
      match r with
      | (None, _) => Ok []
      | (Some o, st') =>
          let* rest := cf_copy fuel' allowed prefixes allow_unregistered st' in
          Ok (o :: rest)
      end
  end.

(** parsers.cpp 108-120: the set of allowed names *)
Fixpoint cf_allowed (ds : list option_description) (allowed : sset) : outcome sset :=
  match ds with
  | [] => Ok allowed
  | d :: ds' =>
      if is_empty (od_long_name d) then
        Throw (plain_exn (po_error
          $"abbreviated option names are not permitted in options configuration files"))
      else cf_allowed ds' (ss_insert (od_long_name d) allowed)
  end.

(** parsers.cpp 102-130 [parse_config_file(istream)], on the whole content of the
    stream.  The stream itself is in Streams.v. *)
Definition parse_config_file (content : str) (ds : list option_description)
    (allow_unregistered : bool) : outcome parsed_options :=
  let lines := getline_all c_nl content in
  let* allowed := cf_allowed ds [] in
  let* prefixes := cf_add_options [] allowed in
  let* opts := cf_copy (S (List.length lines)) allowed prefixes allow_unregistered
                 (mk_cf [] lines) in
  Ok (mk_parsed opts (Some ds) 0).
