(** Streams and iterators: std::getline, include/boost/program_options/eof_iterator.hpp,
    detail/config_file.hpp (the iterator over a stream), environment_iterator.hpp, and the parts of src/parsers.cpp
    that use them. *)

From Coq Require Import List Ascii String NArith ZArith Bool.
From Verif Require Import Base Errors Values OptDesc Positional Cmdline Parsers ConfigFile Convert Wide.
Import ListNotations.

Set Implicit Arguments.

Section Stream.

(** [charT] *)
Variable A : Type.

(** A [std::basic_istream]: the characters not read yet, whether the stream ends with a read error (an exception
    of the buffer) instead of the end of the file, and [eofbit], [failbit], [badbit].  The exception mask of the
    stream is empty here; other masks are in Masked.v.  (the standard library, not in /repo; used in detail/config_file.hpp 168-170) *)
Record stream := mk_stream {
  st_rest : list A;
  st_broken : bool;
  st_eof : bool;
  st_fail : bool;
  st_bad : bool }.

(** [is.good()] *)
Definition st_good (s : stream) : bool := negb (st_eof s) && negb (st_fail s) && negb (st_bad s).

Variable is_newline : A -> bool.

(** The characters up to the first newline, and those behind it. *)
Fixpoint break_line (s : list A) : option (list A * list A) :=
  match s with
  | [] => None
  | x :: s' => if is_newline x then Some ([], s')
               else match break_line s' with Some (l, r) => Some (x :: l, r) | None => None end
  end.

(** [std::getline(is, str)]: [None] if the stream converts to [false] afterwards.  A read error sets [badbit], and
    [failbit] if no character was read; what was read of the line is not used then. *)
Definition std_getline (s : stream) : option (list A) * stream :=
  if negb (st_good s) then (None, mk_stream (st_rest s) (st_broken s) (st_eof s) true (st_bad s))
  else match break_line (st_rest s) with
       | Some (l, r) => (Some l, mk_stream r (st_broken s) false false false)
       | None =>
           if st_broken s then (None, mk_stream [] true false (is_empty (st_rest s)) true)
           else match st_rest s with
                | [] => (None, mk_stream [] false true true false)
                | _ => (Some (st_rest s), mk_stream [] false true false false)
                end
       end.

(** [to_internal]: detail/convert.hpp 70-72, convert.cpp 150-159 *)
Variable to_internal_line : list A -> outcome str.

(** eof_iterator.hpp 94-95 [m_at_eof], [m_value]; detail/config_file.hpp 114 [m_prefix] *)
Record cf_iterator := mk_it { it_at_eof : bool; it_value : popt; it_prefix : str }.

(** option.hpp 26-30: the option that [m_value] is constructed as *)
Definition popt_new : popt := mk_popt [] (-1) [] [] false false.

(** What a line gives: nothing, with the section that holds from now on, or an option. *)
Inductive line_result := Skip (prefix : str) | Found (name value : str) (registered : bool).

(** config_file.cpp 113-119: the option is assigned member by member to what [m_value] was *)
Definition assigned (o : popt) (name value : str) (registered : bool) : popt :=
  mk_popt name (po_pos o) [value] [name; value] (negb registered) (po_ci o).

(** config_file.cpp 91-124: the body of the loop of [get], for one line *)
Definition cf_line (allowed prefixes : sset) (allow_unregistered : bool) (prefix line : str) : outcome line_result :=
  let s := strip_line line in
  if is_empty s then Ok (Skip prefix)
  else if is_section s then let* p := section_prefix s in Ok (Skip p)
  else match find_char c_eq s with
       | Some n =>
           let name := prefix ++ trim_ws (substr_n s 0 n) in
           let value := trim_ws (substr s (n + 1)) in
           let registered := allowed_option allowed prefixes name in
           if negb registered && negb allow_unregistered then Throw (mk_unknown_option name)
           else Ok (Found name value registered)
       | None => Throw (mk_config_syntax s unrecognized_line)
       end.

(** config_file.cpp 83-129 [get] with detail/config_file.hpp 165-176 [getline].  Every round but the last reads a
    newline or the last line: [length (st_rest s) + 2] rounds suffice. *)
Fixpoint it_get (fuel : nat) (allowed prefixes : sset) (allow_unregistered : bool) (it : cf_iterator) (s : stream)
    : stream * outcome cf_iterator :=
  match fuel with
  | O => (s, NoFuel)
  | S fuel' =>
      match std_getline s with
      | (None, s') => (s', Ok (mk_it true (it_value it) (it_prefix it)))
      | (Some l, s') =>
          match (let* line := to_internal_line l in cf_line allowed prefixes allow_unregistered (it_prefix it) line) with
          | Ok (Skip p) => it_get fuel' allowed prefixes allow_unregistered (mk_it (it_at_eof it) (it_value it) p) s'
          | Ok (Found n v b) => (s', Ok (mk_it (it_at_eof it) (assigned (it_value it) n v b) (it_prefix it)))
          | Throw e => (s', Throw e)
          | Undef u => (s', Undef u)
          | NoFuel => (s', NoFuel)
          end
      end
  end.

(** eof_iterator.hpp 81-87 [equal] *)
Definition it_equal (a b : cf_iterator) : bool := it_at_eof a && it_at_eof b.

(** detail/config_file.hpp 121-124: the default constructor *)
Definition it_end : cf_iterator := mk_it true popt_new [].

(** [std::copy] as called in parsers.cpp 124-127.  Each step reads a line. *)
Fixpoint it_copy (fuel : nat) (allowed prefixes : sset) (allow_unregistered : bool) (it : cf_iterator) (s : stream)
    : stream * outcome (list popt) :=
  match fuel with
  | O => (s, NoFuel)
  | S fuel' =>
      if it_equal it it_end then (s, Ok [])
      else match it_get (S (S (List.length (st_rest s)))) allowed prefixes allow_unregistered it s with
           | (s', Ok it') =>
               match it_copy fuel' allowed prefixes allow_unregistered it' s' with
               | (s'', Ok os) => (s'', Ok (it_value it :: os))
               | r => r
               end
           | (s', Throw e) => (s', Throw e)
           | (s', Undef u) => (s', Undef u)
           | (s', NoFuel) => (s', NoFuel)
           end
  end.

(** parsers.cpp 102-127 [parse_config_file(istream)] up to the conversion of the result, with the constructor
    detail/config_file.hpp 149-158 *)
Definition parse_config_options (s : stream) (ds : list option_description) (allow_unregistered : bool)
    : stream * outcome parsed_options :=
  match (let* allowed := cf_allowed ds [] in let* prefixes := cf_add_options [] allowed in Ok (allowed, prefixes)) with
  | Ok (allowed, prefixes) =>
      match it_get (S (S (List.length (st_rest s)))) allowed prefixes allow_unregistered (mk_it false popt_new []) s with
      | (s1, Ok it) =>
          match it_copy (S (S (S (List.length (st_rest s))))) allowed prefixes allow_unregistered it s1 with
          | (s2, Ok os) => (s2, Ok (mk_parsed os (Some ds) 0))
          | (s2, Throw e) => (s2, Throw e)
          | (s2, Undef u) => (s2, Undef u)
          | (s2, NoFuel) => (s2, NoFuel)
          end
      | (s1, Throw e) => (s1, Throw e)
      | (s1, Undef u) => (s1, Undef u)
      | (s1, NoFuel) => (s1, NoFuel)
      end
  | Throw e => (s, Throw e)
  | Undef u => (s, Undef u)
  | NoFuel => (s, NoFuel)
  end.

(** A stream from which nothing has been read (parsers.cpp 153: a file that was opened) *)
Definition st_open (text : list A) (broken : bool) : stream := mk_stream text broken false false false.

End Stream.

Arguments mk_stream {A} _ _ _ _ _.

(** parsers.cpp 102-136 [parse_config_file<char>(istream)] *)
Definition parse_config_stream (s : stream ascii) (ds : list option_description) (allow_unregistered : bool)
    : stream ascii * outcome parsed_options :=
  parse_config_options (fun x => char_eqb x c_nl) (fun l => Ok l) s ds allow_unregistered.

(** parsers.cpp 102-130, 138-144 [parse_config_file<wchar_t>(wistream)] *)
Definition wparse_config_stream (s : stream N) (ds : list option_description) (allow_unregistered : bool)
    : stream N * outcome wparsed_options :=
  let r := parse_config_options (fun x => N.eqb x (N_of_ascii c_nl)) to_utf8 s ds allow_unregistered in
  (fst r, let* p := snd r in wparsed p).

(** A file that can be opened: what can be read of it, and whether reading then fails. (parsers.cpp 153-165) *)
Record file := mk_file { file_text : str; file_broken : bool }.

(** parsers.cpp 146-168 [parse_config_file(filename)]: [f] is the file of this name, [None] if
    it cannot be opened. *)
Definition parse_config_file_named (name : str) (f : option file)
    (ds : list option_description) (allow_unregistered : bool) : outcome parsed_options :=
  match f with
  | None => Throw (plain_exn (reading_file name))
  | Some f =>
      let r := parse_config_stream (st_open (file_text f) (file_broken f)) ds allow_unregistered in
      let* p := snd r in
      if st_bad (fst r) then Throw (plain_exn (reading_file name)) else Ok p
  end.

(** ** The environment *)

(** [environ] (parsers.cpp 50-60): a null pointer, or an array of pointers to C strings, of which the null pointer
    is [None] *)
Definition environment := option (list (option str)).

(** environment_iterator.hpp 33-46 [get] at the position [i]: [None] is [found_eof]; behind the end of the array it
    is undefined. *)
Definition env_get (env : environment) (i : nat) : outcome (option (str * str)) :=
  match env with
  | None => Undef UB_null
  | Some a => match nth_error a i with
              | None => Undef UB_index
              | Some None => Ok None
              | Some (Some s) => let* p := env_split s in Ok (Some p)
              end
  end.

(** parsers.cpp 206-215: the loop over the iterator; [i] is the position of [m_environment].  Each round moves it on:
    the size of the array and one more round suffice. *)
Fixpoint env_loop (fuel : nat) (env : environment) (i : nat) (mapper : str -> outcome str) : outcome (list popt) :=
  match fuel with
  | O => NoFuel
  | S fuel' =>
      let* v := env_get env i in
      match v with
      | None => Ok []
      | Some p =>
          let* name := mapper (fst p) in
          let* rest := env_loop fuel' env (S i) mapper in
          Ok ((if is_empty name then [] else [mk_popt name (-1) [snd p] [] false false]) ++ rest)
      end
  end.

(** parsers.cpp 200-219 [parse_environment(desc, name_mapper)] *)
Definition parse_environ (env : environment) (ds : list option_description) (mapper : str -> outcome str)
    : outcome parsed_options :=
  let* opts := env_loop (S (List.length (match env with Some a => a | None => [] end))) env 0 mapper in
  Ok (mk_parsed opts (Some ds) 0).
