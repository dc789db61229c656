(** Config files read from streams that throw: [parse_config_file(istream)] when [istream::exceptions] has been set.
    The functions are those of Streams.v; here reading a line can end with an exception of the stream. *)

From Coq Require Import List Ascii String NArith ZArith Bool.
From Verif Require Import Base Errors Values OptDesc Positional Cmdline Parsers ConfigFile Convert Wide Streams.
Import ListNotations.

Set Implicit Arguments.

(** [is.exceptions()]: does it contain [eofbit], [failbit], [badbit]? (the standard library, not in /repo) *)
Record mask := mk_mask { on_eof : bool; on_fail : bool; on_bad : bool }.

(** The end of a call that reads: [std::ios_base::failure]; an exception of the stream buffer, thrown again; or neither. *)
Inductive io (X : Type) := Failure | Rethrown | Done (x : X).
Arguments Failure {X}.
Arguments Rethrown {X}.

Section Stream.
Variable A : Type.
Variable is_newline : A -> bool.
Variable m : mask.

(** [is.rdstate() & is.exceptions()] *)
Definition hits (s : stream A) : bool :=
  (on_eof m && st_eof s) || (on_fail m && st_fail s) || (on_bad m && st_bad s).

(** [is.setstate(bits)], where [s] has the bits already *)
Definition set_state {X} (s : stream A) (x : X) : io X * stream A := (if hits s then Failure else Done x, s).

(** [std::getline(is, str)]: as in Streams.v, but setting a state can throw.  An exception of the stream buffer sets
    [badbit] and is thrown again if [badbit] is in the mask. *)
Definition getline_masked (s : stream A) : io (option (list A)) * stream A :=
  if negb (st_good s) then set_state (mk_stream (st_rest s) (st_broken s) (st_eof s) true (st_bad s)) None
  else match break_line is_newline (st_rest s) with
       | Some (l, r) => (Done (Some l), mk_stream r (st_broken s) false false false)
       | None =>
           if st_broken s then
             if on_bad m then (Rethrown, mk_stream [] true false false true)
             else match st_rest s with
                  | [] => set_state (mk_stream [] true false true true) None
                  | _ => (Done None, mk_stream [] true false false true)
                  end
           else match st_rest s with
                | [] => set_state (mk_stream [] false true true false) None
                | _ => set_state (mk_stream [] false true false false) (Some (st_rest s))
                end
       end.

Variable to_internal_line : list A -> outcome str.

(** config_file.cpp 83-129 [get] with detail/config_file.hpp 165-176 [getline] *)
Fixpoint get_masked (fuel : nat) (allowed prefixes : sset) (allow_unregistered : bool) (it : cf_iterator) (s : stream A)
    : stream A * io (outcome cf_iterator) :=
  match fuel with
  | O => (s, Done NoFuel)
  | S fuel' =>
      match getline_masked s with
      | (Failure, s') => (s', Failure)
      | (Rethrown, s') => (s', Rethrown)
      | (Done None, s') => (s', Done (Ok (mk_it true (it_value it) (it_prefix it))))
      | (Done (Some l), s') =>
          match (let* line := to_internal_line l in cf_line allowed prefixes allow_unregistered (it_prefix it) line) with
          | Ok (Skip p) => get_masked fuel' allowed prefixes allow_unregistered (mk_it (it_at_eof it) (it_value it) p) s'
          | Ok (Found n v b) => (s', Done (Ok (mk_it (it_at_eof it) (assigned (it_value it) n v b) (it_prefix it))))
          | Throw e => (s', Done (Throw e))
          | Undef u => (s', Done (Undef u))
          | NoFuel => (s', Done NoFuel)
          end
      end
  end.

(** [std::copy] as called in parsers.cpp 124-127 *)
Fixpoint copy_masked (fuel : nat) (allowed prefixes : sset) (allow_unregistered : bool) (it : cf_iterator) (s : stream A)
    : stream A * io (outcome (list popt)) :=
  match fuel with
  | O => (s, Done NoFuel)
  | S fuel' =>
      if it_equal it it_end then (s, Done (Ok []))
      else match get_masked (S (S (List.length (st_rest s)))) allowed prefixes allow_unregistered it s with
           | (s', Failure) => (s', Failure)
           | (s', Rethrown) => (s', Rethrown)
           | (s', Done (Ok it')) =>
               match copy_masked fuel' allowed prefixes allow_unregistered it' s' with
               | (s'', Done (Ok os)) => (s'', Done (Ok (it_value it :: os)))
               | r => r
               end
           | (s', Done (Throw e)) => (s', Done (Throw e))
           | (s', Done (Undef u)) => (s', Done (Undef u))
           | (s', Done NoFuel) => (s', Done NoFuel)
           end
  end.

(** parsers.cpp 102-127 [parse_config_file(istream)] up to the conversion of the result, with the constructor
    detail/config_file.hpp 149-158 *)
Definition parse_config_masked (s : stream A) (ds : list option_description) (allow_unregistered : bool)
    : stream A * io (outcome parsed_options) :=
  match (let* allowed := cf_allowed ds [] in let* prefixes := cf_add_options [] allowed in Ok (allowed, prefixes)) with
  | Ok (allowed, prefixes) =>
      match get_masked (S (S (List.length (st_rest s)))) allowed prefixes allow_unregistered (mk_it false popt_new []) s with
      | (s1, Failure) => (s1, Failure)
      | (s1, Rethrown) => (s1, Rethrown)
      | (s1, Done (Ok it)) =>
          match copy_masked (S (S (S (List.length (st_rest s))))) allowed prefixes allow_unregistered it s1 with
          | (s2, Failure) => (s2, Failure)
          | (s2, Rethrown) => (s2, Rethrown)
          | (s2, Done (Ok os)) => (s2, Done (Ok (mk_parsed os (Some ds) 0)))
          | (s2, Done (Throw e)) => (s2, Done (Throw e))
          | (s2, Done (Undef u)) => (s2, Done (Undef u))
          | (s2, Done NoFuel) => (s2, Done NoFuel)
          end
      | (s1, Done (Throw e)) => (s1, Done (Throw e))
      | (s1, Done (Undef u)) => (s1, Done (Undef u))
      | (s1, Done NoFuel) => (s1, Done NoFuel)
      end
  | Throw e => (s, Done (Throw e))
  | Undef u => (s, Done (Undef u))
  | NoFuel => (s, Done NoFuel)
  end.

End Stream.

(** parsers.cpp 102-136 [parse_config_file<char>(istream)] *)
Definition parse_throwing_stream (m : mask) (s : stream ascii) (ds : list option_description) (allow_unregistered : bool)
    : stream ascii * io (outcome parsed_options) :=
  parse_config_masked (fun x => char_eqb x c_nl) m (fun l => Ok l) s ds allow_unregistered.

(** parsers.cpp 102-130, 138-144 [parse_config_file<wchar_t>(wistream)] *)
Definition wparse_throwing_stream (m : mask) (s : stream N) (ds : list option_description) (allow_unregistered : bool)
    : stream N * io (outcome wparsed_options) :=
  let r := parse_config_masked (fun x => N.eqb x (N_of_ascii c_nl)) m to_utf8 s ds allow_unregistered in
  (fst r, match snd r with
          | Failure => Failure
          | Rethrown => Rethrown
          | Done x => Done (let* p := x in wparsed p)
          end).
