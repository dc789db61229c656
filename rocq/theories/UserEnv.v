(** [parse_environment] with a name mapper that has a state of its own, may throw, and may change the environment: src/parsers.cpp,
    environment_iterator.hpp.  [view] gives the array that [environ] pointed to when the call began, as it is in a given state: the
    iterator keeps that pointer, so a mapper that makes [environ] point to another array changes nothing here, and reading memory
    that is no longer an array is undefined ([view] is [None], or the position is outside). *)

From Coq Require Import List Ascii String NArith ZArith Bool.
From Verif Require Import Base Errors Values OptDesc Cmdline Parsers UserCode Streams.
Import ListNotations.

(** The user's function: a new state, and an answer or an exception. (parsers.hpp 225-236 [name_mapper]) *)
Definition user_mapper (S : Type) : Type := S -> str -> S * (str + exn).

(** parsers.cpp 207: the call of the user's function *)
Definition ask_name {S} (f : user_mapper S) (n : str) : st S str := fun s =>
  let (s1, a) := f s n in (s1, match a with inl x => Ok x | inr e => Throw e end).

(** environment_iterator.hpp 33-46 [get]: looks at the array as it is now. *)
Definition look {S} (view : S -> environment) (i : nat) : st S (option (str * str)) := fun s => (s, env_get (view s) i).

(** parsers.cpp 206-216: the loop over the iterator.  A variable is read after the mapper has returned
    the name for the one before. *)
Fixpoint uenv_loop {S} (view : S -> environment) (f : user_mapper S) (fuel i : nat) : st S (list popt) :=
  match fuel with
  | O => lift NoFuel
  | Datatypes.S fuel' =>
      sbind (look view i) (fun v =>
      match v with
      | None => lift (Ok [])
      | Some p =>
          sbind (ask_name f (fst p)) (fun name =>
          sbind (uenv_loop view f fuel' (Datatypes.S i)) (fun rest =>
          lift (Ok ((if is_empty name then [] else [mk_popt name (-1) [snd p] [] false false]) ++ rest))))
      end)
  end.

(** parsers.cpp 200-219 [parse_environment(desc, name_mapper)] *)
Definition uparse_environment {S} (view : S -> environment) (f : user_mapper S) (fuel : nat) (ds : list option_description)
    : st S parsed_options :=
  sbind (uenv_loop view f fuel 0) (fun opts => lift (Ok (mk_parsed opts (Some ds) 0))).
