(** [split_unix]: src/split.cpp. *)

From Coq Require Import List Ascii String NArith Bool.
From Verif Require Import Base Errors Convert.
Import ListNotations.

Set Implicit Arguments.

(** The type of characters, their equality, and the characters 'n' and '\n' of this type. (split.cpp 18 [charT]) *)
Section Characters.
Variable A : Type.
Variable eqb : A -> A -> bool.
Variables letter_n newline : A.

(** The tokens produced by [boost::escaped_list_separator] (Boost.Tokenizer, not in
    /repo: trusted transcription).  [cur] is the token being read, [in_quote] the
    flag [bInQuote]. A separator ends a token and announces one more field
    ([last_]); the end of input ends the last token. (used in split.cpp 18-39) *)
Fixpoint escaped_list_loop (sep quote esc : list A) (s : list A) (in_quote : bool) (cur : list A)
    : outcome (list (list A)) :=
  match s with
  | [] => Ok [cur]
  | c :: s' =>
      if existsb (eqb c) esc then
        match s' with
        | [] => Throw (plain_exn (escaped_list_error $"cannot end with escape"))
        | d :: s'' =>
            if eqb d letter_n then
              escaped_list_loop sep quote esc s'' in_quote (cur ++ [newline])
            else if existsb (eqb d) quote || existsb (eqb d) sep || existsb (eqb d) esc then
              escaped_list_loop sep quote esc s'' in_quote (cur ++ [d])
            else Throw (plain_exn (escaped_list_error $"unknown escape sequence"))
        end
      else if existsb (eqb c) sep then
        if in_quote then escaped_list_loop sep quote esc s' in_quote (cur ++ [c])
        else
          let* rest := escaped_list_loop sep quote esc s' false [] in
          Ok (cur :: rest)
      else if existsb (eqb c) quote then escaped_list_loop sep quote esc s' (negb in_quote) cur
      else escaped_list_loop sep quote esc s' in_quote (cur ++ [c])
  end.

(** the same, for an empty input no token; used in split.cpp 18-39; Boost.Tokenizer, not in /repo *)
Definition escaped_list_tokens (sep quote esc : list A) (s : list A) : outcome (list (list A)) :=
  match s with
  | [] => Ok []
  | _ => escaped_list_loop sep quote esc s false []
  end.

(** split.cpp 18-39 [detail::split_unix]: keep the non-empty tokens *)
Definition split_unix_detail (cmdline sep quote esc : list A) : outcome (list (list A)) :=
  let* toks := escaped_list_tokens sep quote esc cmdline in
  Ok (filter (fun t => match t with [] => false | _ => true end) toks).

End Characters.

(** split.cpp 47-52 [split_unix] *)
Definition split_unix_gen (cmdline sep quote esc : str) : outcome (list str) :=
  split_unix_detail char_eqb "n"%char c_nl cmdline sep quote esc.

(** split.cpp 55-60 [split_unix] for wide strings *)
Definition wsplit_unix_gen (cmdline sep quote esc : wstr) : outcome (list wstr) :=
  split_unix_detail N.eqb (N_of_ascii "n"%char) (N_of_ascii c_nl) cmdline sep quote esc.

(** parsers.hpp 263-264: the default arguments: blank and tab; single and double
    quote; backslash *)
Definition default_sep : str := [c_space; c_tab].
Definition default_quote : str := [c_sq; c_dq].
Definition default_esc : str := [c_bs].
Definition split_unix (cmdline : str) : outcome (list str) :=
  split_unix_gen cmdline default_sep default_quote default_esc.

(** parsers.hpp 269-270: the same for wide strings *)
Definition wsplit_unix (cmdline : wstr) : outcome (list wstr) :=
  wsplit_unix_gen cmdline (map N_of_ascii default_sep) (map N_of_ascii default_quote) (map N_of_ascii default_esc).
