(** Vocabulary for parsers without a description. *)

From Coq Require Import List Ascii String NArith ZArith Bool.
From Verif Require Import Base Errors Spec Values OptDesc Positional Cmdline Parsers Build.
Import ListNotations.

(** Tokens that have the form of an option in this style. *)
Inductive optionish (style : Z) : str -> Prop :=
| os_long c rest : has style allow_long = true -> optionish style (c_dash :: c_dash :: c :: rest)
| os_dash c rest :
    has style allow_long_disguise = true \/ (has style allow_short = true /\ has style allow_dash_for_short = true) ->
    c <> c_dash -> optionish style (c_dash :: c :: rest)
| os_slash c rest :
    has style allow_slash_for_short = true -> has style allow_long_disguise = true \/ has style allow_short = true ->
    optionish style (c_slash :: c :: rest).

(** "--name=" *)
Definition no_value_given (style : Z) (tok : str) : Prop :=
  has style allow_long = true /\ exists n, tok = [c_dash; c_dash] ++ n ++ [c_eq] /\ without c_eq n.

(** "--=value" *)
Definition no_name_given (style : Z) (tok value : str) : Prop :=
  has style allow_long = true /\ value <> [] /\ tok = [c_dash; c_dash; c_eq] ++ value.

(** Tokens that are positional arguments, and the value of these: words, and values without the name of an option. *)
Inductive word (style : Z) : str * str -> Prop :=
| wd_word tok : ~ optionish style tok -> tok <> $"--" -> word style (tok, tok)
| wd_nameless tok value : no_name_given style tok value -> word style (tok, value).

(** The positional arguments with these tokens and values, from position [k] on. *)
Fixpoint words_at (ci : bool) (k : Z) (ws : list (str * str)) : list popt :=
  match ws with
  | [] => []
  | w :: ws' => mk_popt [] k [snd w] [fst w] false ci :: words_at ci (k + 1) ws'
  end.

(** The parser has no functions of the user. *)
Definition no_user_parsers (c : cmdline) : Prop := cl_style_parser c = None /\ cl_additional c = None.
