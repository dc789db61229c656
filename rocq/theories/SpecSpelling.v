(** Vocabulary for command lines that say the same in other words. *)

From Coq Require Import List Ascii String NArith ZArith Bool.
From Verif Require Import Base Errors Spec Values OptDesc SpecLookup Positional Cmdline SpecCmdline SpecReject SpecGrammar.
Import ListNotations.

(** The items differ at most in the tokens they quote. *)
Inductive like_item : item -> item -> Prop :=
| li_option key u vs ts ts' : like_item (Option_ key u vs ts) (Option_ key u vs ts')
| li_argument v t t' : like_item (Argument v t) (Argument v t')
| li_verbatim t : like_item (Verbatim t) (Verbatim t).

(** The options returned differ at most in [original_tokens]. *)
Definition same_option (a b : popt) : Prop :=
  po_key a = po_key b /\ po_pos a = po_pos b /\ po_value a = po_value b /\ po_unreg a = po_unreg b /\ po_ci a = po_ci b.

Section Spelling.
Variable c : cmdline.

(** The tokens, each with those it takes for values, write these options and nothing else. *)
Inductive writes : list str -> list item -> Prop :=
| wr_nothing : writes [] []
| wr_token tok taken ms is more is' :
    stands_for c tok ms -> all_completed c ms taken is [] -> writes more is' -> writes (tok :: taken ++ more) (is ++ is').

(** Some of the options of a command line are written in other words: shorter or longer names, short instead of long options, the value
    in the same token or in the next, flags together or one by one. *)
Inductive respelled : list str -> list str -> Prop :=
| rs_end : respelled [] []
| rs_dashes rest : ordinary c dashdash -> respelled (dashdash :: rest) (dashdash :: rest)
| rs_argument tok rest rest' : ordinary c tok -> tok <> dashdash -> respelled rest rest' -> respelled (tok :: rest) (tok :: rest')
| rs_options toks toks' is is' rest rest' :
    writes toks is -> writes toks' is' -> Forall2 like_item is is' -> respelled rest rest' ->
    respelled (toks ++ rest) (toks' ++ rest').

Notation on flag := (has (cl_style c) flag = true).

(** The option [d] is known by the name [n], and has then the key [key]. *)
Definition known_as (d : option_description) (key n : str) : Prop := lookup c n = Ok (Some d) /\ is_key d n key.

(** "-x" can be a short option, and is not taken for anything else. *)
Definition short_word (x : char) (adjacent : str) : Prop :=
  let tok := c_dash :: x :: adjacent in
  unclaimed c tok /\ on allow_short /\ on allow_dash_for_short /\ x <> c_dash
  /\ (forall n m, disguise c tok n -> before_eq n m -> lookup c m = Ok None).

(** "/x" can be a short option, and is not taken for anything else. *)
Definition slash_word (x : char) (adjacent : str) : Prop :=
  let tok := c_slash :: x :: adjacent in
  unclaimed c tok /\ on allow_short /\ on allow_slash_for_short
  /\ (forall n m, disguise c tok n -> before_eq n m -> lookup c m = Ok None).

(** The ways to write the option [d] with the value [v]. *)
Inductive value_spelling (d : option_description) (key v : str) : list str -> Prop :=
| vs_long_adjacent n : unclaimed c (dashdash ++ n ++ [c_eq] ++ v) -> on allow_long -> n <> [] -> without c_eq n -> v <> [] ->
    known_as d key n -> value_spelling d key v [dashdash ++ n ++ [c_eq] ++ v]
| vs_long_next n : unclaimed c (dashdash ++ n) -> on allow_long -> n <> [] -> without c_eq n -> may_be_value c v ->
    known_as d key n -> value_spelling d key v [dashdash ++ n; v]
| vs_short_adjacent x : short_word x v -> v <> [] -> short_lookup c x = Ok (Some d) -> known_as d key [c_dash; x] ->
    value_spelling d key v [c_dash :: x :: v]
| vs_short_next x : short_word x [] -> short_lookup c x = Ok (Some d) -> may_be_value c v -> known_as d key [c_dash; x] ->
    value_spelling d key v [[c_dash; x]; v]
| vs_slash_adjacent x : slash_word x v -> v <> [] -> known_as d key [c_dash; x] -> value_spelling d key v [c_slash :: x :: v]
| vs_slash_next x : slash_word x [] -> may_be_value c v -> known_as d key [c_dash; x] -> value_spelling d key v [[c_slash; x]; v]
| vs_disguised_adjacent b n : unclaimed c (b :: n ++ [c_eq] ++ v) -> disguise c (b :: n ++ [c_eq] ++ v) (n ++ [c_eq] ++ v) ->
    without c_eq n -> n <> [] -> v <> [] -> known_as d key n -> value_spelling d key v [b :: n ++ [c_eq] ++ v]
| vs_disguised_next b n : unclaimed c (b :: n) -> disguise c (b :: n) n -> without c_eq n -> may_be_value c v ->
    known_as d key n -> value_spelling d key v [b :: n; v].

(** The ways to write the flag [d]. *)
Inductive flag_spelling (d : option_description) (key : str) : str -> Prop :=
| fs_long n : unclaimed c (dashdash ++ n) -> on allow_long -> n <> [] -> without c_eq n -> known_as d key n ->
    flag_spelling d key (dashdash ++ n)
| fs_short x : short_word x [] -> short_lookup c x = Ok (Some d) -> known_as d key [c_dash; x] ->
    flag_spelling d key [c_dash; x]
| fs_slash x : slash_word x [] -> known_as d key [c_dash; x] -> flag_spelling d key [c_slash; x]
| fs_disguised b n : unclaimed c (b :: n) -> disguise c (b :: n) n -> without c_eq n -> known_as d key n -> flag_spelling d key (b :: n).

(** The letter [x] is the flag with the key [key]. *)
Definition flag_letter (x : char) (key : str) : Prop :=
  exists d, short_lookup c x = Ok (Some d) /\ known_as d key [c_dash; x] /\ vs_min (od_sem d) = 0%Z /\ vs_max (od_sem d) = 0%Z.

(** The letter [x] is the option with the key [key] that takes one value. *)
Definition value_letter (x : char) (key : str) : Prop :=
  exists d, short_lookup c x = Ok (Some d) /\ known_as d key [c_dash; x] /\ vs_min (od_sem d) = 1%Z /\ (1 <= vs_max (od_sem d))%Z.

(** The short options of a word, one word for each. *)
Definition one_by_one (letters : str) : list str := map (fun x => [c_dash; x]) letters.

End Spelling.
