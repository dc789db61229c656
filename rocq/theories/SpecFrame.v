(** Vocabulary for what does not change when a program gets a new option. *)

From Coq Require Import List Ascii String NArith ZArith Bool.
From Verif Require Import Base Errors Spec Values OptDesc SpecLookup Positional Cmdline SpecCmdline SpecGrammar
  Parsers ConfigFile SpecConfig VarMap.
Import ListNotations.

(** The parser with other options. *)
Definition with_desc (c : cmdline) (ds : list option_description) : cmdline :=
  mk_cl (cl_style c) (cl_allow_unregistered c) ds (cl_positional c) (cl_additional c) (cl_style_parser c).

(** The name [s] does not mean the new option [d]: it is not a name of [d], and if it abbreviates one (or falls under a
    wildcard of [d]), then it is the full name of one of the options [ds]. *)
Definition passes_over (ds : list option_description) (d : option_description) (s : str) (guess lic sic : bool) : Prop :=
  (lic = true -> ascii7 s)
  /\ ~ full d s lic sic
  /\ (approximate d s guess lic -> exists d0, In d0 ds /\ foldable_option d0 lic sic /\ full d0 s lic sic).

(** The same in the style of a parser. *)
Definition spared (c : cmdline) (d : option_description) (s : str) : Prop :=
  passes_over (cl_desc c) d s (has (cl_style c) allow_guessing) (has (cl_style c) long_case_insensitive)
    (has (cl_style c) short_case_insensitive).

(** A letter is also asked for without abbreviations and case insensitive long names. *)
Definition spared_letter (c : cmdline) (d : option_description) (x : char) : Prop :=
  spared c d [c_dash; x]
  /\ passes_over (cl_desc c) d [c_dash; x] false false (has (cl_style c) short_case_insensitive).

Section Names.
Variable c : cmdline.
Notation on flag := (has (cl_style c) flag = true).

(** The names a token can be taken for, depending on the style: what the additional parser makes of it; n of "--n" and
    "--n=v", of "-n" and "-n=v", and of "/n" and "/n=v" in the disguised style; and, as the value of another option, the
    token itself if it looks like an option. *)
Inductive could_name (tok : str) : str -> Prop :=
| cn_claimed n v : claimed c tok n v -> could_name tok n
| cn_long n vs : on allow_long -> long_words tok n vs -> could_name tok n
| cn_disguised n m : disguise c tok n -> before_eq n m -> could_name tok m
| cn_token : (exists n v, claimed c tok n v) \/ (exists r, tok = c_dash :: r) \/ (exists r, tok = c_slash :: r) -> could_name tok tok.

(** The letters it can be taken for. *)
Inductive could_letter (tok : str) : char -> Prop :=
| ck_dash r x : on allow_short -> on allow_dash_for_short -> tok = c_dash :: r -> hd c_dash r <> c_dash -> In x r -> could_letter tok x
| ck_slash x r : on allow_short -> on allow_slash_for_short -> tok = c_slash :: x :: r -> could_letter tok x.

(** The token does not mention the new option. *)
Definition silent_on (d : option_description) (tok : str) : Prop :=
  (forall s, could_name tok s -> spared c d s) /\ (forall x, could_letter tok x -> spared_letter c d x).

End Names.

(** The names (with the section) that the entries of a config file assign to. *)
Inductive assigns : str -> list entry -> str -> Prop :=
| as_here sec n v es : assigns sec (Assign n v :: es) (sec ++ n)
| as_later sec n v es n' : assigns sec es n' -> assigns sec (Assign n v :: es) n'
| as_section s sec' sec es n : section_name s sec' -> assigns sec' es n -> assigns sec (Section_ s :: es) n
| as_nothing sec es n : assigns sec es n -> assigns sec (Nothing :: es) n.

(** The source, with other options. *)
Definition with_options (p : parsed_options) (ds : list option_description) : parsed_options :=
  mk_parsed (pr_options p) (Some ds) (pr_prefix p).

(** The source [b] is the source [a], with the new option [d] added somewhere or not. *)
Definition upgraded (d : option_description) (a b : parsed_options * bool) : Prop :=
  b = a \/ exists ds1 ds2, pr_desc (fst a) = Some (ds1 ++ ds2) /\ b = (with_options (fst a) (ds1 ++ d :: ds2), snd a).

(** The options of the source do not mean the new option [d].  (Storing looks for the exact name.) *)
Definition source_silent_on (d : option_description) (a : parsed_options * bool) : Prop :=
  forall ds o, pr_desc (fst a) = Some ds -> In o (pr_options (fst a)) -> po_key o <> [] -> po_unreg o = false ->
    passes_over ds d (po_key o) false false false.
