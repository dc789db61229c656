(** Vocabulary for the reasons why a command line is rejected and for what the errors say about it. *)

From Coq Require Import List Ascii String NArith ZArith Bool.
From Verif Require Import Base Errors Spec Values OptDesc SpecLookup Positional Cmdline SpecCmdline SpecErrors
  Parsers ConfigFile SpecConfig.
Import ListNotations.

(** The parser looks [name] up because of the token [tok]: [tok] names it, it is the token itself (which could
    be the value of another option), it is the part before the '=' of a long option in disguise, or it is the
    canonical key of the option that [tok] names. *)
Inductive looked_up (c : cmdline) (tok : str) : str -> Prop :=
| lu_named name : names c tok name -> looked_up c tok name
| lu_itself : looked_up c tok tok
| lu_disguised b name v :
    has (cl_style c) allow_long_disguise = true -> tok = b :: name ++ [c_eq] ++ v -> looked_up c tok name
| lu_key typed d name :
    names c tok typed -> lookup c typed = Ok (Some d) -> is_key d typed name -> looked_up c tok name.

(** [tok] is "--name=", or "-name=" or "/name=" if such a token may be a long option. *)
Inductive dangling (c : cmdline) : str -> str -> Prop :=
| dg_long n : without c_eq n -> has (cl_style c) allow_long = true -> dangling c (dashdash ++ n ++ [c_eq]) n
| dg_disguised b n : without c_eq n -> has (cl_style c) allow_long_disguise = true -> b = c_dash \/ b = c_slash ->
    dangling c (b :: n ++ [c_eq]) n.

(** [tok] comes with the value [v]: [v] is the end of the token, or what the additional parser makes of it. *)
Definition carries (c : cmdline) (tok v : str) : Prop :=
  v <> [] /\ ((exists a, tok = a ++ v)
              \/ exists f n, cl_additional c = Some f /\ f tok = (n, v)).

(** Why the token [tok], followed by [rest], makes the parser throw [e]: an unknown option, a name that stands
    for several options, *)
Inductive reason (c : cmdline) (tok : str) (rest : list str) (e : exn) : Prop :=
| rs_unknown typed :
    names c tok typed -> lookup c typed = Ok None -> cl_allow_unregistered c = false ->
    ex_class e = unknown_option -> reason c tok rest e
| rs_ambiguous name alts :
    looked_up c tok name ->
    lookup c name = Throw (mk_ambiguous alts)
    \/ find_nothrow (cl_desc c) name false false (has (cl_style c) short_case_insensitive) = Throw (mk_ambiguous alts) ->
    ex_class e = ambiguous_option alts -> reason c tok rest e
(** nothing after the '=', a value for an option that takes none (which the error names), *)
| rs_dangling n :
    dangling c tok n -> ex_class e = invalid_command_line_syntax empty_adjacent_parameter -> reason c tok rest e
| rs_extra typed d v key :
    names c tok typed -> lookup c typed = Ok (Some d) -> vs_max (od_sem d) = 0%Z -> carries c tok v ->
    ex_class e = invalid_command_line_syntax extra_parameter ->
    is_key d typed key -> detail e $"option" = Some key -> reason c tok rest e
(** or missing values (for the option that the error names): too few tokens follow, one of those that should be
    values is the name of an option, or the option is inside a group of short options. *)
| rs_missing typed d key :
    names c tok typed -> lookup c typed = Ok (Some d) -> (1 <= vs_min (od_sem d))%Z ->
    (Z.of_nat (List.length rest) < vs_min (od_sem d))%Z
    \/ (exists mid next post d', rest = mid ++ next :: post /\ (Z.of_nat (List.length mid) < vs_min (od_sem d))%Z
          /\ lookup c next = Ok (Some d'))
    \/ (exists f1 a f2, tok = c_dash :: f1 ++ a :: f2 /\ f2 <> [] /\ typed = [c_dash; a]) ->
    ex_class e = invalid_command_line_syntax missing_parameter ->
    is_key d typed key -> detail e $"option" = Some key -> reason c tok rest e.

(** The text [t] was taken from the token [tok]: it is the token or the name in it, or the token with its
    first character replaced by "--". *)
Definition taken_from (c : cmdline) (tok t : str) : Prop :=
  t = tok \/ names c tok t \/ dangling c tok t \/ exists b n, tok = b :: n /\ t = dashdash ++ n.

(** The error quotes the command line. *)
Definition quotes (c : cmdline) (args : list str) (e : exn) : Prop :=
  exists tok t, In tok args /\ detail e $"original_token" = Some t /\ taken_from c tok t.

(** A name that the library takes for a long one: neither a single character nor '-' and a character. *)
Definition long_key (k : str) : Prop := 2 <= List.length k /\ ~ exists x, k = [c_dash; x].

(** Reading these entries of a config file in the section [sec] leads to the section [sec']. *)
Inductive leads_to : str -> list entry -> str -> Prop :=
| lt_end sec : leads_to sec [] sec
| lt_section s sec1 sec sec' es :
    section_name s sec1 -> leads_to sec1 es sec' -> leads_to sec (Section_ s :: es) sec'
| lt_other e sec sec' es :
    (forall s, e <> Section_ s) -> leads_to sec es sec' -> leads_to sec (e :: es) sec'.
