(** The language of command lines: which command lines are accepted, and what they mean.  Nothing here computes; a
    command line has a meaning if there is a way to read it by the following rules. *)

From Coq Require Import List Ascii String NArith ZArith Bool.
From Verif Require Import Base Errors Spec Values OptDesc SpecLookup Positional Cmdline SpecCmdline SpecReject.
Import ListNotations.

Section Grammar.
Variable c : cmdline.

Notation on flag := (has (cl_style c) flag = true).

(** ** One token *)

(** A name as it was written, the values written in the same token, and the tokens it will quote. *)
Record mention := mk_mention { mn_name : str; mn_values : list str; mn_tokens : list str }.

(** The value [v] is there unless it is empty. *)
Definition perhaps (v : str) : list str := match v with [] => [] | _ => [v] end.

(** The additional parser makes the option [n] with the value [v] of the token. *)
Definition claimed (tok n v : str) : Prop := exists f, cl_additional c = Some f /\ f tok = (n, v) /\ n <> [].
Definition unclaimed (tok : str) : Prop := forall n v, ~ claimed tok n v.

(** "--n", or "--n=v" with a value that is not empty. *)
Inductive long_words : str -> str -> list str -> Prop :=
| lw_bare n : n <> [] -> without c_eq n -> long_words (dashdash ++ n) n []
| lw_value n v : without c_eq n -> v <> [] -> long_words (dashdash ++ n ++ [c_eq] ++ v) n [v].

(** [m] is the part of [n] before the first '=', if there is one. *)
Definition before_eq (n m : str) : Prop := without c_eq m /\ (n = m \/ exists v, n = m ++ [c_eq] ++ v).

(** [tok] could be the long option [n] in disguise, "-n" or "/n". *)
Definition disguise (tok n : str) : Prop :=
  on allow_long_disguise /\ n <> []
  /\ ((tok = c_dash :: n /\ hd c_eq n <> c_dash) \/ (tok = c_slash :: n /\ on allow_slash_for_short)).

(** Short options, first without regard to abbreviations and to the case of long names: *)
Definition short_lookup (x : char) : outcome (option option_description) :=
  find_nothrow (cl_desc c) [c_dash; x] false false (has (cl_style c) short_case_insensitive).

(** "-x" followed by [adjacent]: in the sticky style a letter that takes no value is followed by another letter,
    otherwise the rest is the value.  The token is quoted by the last one. *)
Inductive short_group (tok : str) : char -> str -> list mention -> Prop :=
| sg_last x adjacent od :
    short_lookup x = Ok od ->
    adjacent = [] \/ ~ on allow_sticky \/ od = None \/ (exists d, od = Some d /\ vs_max (od_sem d) <> 0%Z) ->
    short_group tok x adjacent [mk_mention [c_dash; x] (perhaps adjacent) [tok]]
| sg_flag x y adjacent d ms :
    on allow_sticky -> short_lookup x = Ok (Some d) -> vs_max (od_sem d) = 0%Z -> short_group tok y adjacent ms ->
    short_group tok x (y :: adjacent) (mk_mention [c_dash; x] [] [] :: ms).

(** The token stands for these options. *)
Inductive stands_for (tok : str) : list mention -> Prop :=
| sf_claimed n v : claimed tok n v -> stands_for tok [mk_mention n (perhaps v) []]
| sf_long n vs : unclaimed tok -> on allow_long -> long_words tok n vs -> stands_for tok [mk_mention n vs [tok]]
| sf_disguised n m d name vs :
    unclaimed tok -> disguise tok n -> before_eq n m -> lookup c m = Ok (Some d) -> long_words (dashdash ++ n) name vs ->
    stands_for tok [mk_mention name vs [dashdash ++ n]]
| sf_short x adjacent ms :
    unclaimed tok -> on allow_short -> on allow_dash_for_short -> tok = c_dash :: x :: adjacent -> x <> c_dash ->
    (forall n m, disguise tok n -> before_eq n m -> lookup c m = Ok None) ->
    short_group tok x adjacent ms -> stands_for tok ms
| sf_slash x adjacent :
    unclaimed tok -> on allow_short -> on allow_slash_for_short -> tok = c_slash :: x :: adjacent ->
    (forall n m, disguise tok n -> before_eq n m -> lookup c m = Ok None) ->
    stands_for tok [mk_mention [c_dash; x] (perhaps adjacent) [tok]].

(** The token does not look like an option. *)
Definition ordinary (tok : str) : Prop :=
  unclaimed tok
  /\ ~ (on allow_long /\ exists n, n <> [] /\ tok = dashdash ++ n)
  /\ (forall n m, disguise tok n -> before_eq n m -> lookup c m = Ok None)
  /\ ~ (on allow_short /\ on allow_dash_for_short /\ exists x adjacent, x <> c_dash /\ tok = c_dash :: x :: adjacent)
  /\ ~ (on allow_short /\ on allow_slash_for_short /\ exists x adjacent, tok = c_slash :: x :: adjacent).

(** ** Values in the following tokens *)

(** A token that an option which needs it takes for a value: one that does not look like an option, or does but is,
    dashes included, not the name of one. *)
Definition may_be_value (tok : str) : Prop :=
  ordinary tok \/ ((exists ms, stands_for tok ms) /\ lookup c tok = Ok None).

(** What a command line consists of: options; arguments; arguments behind "--". *)
Inductive item :=
| Option_ (key : str) (unregistered : bool) (values tokens : list str)
| Argument (value token : str)
| Verbatim (token : str).

(** The option that is mentioned, with the tokens it needs of those that follow, and the tokens left. *)
Inductive completed : mention -> list str -> item -> list str -> Prop :=
| cm_nameless v t rest : completed (mk_mention [] [v] [t]) rest (Argument v t) rest
| cm_unknown n vs ts rest :
    n <> [] -> lookup c n = Ok None -> cl_allow_unregistered c = true ->
    completed (mk_mention n vs ts) rest (Option_ n true vs ts) rest
| cm_known n vs ts d key taken rest :
    n <> [] -> lookup c n = Ok (Some d) -> is_key d n key ->
    (vs <> [] -> vs_max (od_sem d) <> 0%Z) ->
    Z.of_nat (List.length taken) = Z.max 0 (vs_min (od_sem d) - Z.of_nat (List.length vs)) ->
    Forall may_be_value taken ->
    completed (mk_mention n vs ts) (taken ++ rest) (Option_ key false (vs ++ taken) (ts ++ taken)) rest.

(** Of several options in one token the last can take further tokens. *)
Inductive all_completed : list mention -> list str -> list item -> list str -> Prop :=
| ac_last m rest i rest' : completed m rest i rest' -> all_completed [m] rest [i] rest'
| ac_more m ms rest i is rest' :
    completed m [] i [] -> all_completed ms rest is rest' -> all_completed (m :: ms) rest (i :: is) rest'.

(** ** The command line *)

Inductive consists_of : list str -> list item -> Prop :=
| co_end : consists_of [] []
| co_option tok rest ms is rest' is' :
    stands_for tok ms -> all_completed ms rest is rest' -> consists_of rest' is' ->
    consists_of (tok :: rest) (is ++ is')
| co_dashes rest : ordinary dashdash -> consists_of (dashdash :: rest) (map Verbatim rest)
| co_argument tok rest is :
    ordinary tok -> tok <> dashdash -> consists_of rest is -> consists_of (tok :: rest) (Argument tok tok :: is).

(** How many values an option with [n] values can take in addition. *)
Inductive capacity (d : option_description) (n : nat) : option nat -> Prop :=
| rm_none : (vs_max (od_sem d) <= vs_min (od_sem d) \/ vs_max (od_sem d) <= Z.of_nat n)%Z -> capacity d n (Some 0)
| rm_limited k :
    (vs_min (od_sem d) < vs_max (od_sem d) < UINT_MAX)%Z -> (vs_max (od_sem d) = Z.of_nat n + Z.of_nat k)%Z ->
    capacity d n (Some k)
| rm_unlimited : (vs_min (od_sem d) < vs_max (od_sem d))%Z -> vs_max (od_sem d) = UINT_MAX -> capacity d n None.

Definition starts_with_argument (is : list item) : Prop := exists v t is', is = Argument v t :: is'.

(** Options with room take the arguments that follow them directly. *)
Inductive gathered : list item -> list item -> Prop :=
| ga_end : gathered [] []
| ga_argument v t is is' : gathered is is' -> gathered (Argument v t :: is) (Argument v t :: is')
| ga_verbatim t is is' : gathered is is' -> gathered (Verbatim t :: is) (Verbatim t :: is')
| ga_unknown key u vs ts is is' :
    lookup c key = Ok None -> gathered is is' -> gathered (Option_ key u vs ts :: is) (Option_ key u vs ts :: is')
| ga_known key u vs ts d more k is is' :
    lookup c key = Ok (Some d) -> capacity d (List.length vs) k ->
    (forall limit, k = Some limit -> List.length more <= limit) ->
    k = Some (List.length more) \/ ~ starts_with_argument is ->
    gathered is is' ->
    gathered (Option_ key u vs ts :: map (fun vt => Argument (fst vt) (snd vt)) more ++ is)
             (Option_ key u (vs ++ map fst more) (ts ++ map snd more) :: is').

(** ** The result *)

(** The name of the argument number [k]. *)
Inductive argument_name (k : nat) : str -> Prop :=
| an_none : cl_positional c = None -> argument_name k []
| an_named p name : cl_positional c = Some p -> (Z.of_nat k < max_total_count p)%Z ->
    name_for_position p (Z.of_nat k) = Ok name -> argument_name k name.

(** The case flag of an option with this name. *)
Definition case_flag (key : str) (b : bool) : Prop :=
  (long_key key -> b = has (cl_style c) long_case_insensitive)
  /\ (~ long_key key -> b = has (cl_style c) short_case_insensitive).

(** The options returned; the next argument has the number [k]. *)
Inductive returned : nat -> list item -> list popt -> Prop :=
| rt_end k : returned k [] []
| rt_option k key u vs ts b is os :
    case_flag key b -> returned k is os -> returned k (Option_ key u vs ts :: is) (mk_popt key (-1) vs ts u b :: os)
| rt_argument k v t name b is os :
    argument_name k name -> case_flag name b -> returned (S k) is os ->
    returned k (Argument v t :: is) (mk_popt name (Z.of_nat k) [v] [t] false b :: os)
| rt_verbatim k t name b is os :
    argument_name k name -> case_flag name b -> returned (S k) is os ->
    returned k (Verbatim t :: is) (mk_popt name (Z.of_nat k) [t] [t] false b :: os).

(** The command line [args] means the options [os]. *)
Definition means (args : list str) (os : list popt) : Prop :=
  exists is is', consists_of args is /\ gathered is is' /\ returned 0 is' os.

End Grammar.
