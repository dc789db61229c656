(** Vocabulary for the properties of the command line parser. *)

From Coq Require Import List Ascii String NArith ZArith Bool.
From Verif Require Import Base Errors Spec Values OptDesc SpecLookup Positional Cmdline.
Import ListNotations.

(** The parser as a function of its arguments.  Theorem [C11_run_terminates] shows that
    this many steps always suffice and that more change nothing. *)
Definition parse (c : cmdline) (args : list str) : outcome (list popt) :=
  run (List.length args) c args.

(** No parsing function supplied by the user. *)
Definition plain (c : cmdline) : Prop := cl_style_parser c = None /\ cl_additional c = None.

(** The command line token "--". *)
Definition dashdash : str := [c_dash; c_dash].

(** The original tokens of a list of options, in order. *)
Definition tokens_of (os : list popt) : list str := List.concat (map po_orig os).

(** How many of the options are positional. *)
Definition positionals (os : list popt) : list popt :=
  filter (fun o => negb (Z.eqb (po_pos o) (-1))) os.
Definition count_positionals (os : list popt) : Z := Z.of_nat (List.length (positionals os)).

(** [o] is the positional option number [k] for the token [tok]. *)
Definition positional_item (k : Z) (tok : str) (o : popt) : Prop :=
  po_key o = [] /\ po_pos o = k /\ po_value o = [tok] /\ po_orig o = [tok] /\ po_unreg o = false.

Fixpoint positional_items (k : Z) (toks : list str) (os : list popt) : Prop :=
  match toks, os with
  | [], [] => True
  | t :: toks', o :: os' => positional_item k t o /\ positional_items (k + 1) toks' os'
  | _, _ => False
  end.

(** [x] throws an exception of this class. *)
Definition fails_with {A} (x : outcome A) (k : exn_class) : Prop :=
  exists e, x = Throw e /\ ex_class e = k.

(** The name can be looked up without an ambiguity. *)
Definition unambiguous (c : cmdline) (name : str) : Prop := exists r, lookup c name = Ok r.

(** The typed name resolves to an option with (non-empty) canonical key [key] that
    accepts exactly one given value: it does not need more than one and may have one. *)
Definition takes_one (c : cmdline) (typed key : str) : Prop :=
  exists d, lookup c typed = Ok (Some d) /\ (vs_min (od_sem d) <= 1)%Z /\ vs_max (od_sem d) <> 0%Z
    /\ is_key d typed key /\ key <> [] /\ unambiguous c key.

(** Short names are looked up twice, the first time without regard to
    [long_case_insensitive]; this excludes the styles in which that matters. *)
Definition short_style_ok (c : cmdline) (x : char) : Prop :=
  let lic := has (cl_style c) long_case_insensitive in
  let sic := has (cl_style c) short_case_insensitive in
  has (cl_style c) allow_long_disguise = false
  /\ foldable (cl_desc c) [c_dash; x] lic sic
  /\ (lic = true -> sic = true /\ Forall plain_longs (cl_desc c)).

(** [tok] is a way to write the option [typed] with the value [v] in one token. *)
Inductive spelled (c : cmdline) : str -> str -> str -> Prop :=
| sp_long n v :
    has (cl_style c) allow_long = true -> n <> [] -> without c_eq n -> v <> [] ->
    spelled c (dashdash ++ n ++ [c_eq] ++ v) n v
| sp_short x v :
    has (cl_style c) allow_short = true -> has (cl_style c) allow_dash_for_short = true ->
    short_style_ok c x -> x <> c_dash -> v <> [] ->
    spelled c ([c_dash; x] ++ v) [c_dash; x] v
| sp_slash x v :
    has (cl_style c) allow_short = true -> has (cl_style c) allow_slash_for_short = true ->
    has (cl_style c) allow_long_disguise = false -> v <> [] ->
    spelled c ([c_slash; x] ++ v) [c_dash; x] v.

(** The named options [res] have these keys, values and original tokens. *)
Definition named_options (keys : list str) (values origs : list (list str)) (res : list popt)
  : Prop :=
  map po_key res = keys /\ map po_value res = values /\ map po_orig res = origs
  /\ Forall (fun o => po_pos o = (-1)%Z /\ po_unreg o = false) res.

(** Options that differ at most in the original tokens. *)
Definition same_option (a b : popt) : Prop :=
  po_key a = po_key b /\ po_pos a = po_pos b /\ po_value a = po_value b
  /\ po_unreg a = po_unreg b /\ po_ci a = po_ci b.

Definition case_sensitive (c : cmdline) : Prop :=
  has (cl_style c) long_case_insensitive = false /\ has (cl_style c) short_case_insensitive = false.

(** '-a' is the short name of a registered option that takes no value. *)
Definition is_flag (c : cmdline) (a : char) : Prop :=
  exists d, In d (cl_desc c) /\ od_short d = [c_dash; a]
    /\ vs_max (od_sem d) = 0%Z /\ (vs_min (od_sem d) <= 0)%Z
    /\ lookup c [c_dash; a] = Ok (Some d).

(** Styles in which each enabled kind of option has a way to take its value, and short
    options have an introducing character.  Bits: 0 allow_long, 1 allow_short, 2
    allow_dash_for_short, 3 allow_slash_for_short, 4 long_allow_adjacent, 5
    long_allow_next, 6 short_allow_adjacent, 7 short_allow_next, 12 allow_long_disguise. *)
Definition consistent_style (s : Z) : Prop :=
  (bit s 0 \/ bit s 12 -> bit s 4 \/ bit s 5)
  /\ (bit s 1 -> bit s 6 \/ bit s 7)
  /\ (bit s 1 -> bit s 2 \/ bit s 3).

(** [s1] and [s2] agree on every bit but 4 to 7 (16, 32, 64, 128: the adjacent/next
    flags). *)
Definition same_but_adjacency (s1 s2 : Z) : Prop :=
  forall k, (0 <= k)%Z -> ~ (4 <= k <= 7)%Z -> Z.testbit s1 k = Z.testbit s2 k.

Definition with_style (c : cmdline) (s : Z) : cmdline :=
  mk_cl s (cl_allow_unregistered c) (cl_desc c) (cl_positional c) (cl_additional c) (cl_style_parser c).

(** [c] without its additional parser. *)
Definition without_additional (c : cmdline) : cmdline :=
  mk_cl (cl_style c) (cl_allow_unregistered c) (cl_desc c) (cl_positional c) None (cl_style_parser c).

(** The option has a name of its own: its first long name, or if there is none its short
    name, is not empty. *)
Definition has_name (d : option_description) : Prop :=
  match od_longs d with [] => od_short d <> [] | l :: _ => l <> [] end.

(** Sensible numbers of tokens. *)
Definition sensible (d : option_description) : Prop :=
  (0 <= vs_min (od_sem d))%Z /\ (0 <= vs_max (od_sem d) <= UINT_MAX)%Z.

(** The style distinguishes case, or ignores it (also for long options) and the names of the
    options are ASCII. *)
Definition case_fine (c : cmdline) : Prop :=
  case_sensitive c
  \/ has (cl_style c) long_case_insensitive = true
     /\ Forall (fun d => Forall ascii7 (od_longs d) /\ ascii7 (od_short d)) (cl_desc c).

(** The command line token [tok] names the option [typed]. *)
Inductive names (c : cmdline) (tok : str) : str -> Prop :=
| nm_long n :
    has (cl_style c) allow_long = true -> tok = dashdash ++ n -> n <> [] -> without c_eq n ->
    names c tok n
| nm_long_value n v :
    has (cl_style c) allow_long = true -> tok = dashdash ++ n ++ [c_eq] ++ v -> v <> [] ->
    n <> [] -> without c_eq n -> names c tok n
| nm_short x adj :
    has (cl_style c) allow_short = true -> has (cl_style c) allow_dash_for_short = true ->
    tok = c_dash :: x :: adj -> x <> c_dash -> names c tok [c_dash; x]
| nm_sticky flags x adj :
    has (cl_style c) allow_short = true -> has (cl_style c) allow_dash_for_short = true ->
    has (cl_style c) allow_sticky = true ->
    tok = c_dash :: flags ++ x :: adj -> hd x flags <> c_dash -> names c tok [c_dash; x]
| nm_slash x adj :
    has (cl_style c) allow_short = true -> has (cl_style c) allow_slash_for_short = true ->
    tok = c_slash :: x :: adj -> names c tok [c_dash; x]
| nm_disguised b n :
    has (cl_style c) allow_long_disguise = true -> b = c_dash \/ b = c_slash ->
    tok = b :: n -> n <> [] -> without c_eq n -> names c tok n
| nm_disguised_value b n v :
    has (cl_style c) allow_long_disguise = true -> b = c_dash \/ b = c_slash ->
    tok = b :: n ++ [c_eq] ++ v -> v <> [] -> n <> [] -> without c_eq n -> names c tok n
| nm_additional f n v :
    cl_additional c = Some f -> f tok = (n, v) -> n <> [] -> names c tok n.

(** [o] is a registered option named by one of the tokens, under its canonical key, with
    an admissible number of values. *)
Definition registered (c : cmdline) (args : list str) (o : popt) : Prop :=
  po_pos o = (-1)%Z /\ po_unreg o = false
  /\ exists tok typed d, In tok args /\ names c tok typed /\ lookup c typed = Ok (Some d)
     /\ is_key d typed (po_key o)
     /\ lookup c (po_key o) = Ok (Some d)
     /\ (vs_min (od_sem d) <= Z.of_nat (List.length (po_value o))
         <= Z.max (vs_min (od_sem d)) (vs_max (od_sem d)))%Z.

(** [o] is an unregistered option named by one of the tokens, under the typed name. *)
Definition unregistered (c : cmdline) (args : list str) (o : popt) : Prop :=
  cl_allow_unregistered c = true /\ po_pos o = (-1)%Z /\ po_unreg o = true
  /\ lookup c (po_key o) = Ok None
  /\ exists tok, In tok args /\ names c tok (po_key o).

(** [o] is a positional option for one of the tokens (for the part after the '=' of
    "--=v"). *)
Definition positional_option (args : list str) (o : popt) : Prop :=
  (0 <= po_pos o)%Z /\ po_unreg o = false
  /\ exists tok v, In tok args /\ po_value o = [v]
     /\ (v = tok /\ po_orig o = [tok]
         \/ v <> [] /\ po_orig o = [dashdash ++ [c_eq] ++ v]
            /\ (tok = dashdash ++ [c_eq] ++ v \/ tok = [c_dash; c_eq] ++ v \/ tok = [c_slash; c_eq] ++ v)).

Definition with_positional (c : cmdline) (p : option positional) : cmdline :=
  mk_cl (cl_style c) (cl_allow_unregistered c) (cl_desc c) p (cl_additional c) (cl_style_parser c).

(** [b] is [a], except that if [a] is positional it has the name for its position (and the
    case flag that goes with a name). *)
Definition renamed (p : positional) (a b : popt) : Prop :=
  po_pos b = po_pos a /\ po_value b = po_value a /\ po_orig b = po_orig a
  /\ po_unreg b = po_unreg a
  /\ (po_pos a = (-1)%Z -> b = a)
  /\ (po_pos a <> (-1)%Z -> name_for_position p (po_pos a) = Ok (po_key b)).

(** [add] calls in order; each block is a name with a count (-1: unlimited). *)
Fixpoint add_all (p : positional) (calls : list (str * Z)) : outcome positional :=
  match calls with
  | [] => Ok p
  | (n, k) :: calls' => let* p' := positional_add p n k in add_all p' calls'
  end.

(** The blocks [name] repeated [count] times, one after the other. *)
Fixpoint expand (blocks : list (str * nat)) : list str :=
  match blocks with
  | [] => []
  | (n, k) :: blocks' => repeat n k ++ expand blocks'
  end.

(** [t] is a way to write the option [typed] without a value. *)
Inductive bare (c : cmdline) : str -> str -> Prop :=
| bare_long n :
    has (cl_style c) allow_long = true -> n <> [] -> without c_eq n -> bare c (dashdash ++ n) n
| bare_short x :
    has (cl_style c) allow_short = true -> has (cl_style c) allow_dash_for_short = true ->
    has (cl_style c) allow_long_disguise = false -> case_sensitive c -> x <> c_dash ->
    bare c [c_dash; x] [c_dash; x].

(** A token that no style reads as an option. *)
Definition word (v : str) : Prop :=
  v = [] \/ v = [c_dash] \/ v = dashdash
  \/ exists x s, v = x :: s /\ x <> c_dash /\ x <> c_slash.

(** A token that an option in need of a value takes as its value: a word, or a token that
    looks like an option but, dashes included, is not the name of one. *)
Inductive value_token (c : cmdline) : str -> Prop :=
| vt_word v : word v -> value_token c v
| vt_long n : n <> [] -> (forall m, n = m ++ [c_eq] -> In c_eq m) ->
    lookup c (dashdash ++ n) = Ok None -> value_token c (dashdash ++ n)
| vt_short x s : case_sensitive c -> x <> c_dash -> Forall (fun y => unambiguous c [c_dash; y]) (x :: s) ->
    lookup c (c_dash :: x :: s) = Ok None -> value_token c (c_dash :: x :: s)
| vt_slash s : lookup c (c_slash :: s) = Ok None -> value_token c (c_slash :: s).

(** Short names have one letter. *)
Definition one_letter_short (d : option_description) : Prop :=
  od_short d = [] \/ exists x, od_short d = [c_dash; x].

(** The first long name, if there is one, has no star. *)
Definition plain_key (d : option_description) : Prop :=
  match od_longs d with [] => True | first :: _ => ~ In c_star first end.

(** [max_tokens] is a number an [int] can hold, or "unlimited". *)
Definition fits (d : option_description) : Prop :=
  (vs_max (od_sem d) <= INT_MAX \/ vs_max (od_sem d) = UINT_MAX)%Z.

(** The token starts like an option. *)
Definition option_like (tok : str) : Prop := exists x s, tok = x :: s /\ (x = c_dash \/ x = c_slash).

(** [x] executes no undefined behaviour. *)
Definition defined {A} (x : outcome A) : Prop := forall u, x <> Undef u.

(** [tok] writes the option [typed], with or without a value. *)
Definition writes (c : cmdline) (tok typed : str) : Prop :=
  bare c tok typed \/ (case_sensitive c /\ exists v, spelled c tok typed v).

(** The additional parser maps [tok] to an option with key [key] and these values. *)
Definition mapped (c : cmdline) (f : str -> str * str) (tok : str) (kv : str * str) : Prop :=
  exists typed d, f tok = (typed, snd kv) /\ typed <> [] /\ lookup c typed = Ok (Some d)
    /\ is_key d typed (fst kv) /\ fst kv <> [] /\ unambiguous c (fst kv)
    /\ (snd kv = [] -> (vs_min (od_sem d) <= 0)%Z)
    /\ (snd kv <> [] -> (vs_min (od_sem d) <= 1)%Z /\ vs_max (od_sem d) <> 0%Z).

(** [b] may introduce the long option [rest] in disguise: '-' (if [rest] does not start
    with another one), or '/' if that is enabled. *)
Definition disguise_char (c : cmdline) (b : char) (rest : str) : Prop :=
  b = c_dash /\ hd c_eq rest <> c_dash \/ b = c_slash /\ has (cl_style c) allow_slash_for_short = true.

(** [tok] writes an option that is complete: it cannot take any further tokens.  Its key
    and values are these. *)
Inductive complete (c : cmdline) : str -> str -> list str -> Prop :=
| cp_value tok typed v key d :
    plain c -> spelled c tok typed v -> lookup c typed = Ok (Some d) -> is_key d typed key -> key <> [] ->
    lookup c key = Ok (Some d) -> (vs_min (od_sem d) <= 1)%Z -> vs_max (od_sem d) = 1%Z ->
    complete c tok key [v]
| cp_flag tok typed key d :
    plain c -> bare c tok typed -> lookup c typed = Ok (Some d) -> is_key d typed key -> key <> [] ->
    lookup c key = Ok (Some d) -> vs_min (od_sem d) = 0%Z -> vs_max (od_sem d) = 0%Z ->
    complete c tok key []
| cp_mapped tok f key v d :
    cl_style_parser c = None -> cl_additional c = Some f -> mapped c f tok (key, v) ->
    lookup c key = Ok (Some d) -> (vs_max (od_sem d) <= (if is_empty v then 0 else 1))%Z ->
    complete c tok key (if is_empty v then [] else [v]).
