(** Vocabulary for the properties of config files and the environment. *)

From Coq Require Import List Ascii String NArith ZArith Bool.
From Verif Require Import Base Errors Spec Values OptDesc Cmdline Parsers ConfigFile.
Import ListNotations.

(** ** Lines *)

Definition blank_char (c : char) : Prop := c = c_space \/ c = c_tab \/ c = c_cr \/ c = c_nl.
Definition blank (s : str) : Prop := Forall blank_char s.

(** No blanks at the ends. *)
Definition trimmed (s : str) : Prop :=
  (forall c t, s = c :: t -> ~ blank_char c) /\ (forall t c, s = t ++ [c] -> ~ blank_char c).

(** Nothing, or '#' and anything. *)
Definition comment (s : str) : Prop := s = [] \/ exists t, s = c_hash :: t.

(** Looks like "[...]". *)
Definition bracketed (s : str) : Prop := exists t, s = [c_lbr] ++ t ++ [c_rbr].

(** What a line of a config file says. *)
Inductive entry :=
| Nothing
| Section_ (s : str)
| Assign (name value : str)
| Junk (s : str).

Inductive line_is : str -> entry -> Prop :=
| li_nothing b cm : blank b -> comment cm -> line_is (b ++ cm) Nothing
| li_section b1 s b2 cm :
    blank b1 -> blank b2 -> without c_hash s -> comment cm ->
    line_is (b1 ++ ([c_lbr] ++ s ++ [c_rbr]) ++ b2 ++ cm) (Section_ s)
| li_assign b1 n b2 b3 v b4 cm :
    blank b1 -> blank b2 -> blank b3 -> blank b4 -> trimmed n -> trimmed v ->
    without c_eq n -> without c_hash n -> without c_hash v -> comment cm ->
    ~ bracketed (n ++ b2 ++ [c_eq] ++ b3 ++ v) ->
    line_is (b1 ++ (n ++ b2 ++ [c_eq] ++ b3 ++ v) ++ b4 ++ cm) (Assign n v)
| li_junk b1 s b2 cm :
    blank b1 -> blank b2 -> trimmed s -> s <> [] -> without c_eq s -> without c_hash s ->
    comment cm -> ~ bracketed s ->
    line_is (b1 ++ s ++ b2 ++ cm) (Junk s).

(** The file with these lines. *)
Definition unlines (ls : list str) : str := List.concat (map (fun l => l ++ [c_nl]) ls).
Definition no_newlines (ls : list str) : Prop := Forall (without c_nl) ls.

(** [content] consists of the lines [ls]; the last one need not end in a newline. *)
Definition lines_of (content : str) (ls : list str) : Prop :=
  no_newlines ls
  /\ (content = unlines ls
      \/ exists ls' l, ls = ls' ++ [l] /\ l <> [] /\ content = unlines ls' ++ l).

(** ** Names *)

(** The first long name of [d]. *)
Definition main_name (d : option_description) (n : str) : Prop :=
  exists q, od_longs d = n :: q.

(** Some option is called [p*]. *)
Definition wildcard (ds : list option_description) (p : str) : Prop :=
  exists d, In d ds /\ main_name d (p ++ [c_star]).

(** Names that are registered: main names and proper extensions of wildcards. *)
Definition accepts (ds : list option_description) (n : str) : Prop :=
  (exists d, In d ds /\ main_name d n)
  \/ (exists p, wildcard ds p /\ prefix_of p n /\ n <> p).

(** All options have a (non-empty) long name, *)
Definition all_named (ds : list option_description) : Prop :=
  Forall (fun d => exists n, main_name d n /\ n <> []) ds.
(** and no wildcard covers another one. *)
Definition compatible (ds : list option_description) : Prop :=
  forall p q, wildcard ds p -> wildcard ds q -> prefix_of p q -> p = q.

(** ** Files *)

(** The prefix that the section [s] adds to names. *)
Definition section_name (s sec : str) : Prop :=
  (exists t, s = t ++ [c_dot]) /\ sec = s
  \/ s <> [] /\ ~ (exists t, s = t ++ [c_dot]) /\ sec = s ++ [c_dot].

(** The option for "name=value". *)
Definition config_option (name value : str) (unregistered : bool) : popt :=
  mk_popt name (-1) [value] [name; value] unregistered false.

(** What reading these entries gives, [sec] being the current section. *)
Inductive reads (ds : list option_description) (allow : bool)
  : str -> list entry -> outcome (list popt) -> Prop :=
| rd_end sec : reads ds allow sec [] (Ok [])
| rd_nothing sec es r : reads ds allow sec es r -> reads ds allow sec (Nothing :: es) r
| rd_section s sec' sec es r :
    section_name s sec' -> reads ds allow sec' es r -> reads ds allow sec (Section_ s :: es) r
| rd_no_section sec es : reads ds allow sec (Section_ [] :: es) (Undef UB_rbegin)
| rd_assign sec n v es r :
    accepts ds (sec ++ n) -> reads ds allow sec es r ->
    reads ds allow sec (Assign n v :: es) (let* os := r in Ok (config_option (sec ++ n) v false :: os))
| rd_unregistered sec n v es r :
    ~ accepts ds (sec ++ n) -> allow = true -> reads ds allow sec es r ->
    reads ds allow sec (Assign n v :: es) (let* os := r in Ok (config_option (sec ++ n) v true :: os))
| rd_unknown sec n v es :
    ~ accepts ds (sec ++ n) -> allow = false ->
    reads ds allow sec (Assign n v :: es) (Throw (mk_unknown_option (sec ++ n)))
| rd_junk sec s es : reads ds allow sec (Junk s :: es) (Throw (mk_config_syntax s unrecognized_line)).

(** The options that [parse_config_file] returns. *)
Definition config (ds : list option_description) (allow : bool) (content : str) : outcome (list popt) :=
  let* p := parse_config_file content ds allow in Ok (pr_options p).

(** Files with the same meaning, line by line, but for lines that say nothing. *)
Inductive same_file : list str -> list str -> Prop :=
| sf_nil : same_file [] []
| sf_line l l' e ls ls' :
    line_is l e -> line_is l' e -> same_file ls ls' -> same_file (l :: ls) (l' :: ls')
| sf_left l ls ls' : line_is l Nothing -> same_file ls ls' -> same_file (l :: ls) ls'
| sf_right l ls ls' : line_is l Nothing -> same_file ls ls' -> same_file ls (l :: ls').

(** The line [l'] is [l] with [sec] before the name. *)
Inductive prefixed (sec : str) : str -> str -> Prop :=
| px_assign l l' n v : line_is l (Assign n v) -> line_is l' (Assign (sec ++ n) v) -> prefixed sec l l'
| px_nothing l l' : line_is l Nothing -> line_is l' Nothing -> prefixed sec l l'
| px_junk l l' s : line_is l (Junk s) -> line_is l' (Junk s) -> prefixed sec l l'.

Definition no_section (l : str) : Prop := forall s, ~ line_is l (Section_ s).
Definition starts_section (ls : list str) : Prop :=
  ls = [] \/ exists l ls' s, ls = l :: ls' /\ line_is l (Section_ s).

(** ** Environment *)

(** The option for a variable. *)
Definition env_option (name value : str) : popt := mk_popt name (-1) [value] [] false false.

(** Exactly the variables whose name is the prefix followed by something are options:
    the something in lower case. *)
Inductive env_options (prefix : str) : list (str * str) -> list popt -> Prop :=
| eo_nil : env_options prefix [] []
| eo_skip n v vars os :
    (~ prefix_of prefix n \/ n = prefix) -> env_options prefix vars os ->
    env_options prefix ((n, v) :: vars) os
| eo_take n rest key v vars os :
    n = prefix ++ rest -> rest <> [] -> lowered rest key -> env_options prefix vars os ->
    env_options prefix ((n, v) :: vars) (env_option key v :: os).

(** The environment with these variables. *)
Definition environ (vars : list (str * str)) : list str :=
  map (fun nv => fst nv ++ [c_eq] ++ snd nv) vars.
