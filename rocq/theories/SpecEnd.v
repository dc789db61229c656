(** Vocabulary for whole programs: sources are stored, then [notify] is called. *)

From Coq Require Import List Ascii String NArith ZArith Bool.
From Verif Require Import Base Errors Spec Values OptDesc SpecLookup Cmdline Parsers ConfigFile VarMap SpecCmdline SpecStore.
From Verif Require SpecConfig.
Import ListNotations.

(** The values that these effects assign to the variable at [addr], in order. *)
Definition written (addr : nat) (ev : list event) : list value :=
  flat_map (fun e => match e with
                     | EvStore a v => if Nat.eqb a addr then [v] else []
                     | EvCall _ _ => []
                     end) ev.

(** What the variable holds afterwards, if it held [old] before. *)
Definition afterwards (addr : nat) (old : value) (ev : list event) : value := last (written addr ev) old.

(** Of the options [ds] only [d] assigns to the variable. *)
Definition owned (ds : list option_description) (d : option_description) (addr : nat) : Prop :=
  forall d', In d' ds -> d' <> d -> forall a ev r, vs_notify (od_sem d') a = (ev, r) -> written addr ev = [].

(** The sources call the option [d] by this name only. *)
Definition called (ds : list option_description) (h : history) (d : option_description) (name : str) : Prop :=
  forall p u name', In (p, u) h -> mentions p name' -> find ds name' false false false = Ok d -> name' = name.

(** The usual program: the command line is stored, then the config file, then [notify] is
    called.  Its effects, if no exception is thrown. *)
Definition program (fuel : nat) (ds : list option_description) (style : Z) (args : list str)
    (content : str) (ev : list event) : Prop :=
  exists p1 p2 vm1 vm2,
    parse_command_line fuel args ds style None = Ok p1 /\ store p1 vm_new false = (vm1, Ok tt)
    /\ parse_config_file content ds false = Ok p2 /\ store p2 vm1 false = (vm2, Ok tt)
    /\ notify vm2 = (ev, Ok tt).

(** The maps have the same entries, and the same options are decided. *)
Definition same_values (vm vm' : variables_map) : Prop :=
  (forall name, entry vm name = entry vm' name)
  /\ (forall name, name <> [] -> In name (vm_final vm) <-> In name (vm_final vm')).

(** The sources have the same description and say the same about every option. *)
Definition says_the_same (p p' : parsed_options) : Prop :=
  pr_desc p = pr_desc p' /\ pr_prefix p = pr_prefix p'
  /\ forall name, name <> [] -> occurrences (pr_options p) name = occurrences (pr_options p') name.

(** No option is mentioned by both. *)
Definition disjoint (p p' : parsed_options) : Prop :=
  forall name, name <> [] -> ~ (mentions p name /\ mentions p' name).

(** ** Texts *)

(** The values for [name] in a list of names and values. *)
Definition values_for (name : str) (kvs : list (str * str)) : list str :=
  map snd (filter (fun kv => str_eqb (fst kv) name) kvs).

(** The command line spells these options and values, token by token. *)
Definition command_line_says (ds : list option_description) (style : Z) (args : list str) (kvs : list (str * str)) : Prop :=
  exists s, set_style style = Ok s
  /\ let c := mk_cl s false ds None None None in
     Forall2 (fun tok kv => exists typed, spelled c tok typed (snd kv) /\ takes_one c typed (fst kv)) args kvs.

(** The lines of the config file, [sec] being the current section, assign these values to these (registered) options;
    there may also be sections and lines that say nothing. *)
Inductive file_says (ds : list option_description) : str -> list SpecConfig.entry -> list (str * str) -> Prop :=
| fs_nil sec : file_says ds sec [] []
| fs_nothing sec es nvs : file_says ds sec es nvs -> file_says ds sec (SpecConfig.Nothing :: es) nvs
| fs_section sec s sec' es nvs : SpecConfig.section_name s sec' -> file_says ds sec' es nvs ->
    file_says ds sec (SpecConfig.Section_ s :: es) nvs
| fs_assign sec n v es nvs : SpecConfig.accepts ds (sec ++ n) -> file_says ds sec es nvs ->
    file_says ds sec (SpecConfig.Assign n v :: es) ((sec ++ n, v) :: nvs).
