(** Vocabulary for whole programs: read sources, store each, and notify. *)

From Coq Require Import List Ascii String NArith ZArith Bool.
From Verif Require Import Base Errors Spec Values OptDesc SpecLookup Positional Cmdline SpecCmdline Parsers ConfigFile SpecConfig VarMap SpecStore.
Import ListNotations.

(** ** Programs *)

Inductive input :=
| Arguments (c : cmdline) (args : list str)
| File (allow_unregistered : bool) (content : str)
| Environment (mapper : str -> outcome str) (env : list str).

(** Parse the source for these options. *)
Definition read_input (ds : list option_description) (i : input) : outcome parsed_options :=
  match i with
  | Arguments c args => parser_run (List.length args) c args
  | File allow content => parse_config_file content ds allow
  | Environment mapper env => parse_environment env ds mapper
  end.

(** Parse and store the sources in turn. *)
Fixpoint load (ds : list option_description) (inputs : list input) (vm : variables_map) : variables_map * outcome unit :=
  match inputs with
  | [] => (vm, Ok tt)
  | i :: inputs' =>
      match read_input ds i with
      | Ok p => match store p vm false with
                | (vm', Ok _) => load ds inputs' vm'
                | r => r
                end
      | Throw e => (vm, Throw e)
      | Undef u => (vm, Undef u)
      | NoFuel => (vm, NoFuel)
      end
  end.

(** The program: it ends with the first exception. *)
Definition main_program (ds : list option_description) (inputs : list input) : list event * outcome unit :=
  match load ds inputs vm_new with
  | (vm, Ok _) => notify vm
  | (_, r) => ([], r)
  end.

(** ** Conditions *)

(** All the names of an option. *)
Definition all_names (d : option_description) : list str :=
  match od_short d with [] => od_longs d | s => s :: od_longs d end.

(** Every option has a long name, no name is empty or contains a '*', no two options have a name in common, and all values have
    types of the library. *)
Record orderly (ds : list option_description) : Prop := {
  or_long : Forall (fun d => od_longs d <> []) ds;
  or_names : Forall (fun d => Forall (fun n => n <> [] /\ ~ In c_star n) (od_longs d)) ds;
  or_distinct : ForallOrdPairs (fun d d' => forall n, In n (all_names d) -> ~ In n (all_names d')) ds;
  or_library : Forall (fun d => exists t, library_semantic t (od_sem d)) ds }.

(** Nothing but ASCII, and not even in different case a common name. *)
Definition orderly_without_case (ds : list option_description) : Prop :=
  Forall (fun d => Forall ascii7 (all_names d)) ds
  /\ ForallOrdPairs (fun d d' => forall n n', In n (all_names d) -> In n' (all_names d') -> ~ same_up_to_case n n') ds.

(** The sources: any command line of less than 2^31-1 arguments (if the style ignores the case of names, with ASCII in what looks like
    an option); any file without a line "[]"; any environment of variables, with any function for the names that returns or throws. *)
Definition suitable (ds : list option_description) (i : input) : Prop :=
  match i with
  | Arguments c args =>
      cl_desc c = ds /\ cl_style_parser c = None /\ cl_additional c = None /\ (Z.of_nat (List.length args) < INT_MAX)%Z
      /\ (case_sensitive c \/ orderly_without_case ds /\ Forall (fun tok => option_like tok -> ascii7 tok) args)
  | File allow content => forall ls, lines_of content ls -> forall l, In l ls -> ~ line_is l (Section_ [])
  | Environment mapper env =>
      (exists vars, env = environ vars /\ Forall (fun nv => without c_eq (fst nv)) vars)
      /\ (forall n, (exists m, mapper n = Ok m) \/ exists e, mapper n = Throw e)
  end.

(** The value is, or contains, a boolean. *)
Fixpoint boolean (t : vty) : Prop :=
  match t with TBool => True | TVec t | TOpt t => boolean t | _ => False end.
Definition no_booleans (ds : list option_description) : Prop :=
  Forall (fun d => exists t, library_semantic t (od_sem d) /\ ~ boolean t) ds.

(** The source is in ASCII. *)
Definition ascii_input (i : input) : Prop :=
  match i with
  | Arguments _ args => Forall ascii7 args
  | File _ content => ascii7 content
  | Environment _ env => Forall ascii7 env
  end.
