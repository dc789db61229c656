(** Vocabulary for C108: what the help says an option is called, typed on a command line. *)

From Coq Require Import List Ascii String NArith ZArith Bool.
From Verif Require Import Base Errors Spec Values OptDesc SpecLookup Positional Cmdline SpecCmdline SpecFormat.
Import ListNotations.

(** The help shows the word [w] for the option, which is its name [n]. *)
Inductive shown_word (d : option_description) : str -> str -> Prop :=
| sw_short x : od_short d = [c_dash; x] -> shown_word d [c_dash; x] [c_dash; x]
| sw_long l ls : od_longs d = l :: ls -> shown_word d ($"--" ++ l) l.

(** [n] is a name of [d], and of no other of these options. *)
Definition sole_owner (ds : list option_description) (d : option_description) (n : str) : Prop :=
  exists before after, ds = before ++ d :: after
    /\ forall d', In d' (before ++ after) -> ~ In n (od_longs d') /\ od_short d' <> n.

(** The names of the option are its own, and can be written: they are not empty, the short
    one is not "--", and the one under which the option is filed has no '*'. *)
Record well_named (ds : list option_description) (d : option_description) : Prop := {
  wn_some : od_longs d <> [] \/ od_short d <> [];
  wn_short : od_short d <> [] -> (exists x, od_short d = [c_dash; x] /\ x <> c_dash) /\ sole_owner ds d (od_short d);
  wn_long : forall l ls, od_longs d = l :: ls -> l <> [] /\ without c_eq l /\ ~ In c_star l /\ sole_owner ds d l
}.

(** The name under which the option is filed. *)
Definition filed_as (d : option_description) : str := match od_longs d with l :: _ => l | [] => od_short d end.

(** The usual way to set up a parser: no functions of the user, letter case matters, long
    options and short options with '-' enabled, long options have two dashes. *)
Record usual (c : cmdline) : Prop := {
  us_plain : plain c;
  us_case : case_sensitive c;
  us_long : has (cl_style c) allow_long = true;
  us_short : has (cl_style c) allow_short = true;
  us_dash : has (cl_style c) allow_dash_for_short = true;
  us_disguise : has (cl_style c) allow_long_disguise = false
}.

(** All numbers of values are possible ones. *)
Definition counted (ds : list option_description) : Prop :=
  Forall has_name ds /\ Forall (fun d => sensible d /\ fits d) ds.

(** A word that no option can be taken for. *)
Definition mere_word (v : str) : Prop := ~ option_like v.
