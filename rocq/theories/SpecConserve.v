(** Vocabulary for the effect of [allow_unregistered] and of [allow_guessing]. *)

From Coq Require Import List Ascii String NArith ZArith Bool.
From Verif Require Import Base Errors Spec Values OptDesc SpecLookup Positional Cmdline SpecCmdline SpecGrammar.
Import ListNotations.

(** The parser without and with [allow_unregistered]. *)
Definition strict (c : cmdline) : cmdline :=
  mk_cl (cl_style c) false (cl_desc c) (cl_positional c) (cl_additional c) (cl_style_parser c).
Definition lax (c : cmdline) : cmdline :=
  mk_cl (cl_style c) true (cl_desc c) (cl_positional c) (cl_additional c) (cl_style_parser c).

(** The parser without and with [allow_guessing]. *)
Definition with_style (c : cmdline) (style : Z) : cmdline :=
  mk_cl style (cl_allow_unregistered c) (cl_desc c) (cl_positional c) (cl_additional c) (cl_style_parser c).
Definition exact_names (c : cmdline) : cmdline := with_style c (Z.ldiff (cl_style c) allow_guessing).
Definition abbreviated_names (c : cmdline) : cmdline := with_style c (Z.lor (cl_style c) allow_guessing).

(** All options are registered. *)
Definition all_registered (os : list popt) : Prop := Forall (fun o => po_unreg o = false) os.

(** The parser fails because of an unregistered option. *)
Definition unknown {A} (x : outcome A) : Prop := exists e, x = Throw e /\ ex_class e = unknown_option.

(** No long name is a wildcard. *)
Definition no_wildcards (ds : list option_description) : Prop :=
  Forall (fun d => Forall (fun l => forall p, l <> p ++ [c_star]) (od_longs d)) ds.

(** The token could be an option: it starts with '-' or '/', or the additional parser claims it. *)
Definition option_like (c : cmdline) (tok : str) : Prop :=
  (exists n v, claimed c tok n v) \/ (exists r, tok = c_dash :: r) \/ (exists r, tok = c_slash :: r).

(** The token, as it stands (with its dashes), does not abbreviate a long name. *)
Definition no_abbreviation (c : cmdline) (tok : str) : Prop :=
  forall d, In d (cl_desc c) -> approximate d tok true (has (cl_style c) long_case_insensitive) ->
    full d tok (has (cl_style c) long_case_insensitive) (has (cl_style c) short_case_insensitive).
