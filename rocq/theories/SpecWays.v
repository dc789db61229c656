(** Vocabulary for parsers that allow different ways to write options. *)

From Coq Require Import List Ascii String NArith ZArith Bool.
From Verif Require Import Base Errors Spec Values OptDesc SpecLookup Positional Cmdline SpecCmdline SpecReject SpecGrammar.
Import ListNotations.

(** The flags of a style that have an effect on parsing (see C10). *)
Definition style_flags : list Z :=
  [allow_long; allow_short; allow_dash_for_short; allow_slash_for_short; allow_long_disguise; allow_sticky; allow_guessing;
   long_case_insensitive; short_case_insensitive].

(** The parsers differ at most in these flags of their style. *)
Definition differ_only (which : list Z) (c c' : cmdline) : Prop :=
  cl_allow_unregistered c = cl_allow_unregistered c' /\ cl_desc c = cl_desc c' /\ cl_positional c = cl_positional c'
  /\ cl_additional c = cl_additional c' /\ cl_style_parser c = cl_style_parser c'
  /\ forall f, In f style_flags -> ~ In f which -> has (cl_style c) f = has (cl_style c') f.

(** "--n" *)
Definition double_dashed (tok : str) : Prop := exists n, n <> [] /\ tok = dashdash ++ n.
(** "-x..." *)
Definition single_dashed (tok : str) : Prop := exists x rest, x <> c_dash /\ tok = c_dash :: x :: rest.
(** "/x..." *)
Definition slashed (tok : str) : Prop := exists x rest, tok = c_slash :: x :: rest.
(** "-n" or "/n", possibly followed by "=...", where [n] is the name or an abbreviation of an option, or ambiguous *)
Definition disguised_name (c : cmdline) (tok : str) : Prop :=
  exists n m, (single_dashed tok \/ slashed tok) /\ (tok = c_dash :: n \/ tok = c_slash :: n) /\ before_eq n m /\ lookup c m <> Ok None.

(** The token does not use what the flag allows. *)
Definition does_without (c : cmdline) (flag : Z) (tok : str) : Prop :=
  (flag = allow_long -> ~ double_dashed tok)
  /\ (flag = allow_dash_for_short -> ~ single_dashed tok)
  /\ (flag = allow_slash_for_short -> ~ slashed tok)
  /\ (flag = allow_short -> ~ single_dashed tok /\ ~ slashed tok)
  /\ (flag = allow_long_disguise -> ~ disguised_name c tok).

(** The flags for ways to write options *)
Definition ways : list Z := [allow_long; allow_short; allow_dash_for_short; allow_slash_for_short; allow_long_disguise].

(** The options returned differ at most in the member [case_insensitive]. *)
Definition same_but_case (a b : popt) : Prop :=
  po_key a = po_key b /\ po_pos a = po_pos b /\ po_value a = po_value b /\ po_orig a = po_orig b /\ po_unreg a = po_unreg b.

(** No long name is a wildcard. *)
Definition no_wildcards (ds : list option_description) : Prop :=
  Forall (fun d => Forall (fun l => forall p, l <> p ++ [c_star]) (od_longs d)) ds.

(** The names are ASCII, the short ones have no upper-case letter, and no two options have the same name but for the case of letters. *)
Definition fit_for_case (ds : list option_description) : Prop :=
  Forall (fun d => Forall ascii7 (od_longs d) /\ ascii7 (od_short d) /\ lowered (od_short d) (od_short d)) ds
  /\ ForallOrdPairs (fun d d' => forall n sic, full d n true sic -> ~ full d' n true sic) ds.
