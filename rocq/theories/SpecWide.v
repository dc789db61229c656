(** Vocabulary for the values of command line options and for the wide character interfaces. *)

From Coq Require Import List Ascii String NArith ZArith Bool.
From Verif Require Import Base Errors Spec Values OptDesc SpecLookup Positional Cmdline SpecCmdline Parsers Convert
  SpecConvert VarMap SpecStore Wide.
Import ListNotations.

(** ** Where values come from *)

(** [v] is the value written in the token [tok] together with an option name. *)
Inductive attached (c : cmdline) (tok : str) : str -> Prop :=
| at_long n v :
    has (cl_style c) allow_long = true -> without c_eq n -> tok = dashdash ++ n ++ [c_eq] ++ v -> attached c tok v
| at_short x v :
    has (cl_style c) allow_short = true -> has (cl_style c) allow_dash_for_short = true ->
    x <> c_dash -> tok = [c_dash; x] ++ v -> attached c tok v
| at_sticky flags x v :
    has (cl_style c) allow_short = true -> has (cl_style c) allow_dash_for_short = true ->
    has (cl_style c) allow_sticky = true -> flags <> [] -> hd c_dash flags <> c_dash ->
    tok = [c_dash] ++ flags ++ [x] ++ v -> attached c tok v
| at_slash x v :
    has (cl_style c) allow_short = true -> has (cl_style c) allow_slash_for_short = true ->
    tok = [c_slash; x] ++ v -> attached c tok v
| at_disguised b n v :
    has (cl_style c) allow_long_disguise = true -> b = c_dash \/ b = c_slash ->
    without c_eq n -> tok = [b] ++ n ++ [c_eq] ++ v -> attached c tok v.

(** The values [vs] come from the tokens [args] in this order, at most one from each: the whole token, or a
    non-empty value attached to a name. *)
Inductive supplies (c : cmdline) : list str -> list str -> Prop :=
| su_nil : supplies c [] []
| su_none tok args vs : supplies c args vs -> supplies c (tok :: args) vs
| su_whole tok args vs : supplies c args vs -> supplies c (tok :: args) (tok :: vs)
| su_attached tok v args vs : v <> [] -> attached c tok v -> supplies c args vs -> supplies c (tok :: args) (v :: vs).

Definition values_in_order (os : list popt) : list str := List.concat (map po_value os).

(** ** Wide characters *)

(** Characters that UTF-8 (in its original form) can represent. *)
Definition wide_text (w : wstr) : Prop := Forall (fun x => x < 2 ^ 31)%N w.

(** [w] is [o] with values and tokens in wide characters. *)
Definition wide_of (w : woption) (o : popt) : Prop :=
  wo_key w = po_key o /\ wo_pos w = po_pos o /\ wo_unreg w = po_unreg o
  /\ Forall2 utf8_text (wo_value w) (po_value o) /\ Forall2 utf8_text (wo_orig w) (po_orig o).

(** Bytes outside ASCII are no short options. *)
Definition ascii_shorts (c : cmdline) : Prop :=
  has (cl_style c) allow_short = false
  \/ (cl_allow_unregistered c = false
      /\ forall x, (128 <= N_of_ascii x)%N -> forall d, lookup c [c_dash; x] <> Ok (Some d)).

(** ** Wide values *)

(** What a wide parser returned. *)
Inductive wide_source (p : wparsed_options) : Prop :=
| wsrc_command_line fuel c wargs : wparser_run fuel c wargs = Ok p -> wide_source p
| wsrc_config content ds allow : wparse_config_file content ds allow = Ok p -> wide_source p.

(** The values with which the options mention [name], in order. *)
Definition woccurrences (os : list woption) (name : str) : list (list wstr) :=
  map wo_value (filter (fun o => str_eqb (wo_key o) name && negb (wo_unreg o)) os).

(** All these wide sources are stored, in order, without a failure. *)
Inductive wstores : variables_map -> list wparsed_options -> variables_map -> Prop :=
| wsts_nil vm : wstores vm [] vm
| wsts_cons vm p vm1 ps vm2 : wstore p vm = (vm1, Ok tt) -> wstores vm1 ps vm2 -> wstores vm (p :: ps) vm2.

(** The option [name] of the source is [d]. *)
Definition wresolves (p : wparsed_options) (name : str) (d : option_description) : Prop := resolves (wp_utf8 p) name d.

(** The wide token denotes this value of the type. *)
Inductive wconverts (wlexical_cast : nat -> wstr -> option Z) : vty -> wstr -> value -> Prop :=
| wcv_lex n w z : wlexical_cast n w = Some z -> wconverts wlexical_cast (TLex n) w (VLex n z)
| wcv_true w tok : utf8_text w tok -> ascii7 tok -> spells true_words tok -> wconverts wlexical_cast TBool w (VBool true)
| wcv_false w tok : utf8_text w tok -> ascii7 tok -> spells false_words tok -> wconverts wlexical_cast TBool w (VBool false)
| wcv_opt t w x : wconverts wlexical_cast t w x -> wconverts wlexical_cast (TOpt t) w (VOpt t (Some x))
| wcv_vec t w x : wconverts wlexical_cast t w x -> wconverts wlexical_cast (TVec t) w (VVec t [x]).

(** The type is not built from [std::string]. *)
Fixpoint no_string (t : vty) : Prop :=
  match t with
  | TString => False
  | TBool | TLex _ => True
  | TVec t' | TOpt t' => no_string t'
  end.
