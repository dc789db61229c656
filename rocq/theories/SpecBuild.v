(** Vocabulary for chains of calls: setters of values, [add_options()], calls on a parser. *)

From Coq Require Import List Ascii String NArith ZArith Bool.
From Verif Require Import Base Errors Spec Values OptDesc SpecLookup Positional Cmdline SpecCmdline Build.
Import ListNotations.

(** [says c x]: the call [c] sets something to [x].  The last call in a chain that sets
    it sets it to [x]. *)
Definition last_call {C X} (says : C -> X -> Prop) (calls : list C) (x : X) : Prop :=
  exists before c after, calls = before ++ c :: after /\ says c x
    /\ forall c' y, In c' after -> ~ says c' y.

(** No call in the chain sets it. *)
Definition no_call {C X} (says : C -> X -> Prop) (calls : list C) : Prop :=
  forall c x, In c calls -> ~ says c x.

(** ** Setters *)

(** A default value and its text: given, or converted by [to_text]. *)
Inductive says_default (to_text : value -> outcome str) : tv_call -> value * str -> Prop :=
| sd_value v t : to_text v = Ok t -> says_default to_text (call_default v) (v, t)
| sd_text v t : says_default to_text (call_default_text v t) (v, t).

Inductive says_implicit (to_text : value -> outcome str) : tv_call -> value * str -> Prop :=
| si_value v t : to_text v = Ok t -> says_implicit to_text (call_implicit v) (v, t)
| si_text v t : says_implicit to_text (call_implicit_text v t) (v, t).

Definition says_name (c : tv_call) (n : str) : Prop := c = call_value_name n.
Definition says_notifier (c : tv_call) (f : nat * (value -> option exn)) : Prop := c = call_notifier f.

(** The value whose text the call asks for. *)
Inductive asks_text : tv_call -> value -> Prop :=
| at_default v : asks_text (call_default v) v
| at_implicit v : asks_text (call_implicit v) v.

(** How help shows the argument of an option: "arg", "arg (=default)", "[=arg(=implicit)]" or
    "[=arg(=implicit)] (=default)"; an empty text counts as none. *)
Inductive argument_shown (name : str) : option str -> option str -> str -> Prop :=
| as_plain : argument_shown name None None name
| as_default d : argument_shown name (Some d) None (name ++ $" (=" ++ d ++ $")")
| as_implicit i : argument_shown name None (Some i) ($"[=" ++ name ++ $"(=" ++ i ++ $")]")
| as_both d i : argument_shown name (Some d) (Some i)
    ($"[=" ++ name ++ $"(=" ++ i ++ $")] (=" ++ d ++ $")").

(** The non-empty text [last_call] leaves, if any. *)
Definition text_left (says : tv_call -> value * str -> Prop) (calls : list tv_call) (t : option str) : Prop :=
  match t with
  | Some t => t <> [] /\ exists v, last_call says calls (v, t)
  | None => no_call says calls \/ exists v, last_call says calls (v, [])
  end.

(** ** Calls on a parser *)

Definition says_options (c : parser_call) (ds : list option_description) : Prop := c = call_options ds.
Definition says_positional (c : parser_call) (p : positional) : Prop := c = call_positional p.
Definition says_extra (c : parser_call) (f : option (str -> str * str)) : Prop := c = call_extra_parser f.
Definition says_extra_style (c : parser_call) (f : option style_parser) : Prop := c = call_extra_style_parser f.
(** Style 0 asks for the default style. *)
Inductive says_style : parser_call -> Z -> Prop :=
| ss_zero : says_style (call_style 0) default_style
| ss_other s : s <> 0%Z -> says_style (call_style s) s.

(** [x] is what the last call says, or [x0] if no call says anything. *)
Definition last_or {C X} (says : C -> X -> Prop) (calls : list C) (x0 x : X) : Prop :=
  last_call says calls x \/ (no_call says calls /\ x = x0).

(** The settings of a parser after a chain of calls. *)
Definition configured (calls : list parser_call) (c : cmdline) : Prop :=
  last_call says_options calls (cl_desc c)
  /\ last_or says_style calls default_style (cl_style c)
  /\ (cl_allow_unregistered c = true <-> In call_allow_unregistered calls)
  /\ match cl_positional c with
     | Some p => last_call says_positional calls p
     | None => no_call says_positional calls
     end
  /\ last_or says_extra calls None (cl_additional c)
  /\ last_or says_extra_style calls None (cl_style_parser c).

(** The style can be used. *)
Definition good_style (s : Z) : Prop := s = 0%Z \/ consistent_style s.
Definition styles_good (calls : list parser_call) : Prop := forall s, In (call_style s) calls -> good_style s.

(** ** [add_options()] *)

Definition add_name (a : add_call) : str :=
  match a with add_flag n _ => n | add_undescribed n _ => n | add_described n _ _ => n end.

(** The C string starting with [s]: [s] up to the first NUL. *)
Definition c_string (s t : str) : Prop :=
  without "000"%char t /\ (s = t \/ exists r, s = t ++ "000"%char :: r).

(** [pieces] joined by commas, perhaps with a trailing comma. *)
Definition comma_separated (pieces : list str) (names : str) : Prop :=
  pieces <> [] /\ Forall (without c_comma) pieces
  /\ ((names = join [c_comma] pieces /\ List.last pieces [] <> [])
      \/ names = join [c_comma] pieces ++ [c_comma]).

(** The option a pair of parentheses declares. *)
Definition declares (flag : value_semantic) (a : add_call) (d : option_description) : Prop :=
  (exists names pieces, c_string (add_name a) names /\ comma_separated pieces names
     /\ decoded pieces (od_short d) (od_longs d))
  /\ match a with
     | add_flag _ t => od_sem d = flag /\ c_string t (od_text d)
     | add_undescribed _ s => od_sem d = s /\ od_text d = []
     | add_described _ s t => od_sem d = s /\ c_string t (od_text d)
     end.

(** [tok] attaches the value [v] to the option [typed] in a way that cannot be read as a
    group of short options: "--name=value" or "/cvalue". *)
Inductive attached (c : cmdline) : str -> str -> str -> Prop :=
| at_long n v :
    has (cl_style c) allow_long = true -> n <> [] -> without c_eq n -> v <> [] ->
    attached c (dashdash ++ n ++ [c_eq] ++ v) n v
| at_slash x v :
    has (cl_style c) allow_short = true -> has (cl_style c) allow_slash_for_short = true ->
    has (cl_style c) allow_long_disguise = false -> v <> [] ->
    attached c ([c_slash; x] ++ v) [c_dash; x] v.
