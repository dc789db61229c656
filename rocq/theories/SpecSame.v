(** Vocabulary for settings that come from different places. *)

From Coq Require Import List Ascii String NArith ZArith Bool.
From Verif Require Import Base Errors Spec Values OptDesc SpecLookup Cmdline Parsers VarMap SpecCmdline.
From Verif Require SpecConfig.
Import ListNotations.

(** The options have the same name and values. *)
Definition same_setting (a b : popt) : Prop := po_key a = po_key b /\ po_value a = po_value b /\ po_unreg a = po_unreg b.

(** The sources have the same description and, in order, the same names and values. *)
Definition same_settings (p1 p2 : parsed_options) : Prop :=
  pr_desc p1 = pr_desc p2 /\ Forall2 same_setting (pr_options p1) (pr_options p2).

(** The maps differ at most in the way the required options would be spelled in an error message. *)
Definition alike (vm1 vm2 : variables_map) : Prop :=
  vm_map vm1 = vm_map vm2 /\ vm_final vm1 = vm_final vm2 /\ map fst (vm_required vm1) = map fst (vm_required vm2).

(** Both return, or both fail for the same reason and with the same option, though the option may be spelled differently. *)
Inductive same_end : outcome unit -> outcome unit -> Prop :=
| se_same r : same_end r r
| se_throw name t1 t2 p1 p2 e : same_end (Throw (add_context name t1 p1 e)) (Throw (add_context name t2 p2 e)).

(** A value that can be written anywhere: not empty, in one line, without '#', and without blanks at its ends. *)
Definition anywhere (v : str) : Prop := v <> [] /\ SpecConfig.trimmed v /\ without c_hash v /\ without c_nl v.

(** [n] is the main name of an option that can take one value, and can be written anywhere; lookup finds it under this name. *)
Definition settable (c : cmdline) (n : str) : Prop :=
  n <> [] /\ SpecConfig.trimmed n /\ without c_eq n /\ without c_hash n /\ without c_nl n
  /\ (forall t, n <> c_lbr :: t)
  /\ exists d, In d (cl_desc c) /\ SpecConfig.main_name d n /\ ~ In c_star n /\ lookup c n = Ok (Some d)
     /\ (vs_min (od_sem d) <= 1)%Z /\ vs_max (od_sem d) <> 0%Z.

(** The settings as command line arguments, as a config file, and as environment variables with these names. *)
Definition as_arguments (settings : list (str * str)) : list str := map (fun nv => dashdash ++ fst nv ++ [c_eq] ++ snd nv) settings.
Definition as_file (settings : list (str * str)) : str := SpecConfig.unlines (map (fun nv => fst nv ++ [c_eq] ++ snd nv) settings).
Definition as_variables (names : list str) (settings : list (str * str)) : list str :=
  SpecConfig.environ (combine names (map snd settings)).
