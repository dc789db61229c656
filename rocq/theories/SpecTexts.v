(** Vocabulary for texts that are only shown: descriptions of options and names of values. *)

From Coq Require Import List Ascii String NArith ZArith Bool.
From Verif Require Import Base Errors Values OptDesc Positional Cmdline Parsers VarMap.
Import ListNotations.

(** The value semantics differ at most in what [name()] returns. *)
Record same_semantic (s s' : value_semantic) : Prop := {
  ss_min : vs_min s = vs_min s';
  ss_max : vs_max s = vs_max s';
  ss_composing : vs_composing s = vs_composing s';
  ss_required : vs_required s = vs_required s';
  ss_parse : forall a xs utf8, vs_parse s a xs utf8 = vs_parse s' a xs utf8;
  ss_default : vs_default s = vs_default s';
  ss_notify : forall a, vs_notify s a = vs_notify s' a }.

(** The options differ at most in their description and the name of their value. *)
Definition same_but_texts (d d' : option_description) : Prop :=
  od_short d = od_short d' /\ od_longs d = od_longs d' /\ same_semantic (od_sem d) (od_sem d').

(** The parsers differ at most in the texts of their options. *)
Definition same_parser (c c' : cmdline) : Prop :=
  cl_style c = cl_style c' /\ cl_allow_unregistered c = cl_allow_unregistered c' /\ Forall2 same_but_texts (cl_desc c) (cl_desc c')
  /\ cl_positional c = cl_positional c' /\ cl_additional c = cl_additional c' /\ cl_style_parser c = cl_style_parser c'.

(** The maps have the same entries, up to the texts of the value semantics they refer to. *)
Definition same_entry (x y : str * variable_value) : Prop :=
  fst x = fst y /\ vv_value (snd x) = vv_value (snd y) /\ vv_defaulted (snd x) = vv_defaulted (snd y)
  /\ match vv_sem (snd x), vv_sem (snd y) with
     | None, None => True
     | Some s, Some s' => same_semantic s s'
     | _, _ => False
     end.
Definition same_map (vm vm' : variables_map) : Prop :=
  Forall2 same_entry (vm_map vm) (vm_map vm') /\ vm_final vm = vm_final vm' /\ vm_required vm = vm_required vm'.

(** Store one source after the other, until one fails; each is given by its options, the prefix for error messages, and whether it is in UTF-8. *)
Fixpoint store_all (ds : list option_description) (sources : list (list popt * Z * bool)) (vm : variables_map)
    : variables_map * outcome unit :=
  match sources with
  | [] => (vm, Ok tt)
  | (opts, prefix, utf8) :: sources' =>
      match store (mk_parsed opts (Some ds) prefix) vm utf8 with
      | (vm', Ok _) => store_all ds sources' vm'
      | (vm', r) => (vm', r)
      end
  end.

(** The typed values differ at most in the name of the value and in the texts for the default and the implicit value. *)
Definition same_typed (tv tv' : typed_value) : Prop :=
  tv_type tv = tv_type tv' /\ tv_store_to tv = tv_store_to tv' /\ option_map fst (tv_default tv) = option_map fst (tv_default tv')
  /\ option_map fst (tv_implicit tv) = option_map fst (tv_implicit tv') /\ tv_composing tv = tv_composing tv'
  /\ tv_multitoken tv = tv_multitoken tv' /\ tv_zero_tokens tv = tv_zero_tokens tv' /\ tv_required tv = tv_required tv'
  /\ tv_notifier tv = tv_notifier tv'.

(** The options look the same in the help: they have the same names, the same description and the same name of the value, and take
    values both or neither. *)
Definition looks_same (d d' : option_description) : Prop :=
  od_short d = od_short d' /\ od_longs d = od_longs d' /\ od_text d = od_text d' /\ vs_name (od_sem d) = vs_name (od_sem d')
  /\ (vs_max (od_sem d) = 0%Z <-> vs_max (od_sem d') = 0%Z).

(** The descriptions have the same caption and widths, and their options and groups look the same; [belongs] tells whether an
    option is in a group. *)
Inductive look_same : options_description -> options_description -> Prop :=
| ls_intro caption L m opts opts' groups groups' :
    Forall2 (fun x y => looks_same (fst x) (fst y) /\ snd x = snd y) opts opts' -> Forall2 look_same groups groups' ->
    look_same (mk_ods caption L m opts groups) (mk_ods caption L m opts' groups').
