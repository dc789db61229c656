(** Vocabulary for C113: a command line parser that is run again after an exception. *)

From Coq Require Import List Ascii String NArith ZArith Bool.
From Verif Require Import Base Errors Spec Values OptDesc Positional Cmdline SpecCmdline Build Rerun.
Import ListNotations.

(** The arguments that a run of the parser leaves behind, whether it returned or threw. *)
Definition left_by (c : cmdline) (args : list str) : list str :=
  fst (run_here (List.length args) c args).

(** The arguments left after [n] runs. *)
Fixpoint left_after (n : nat) (c : cmdline) (args : list str) : list str :=
  match n with
  | O => args
  | S n' => left_after n' c (left_by c args)
  end.

(** What the run after [n] others does. *)
Definition attempt (n : nat) (c : cmdline) (args : list str) : outcome (list popt) := parse c (left_after n c args).

(** The complaints made about the text of a single token: nothing follows its '=', or a name in it is ambiguous. *)
Definition about_token (e : exn) : Prop :=
  ex_class e = invalid_command_line_syntax empty_adjacent_parameter \/ exists alts, ex_class e = ambiguous_option alts.

(** Long options cannot be written with a single character in front. *)
Definition undisguised (c : cmdline) : Prop := has (cl_style c) allow_long_disguise = false.
