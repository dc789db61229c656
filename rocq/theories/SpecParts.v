(** Vocabulary for config files that are put together from parts. *)

From Coq Require Import List Ascii String NArith ZArith Bool.
From Verif Require Import Base Errors Spec Values OptDesc Cmdline ConfigFile SpecConfig.
Import ListNotations.

(** The text is empty or its last line ends in a newline. *)
Definition complete (text : str) : Prop := text = [] \/ exists t, text = t ++ [c_nl].

(** No line of the text starts a section. *)
Definition sectionless (text : str) : Prop := forall ls, lines_of text ls -> Forall no_section ls.

(** The last line of the text that starts a section is [l]. *)
Definition last_section (text l : str) : Prop :=
  exists before after s, lines_of text (before ++ l :: after) /\ line_is l (Section_ s) /\ Forall no_section after.

(** The first line of the text that says anything starts a section. *)
Definition begins_section (text : str) : Prop :=
  exists blanks rest, lines_of text (blanks ++ rest) /\ Forall (fun l => line_is l Nothing) blanks /\ starts_section rest.

(** The options of one result, then those of another; or what went wrong first. *)
Definition followed_by (r1 r2 : outcome (list popt)) : outcome (list popt) :=
  match r1 with
  | Ok os1 => match r2 with Ok os2 => Ok (os1 ++ os2) | Throw e => Throw e | Undef u => Undef u | NoFuel => NoFuel end
  | r => r
  end.

(** It gives no options. *)
Definition fails (r : outcome (list popt)) : Prop := forall os, r <> Ok os.
