(** Vocabulary for help that is printed on streams. *)

From Coq Require Import List Ascii String NArith ZArith Bool.
From Verif Require Import Base Errors Spec Values OptDesc SpecFormat Masked OutStream.
Import ListNotations.

Set Implicit Arguments.

(** No error has happened on the stream. *)
Definition ready (s : ostream) : Prop := os_eof s = false /\ os_fail s = false /\ os_bad s = false.

(** The buffer takes this many more characters. *)
Definition room_for (s : ostream) (n : nat) : Prop := match os_room s with None => True | Some r => n <= r end.

(** The stream has the same fill character, alignment and exception mask. *)
Definition same_settings (s s' : ostream) : Prop :=
  os_fill s' = os_fill s /\ os_left s' = os_left s /\ os_mask s' = os_mask s.

(** The mask makes the stream throw when output fails, or not. *)
Definition silent (s : ostream) : Prop := on_fail (os_mask s) = false /\ on_bad (os_mask s) = false.

(** [out] is [text] filled up to the width of the stream. *)
Definition justified (s : ostream) (text out : str) : Prop :=
  exists fill, Forall (eq (os_fill s)) fill
    /\ (len fill = Z.max 0 (os_width s - len text))%Z
    /\ out = if os_left s then text ++ fill else fill ++ text.

(** What is written first: the caption, or if there is none the name of the first option that is in no group, or else the
    empty line before the first group. *)
Inductive first_piece (t : tree) : str -> Prop :=
| fp_caption : tree_caption t <> [] -> first_piece t (tree_caption t)
| fp_option L d ds rest col : sections t = ([], L, d :: ds) :: rest -> first_col d col -> first_piece t col
| fp_group L s rest : sections t = ([], L, []) :: s :: rest -> first_piece t [c_nl].

Definition two_tabs (par : str) : Prop := exists a b c, par = a ++ [c_tab] ++ b ++ [c_tab] ++ c.

(** Lines, one under the other. *)
Definition under (texts : list str) : str := List.concat (map (fun t => t ++ [c_nl]) texts).

(** The part of the help of an option up to a paragraph with two tabs, *)
Inductive cut_option (column L : Z) (d : option_description) : str -> Prop :=
| cut_option_at col pad pars par pars' texts :
    first_col d col ->
    (len col < column)%Z /\ pad = blanks (column - len col) \/ (column <= len col)%Z /\ pad = c_nl :: blanks column ->
    lines_of (od_text d) (pars ++ par :: pars') -> two_tabs par -> Forall2 (paragraph column (L - 1)) pars texts ->
    cut_option column L d (col ++ pad ++ List.concat (map (fun t => t ++ c_nl :: blanks column) texts)).

(** and of the whole help. *)
Inductive cut_help (column : Z) (t : tree) : str -> Prop :=
| cut_help_at before texts caption L ds shown_ds d ds' after part :
    sections t = before ++ (caption, L, ds ++ d :: ds') :: after ->
    Forall2 (shown_section column) before texts -> Forall2 (shown column L) ds shown_ds -> cut_option column L d part ->
    cut_help column t (under texts ++ heading caption ++ under shown_ds ++ part).

(** The column in use: the one given or, if that is 0, a suitable one. *)
Definition column_used (t : tree) (given used : Z) : Prop :=
  (0 < given /\ used = given)%Z \/ given = 0%Z /\ default_column t used.
