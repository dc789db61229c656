(** Vocabulary for C112: a description whose two vectors fit together. *)

From Coq Require Import List Ascii String NArith ZArith Bool.
From Verif Require Import Base Errors Values OptDesc BuildMemory.
Import ListNotations.

(** The two vectors of a description in which every option has its flag. *)
Fixpoint vectors_of (od : options_description) : raw_description :=
  match od with
  | mk_ods caption line_length min_desc opts groups =>
      mk_raw caption line_length min_desc (map fst opts) (map snd opts) (map vectors_of groups)
  end.

(** Every option of the description and of its groups has its flag. *)
Definition intact (r : raw_description) : Prop := exists od, r = vectors_of od.

(** [l] begins with [k]. *)
Definition begins {A} (k l : list A) : Prop := exists rest, l = k ++ rest.
