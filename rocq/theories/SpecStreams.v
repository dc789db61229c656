(** Vocabulary for reading from streams. *)

From Coq Require Import List Ascii String NArith ZArith Bool.
From Verif Require Import Base Errors Values OptDesc SpecConvert Streams.
Import ListNotations.

(** Neither the end of the file nor an error has been met. *)
Definition usable {A} (s : stream A) : Prop := st_eof s = false /\ st_fail s = false /\ st_bad s = false.

(** [t] consists of whole lines. *)
Definition whole_lines {A} (newline : A) (t : list A) : Prop := t = [] \/ exists t', t = t' ++ [newline].

(** A reader of lines gets the text [t] from the stream: all of it; only the whole lines, if the stream breaks off
    with a read error; nothing, if the stream is at its end or has failed already. *)
Inductive delivers {A} (newline : A) (s : stream A) : list A -> Prop :=
| dv_all : usable s -> st_broken s = false -> delivers newline s (st_rest s)
| dv_broken t part : usable s -> st_broken s = true -> st_rest s = t ++ part -> whole_lines newline t ->
    ~ In newline part -> delivers newline s t
| dv_none : ~ usable s -> delivers newline s [].

(** The wide stream [s] and the narrow stream [n] hold the same text, one in wide characters and the other in UTF-8,
    and are in the same state. *)
Definition same_stream (s : stream N) (n : stream ascii) : Prop :=
  utf8_text (st_rest s) (st_rest n) /\ st_broken s = st_broken n /\ st_eof s = st_eof n /\ st_fail s = st_fail n /\ st_bad s = st_bad n.
