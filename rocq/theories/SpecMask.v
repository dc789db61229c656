(** Vocabulary for streams that throw. *)

From Coq Require Import List Ascii String NArith ZArith Bool.
From Verif Require Import Base Errors Values OptDesc ConfigFile Streams Masked.
Import ListNotations.

(** The state of the stream contains a bit of the mask. *)
Definition raised {A} (m : mask) (s : stream A) : Prop :=
  on_eof m = true /\ st_eof s = true \/ on_fail m = true /\ st_fail s = true \/ on_bad m = true /\ st_bad s = true.

(** The call ends with an exception of the stream. *)
Definition stream_throws {X} (r : io X) : Prop := r = Failure \/ r = Rethrown.

(** The options can be used for config files: an empty file is accepted. *)
Definition fit_for_files (ds : list option_description) (allow : bool) : Prop := exists p, parse_config_file [] ds allow = Ok p.
