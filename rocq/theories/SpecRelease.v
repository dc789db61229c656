(** Vocabulary for C115: programs built without assertions. *)

From Coq Require Import List Ascii String NArith ZArith Bool.
From Verif Require Import Base Errors Spec Values OptDesc Positional Cmdline SpecCmdline Parsers Streams Release.
Import ListNotations.

(** Without assertions the call does the same, unless with them it has undefined behaviour. *)
Definition as_with_assertions {A} (with_ without_ : outcome A) : Prop :=
  (exists u, with_ = Undef u) \/ without_ = with_.

(** What a string of the environment is taken for. *)
Inductive env_entry : str -> str -> str -> Prop :=
| ee_variable n v : without c_eq n -> env_entry (n ++ [c_eq] ++ v) n v
| ee_word s : without c_eq s -> env_entry s s s.

(** The name last given with the count -1; the other names with their counts. *)
Fixpoint unlimited (calls : list (str * Z)) (so_far : str) : str :=
  match calls with
  | [] => so_far
  | (n, k) :: calls' => unlimited calls' (if Z.eqb k (-1) then n else so_far)
  end.
Fixpoint limited (calls : list (str * Z)) : list (str * nat) :=
  match calls with
  | [] => []
  | (n, k) :: calls' => if Z.eqb k (-1) then limited calls' else (n, Z.to_nat k) :: limited calls'
  end.

(** A token that starts like an option, but with an '=' where the name should be. *)
Definition nameless (tok : str) : Prop :=
  exists v, tok = dashdash ++ [c_eq] ++ v \/ tok = [c_dash; c_eq] ++ v \/ tok = [c_slash; c_eq] ++ v.

(** An option without names. *)
Definition unnamed (d : option_description) : Prop := od_short d = [] /\ od_longs d = [].
