(** Declarative vocabulary used in the statements of the theorems.  Nothing here
    refers to how the library computes; every definition is a one-line reading of
    ordinary English. *)

From Coq Require Import List Ascii String NArith ZArith Bool Sorting.Sorted.
From Verif Require Import Base.
Import ListNotations.

Set Implicit Arguments.

(** [p] is a prefix of [s]. *)
Definition prefix_of {A} (p s : list A) : Prop := exists t, s = p ++ t.

(** [c] does not occur in [s]. *)
Definition without (c : char) (s : str) : Prop := ~ In c s.

(** [pieces] joined with the separator [sep]. *)
Fixpoint join (sep : str) (pieces : list str) : str :=
  match pieces with
  | [] => []
  | [p] => p
  | p :: ps => p ++ sep ++ join sep ps
  end.

(** 7-bit ASCII. *)
Definition ascii7_char (c : char) : Prop := (N_of_ascii c < 128)%N.
Definition ascii7 (s : str) : Prop := Forall ascii7_char s.

(** The lower-case form of a character: only 'A'..'Z' change. *)
Definition is_upper (c : char) : Prop := (65 <= N_of_ascii c <= 90)%N.
Definition lower_of (c d : char) : Prop :=
  (is_upper c /\ N_of_ascii d = (N_of_ascii c + 32)%N) \/ (~ is_upper c /\ d = c).
(** [t] is [s] in lower case. *)
Definition lowered (s t : str) : Prop := Forall2 lower_of s t.
(** [s] and [t] differ only in letter case. *)
Definition same_up_to_case (s t : str) : Prop := exists u, lowered s u /\ lowered t u.

(** The order of strings: lexicographic on byte values. *)
Inductive str_lt : str -> str -> Prop :=
| lt_nil c s : str_lt [] (c :: s)
| lt_head c d s t : (N_of_ascii c < N_of_ascii d)%N -> str_lt (c :: s) (d :: t)
| lt_tail c s t : str_lt s t -> str_lt (c :: s) (c :: t).

(** A permutation-free way to say "exactly one element of [l] satisfies [P]". *)
Definition exactly_one {A} (P : A -> Prop) (l : list A) (x : A) : Prop :=
  exists l1 l2, l = l1 ++ x :: l2 /\ P x /\ Forall (fun y => ~ P y) (l1 ++ l2).

(** Bit [k] of a command line style. *)
Definition bit (s : Z) (k : Z) : Prop := Z.testbit s k = true.
