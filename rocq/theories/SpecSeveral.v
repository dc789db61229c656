(** Vocabulary for programs whose sources have different descriptions: some options may be given on the command line only, some also
    in a config file, and the descriptions are put together from groups. *)

From Coq Require Import List Ascii String NArith ZArith Bool.
From Verif Require Import Base Errors Spec Values OptDesc SpecLookup Cmdline Parsers VarMap SpecStore SpecEnd.
Import ListNotations.

(** The option [d] has the name [name], and in the description of each source this name stands for [d] or for nothing; sources that
    know [d] call it so. *)
Definition one_meaning (h : history) (d : option_description) (name : str) : Prop :=
  is_key d [] name
  /\ forall p u ds, In (p, u) h -> pr_desc p = Some ds ->
     (forall d', In d' ds -> is_key d' [] name -> d' = d)
     /\ (forall d', find ds name false false false = Ok d' -> d' = d)
     /\ (forall name', mentions p name' -> find ds name' false false false = Ok d -> name' = name).

(** No other option of any description assigns to the variable. *)
Definition sole_owner (h : history) (d : option_description) (addr : nat) : Prop :=
  forall p u ds, In (p, u) h -> pr_desc p = Some ds -> owned ds d addr.

(** Some source knows the option. *)
Definition known (h : history) (d : option_description) : Prop :=
  exists p u ds, In (p, u) h /\ pr_desc p = Some ds /\ In d ds.
