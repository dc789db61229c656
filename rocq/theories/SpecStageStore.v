(** Vocabulary for storing what two parsers returned. *)

From Coq Require Import List Ascii String NArith ZArith Bool.
From Verif Require Import Base Errors Spec Values OptDesc SpecLookup Cmdline Parsers VarMap SpecStore SpecStages.
Import ListNotations.

(** The options of the source [p] have been distributed to the sources [p1] and [p2], and so have their descriptions: each name is
    mentioned by one of the two only, with all its values, and there means what it means in [p]. *)
Definition distributed (p p1 p2 : parsed_options) : Prop :=
  exists ds1 ds2, pr_desc p = Some (ds1 ++ ds2) /\ pr_desc p1 = Some ds1 /\ pr_desc p2 = Some ds2
  /\ pr_prefix p1 = pr_prefix p /\ pr_prefix p2 = pr_prefix p
  /\ forall name, name <> [] ->
       (occurrences (pr_options p1) name = occurrences (pr_options p) name /\ ~ mentions p2 name
        /\ (mentions p name -> find (ds1 ++ ds2) name false false false = find ds1 name false false false))
       \/ (occurrences (pr_options p2) name = occurrences (pr_options p) name /\ ~ mentions p1 name
           /\ (mentions p name -> find (ds1 ++ ds2) name false false false = find ds2 name false false false)).

(** The same sources can be stored into both maps, and then they have the same entries and [notify] does the same. *)
Definition follows (vm vm' : variables_map) : Prop :=
  forall h vm1, stores vm h vm1 ->
  exists vm1', stores vm' h vm1' /\ (forall name, entry vm1' name = entry vm1 name) /\ notify vm1' = notify vm1.
Definition equivalent (vm vm' : variables_map) : Prop := follows vm vm' /\ follows vm' vm.

(** The arguments that have names are called after options the first parser does not know. *)
Definition arguments_for_second (c : cmdline) (A : list option_description) (res : list popt) : Prop :=
  Forall (fun o => po_pos o <> (-1)%Z -> po_key o = [] \/ lookup (first_stage c A) (po_key o) = Ok None) res.
