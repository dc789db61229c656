(** Vocabulary for command lines that are parsed in two stages: first for the options [A], leaving the rest to a second
    parser that knows the options [B]. *)

From Coq Require Import List Ascii String NArith ZArith Bool.
From Verif Require Import Base Errors Spec Values OptDesc SpecLookup Positional Cmdline Parsers SpecCmdline SpecGrammar.
Import ListNotations.

(** The first parser allows unregistered options and leaves the arguments alone; the second parser is strict. *)
Definition first_stage (c : cmdline) (A : list option_description) : cmdline := mk_cl (cl_style c) true A None None None.
Definition second_stage (c : cmdline) (B : list option_description) : cmdline :=
  mk_cl (cl_style c) false B (cl_positional c) None None.

(** No full name of an option of [B] abbreviates a name of an option of [A]. *)
Definition unshadowed (guess : bool) (A B : list option_description) : Prop :=
  forall d e n, n <> [] -> In d A -> In e B -> full e n false false -> ~ approximate d n guess false.

(** The option takes a fixed number of values. *)
Definition fixed_count (d : option_description) : Prop := (vs_max (od_sem d) <= vs_min (od_sem d))%Z.

(** The parser has an option of this name. *)
Definition knows (c : cmdline) (name : str) : Prop := exists d, lookup c name = Ok (Some d).

(** The options the token stands for are all known to the first parser, or none is.  (Only "-abc" stands for several.) *)
Definition unmixed (c first : cmdline) (tok : str) : Prop :=
  forall ms, stands_for c tok ms ->
    Forall (fun m => knows first (mn_name m)) ms \/ Forall (fun m => ~ knows first (mn_name m)) ms.

(** The parser knows none of the options the token could stand for. *)
Definition leaves_alone (c : cmdline) (tok : str) : Prop :=
  forall ms, stands_for c tok ms -> Forall (fun m => mn_name m = [] \/ lookup c (mn_name m) = Ok None) ms.

(** The option is not positional, and the parser knows its name. *)
Definition belongs (c : cmdline) (o : popt) : bool :=
  Z.eqb (po_pos o) (-1) && match lookup c (po_key o) with Ok (Some _) => true | _ => false end.

(** The option is registered and not positional. *)
Definition registered_by_name (o : popt) : bool := negb (po_unreg o) && Z.eqb (po_pos o) (-1).

(** The two parsers, one after the other, read the command line like a parser for all the options that returned [res]:
    the first returns, besides what it did not recognize, the options of [res] that belong to it, and the second, given what the first
    did not recognize, the others. *)
Definition read_in_stages (c : cmdline) (A B : list option_description) (args : list str) (res : list popt) : Prop :=
  exists r1 r2,
    parse (first_stage c A) args = Ok r1
    /\ parse (second_stage c B) (collect_unrecognized r1 include_positional) = Ok r2
    /\ filter registered_by_name r1 = filter (belongs (first_stage c A)) res
    /\ r2 = filter (fun o => negb (belongs (first_stage c A) o)) res.
