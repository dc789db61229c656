(** Vocabulary for C107: what arguments mean when more arguments follow them. *)

From Coq Require Import List Ascii String NArith ZArith Bool.
From Verif Require Import Base Errors Spec Values OptDesc Positional Cmdline Build SpecCmdline.
Import ListNotations.

(** The complaint that a value is missing: the one that more arguments can remedy. *)
Definition lacks_value (e : exn) : Prop := syntax_kind_of e = Some missing_parameter.

(** [o] with the further values [vs], written as the tokens [ts]. *)
Definition with_more (o : popt) (vs ts : list str) : popt :=
  mk_popt (po_key o) (po_pos o) (po_value o ++ vs) (po_orig o ++ ts) (po_unreg o) (po_ci o).

(** [now] is the result of a command line, [later] the result of a longer one: either
    options were only added at the end; or moreover the last option of [now], which is a
    named option registered for a variable number of values, has more values. *)
Inductive continues (c : cmdline) : list popt -> list popt -> Prop :=
| ct_same now tl : continues c now (now ++ tl)
| ct_more front o vs ts tl d :
    lookup c (po_key o) = Ok (Some d) -> po_pos o = (-1)%Z ->
    (vs_min (od_sem d) < vs_max (od_sem d))%Z ->
    vs <> [] -> List.length ts = List.length vs ->
    continues c (front ++ [o]) (front ++ with_more o vs ts :: tl).
