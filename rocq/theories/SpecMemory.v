(** Vocabulary for C111: what a name can stand for when [store] has been interrupted. *)

From Coq Require Import List Ascii String NArith ZArith Bool.
From Verif Require Import Base Errors Spec Values OptDesc SpecLookup Cmdline Parsers VarMap SpecStore Memory.
Import ListNotations.

(** The entry of a name before, and after the options of a source that give it these values have been stored in part:
    it is the same; or the first of them, one after another, gave it its value; or one more was being parsed, and the
    value is the one before or what the semantic had made of it. *)
Inductive partly (during : in_parse) (ds : list option_description) (final : sset) (utf8 : bool)
    (occs : list (list str)) (name : str) (e : option variable_value) : option variable_value -> Prop :=
| pt_same : partly during ds final utf8 occs name e e
| pt_parsed first rest d a :
    occs = first ++ rest -> first <> [] -> ~ In name final -> find ds name false false false = Ok d ->
    parsed_all (od_sem d) utf8 (given e) first a ->
    partly during ds final utf8 occs name e (Some (mk_vv a false (Some (od_sem d))))
| pt_parsing first toks rest d a v :
    occs = first ++ toks :: rest -> ~ In name final -> find ds name false false false = Ok d ->
    parsed_all (od_sem d) utf8 (given e) first a ->
    vv_value v = a \/ during (od_sem d) a toks utf8 (vv_value v) -> vv_defaulted v = false ->
    partly during ds final utf8 occs name e (Some v).

(** The entry of a name that the options [ds] have a default for: the default, or nothing yet. *)
Definition default_begun (ds : list option_description) (name : str) (e : option variable_value) : Prop :=
  exists d def, In d ds /\ is_key d [] name /\ vs_default (od_sem d) = Some def
    /\ (e = Some vv_empty \/ e = Some (mk_vv def true (Some (od_sem d)))).
