(** Vocabulary for the functions of the example programs. *)

From Coq Require Import List Ascii String NArith ZArith Bool.
From Verif Require Import Base Errors Spec Values OptDesc SpecLookup Positional Cmdline Parsers VarMap SpecStore.
Import ListNotations.

(** Some source of the history gives the option. *)
Definition mentioned (h : history) (name : str) : Prop := Exists (fun pu => mentions (fst pu) name) h.

(** The map has some value for the option, given or by default. *)
Definition present (vm : variables_map) (name : str) : Prop := entry vm name <> None.

(** A map linked to others, each filled from its own history by options with the library's types. *)
Definition filled_from (ty : str -> vty) (h : history) (vm : variables_map) : Prop := stores vm_new h vm /\ consistent ty h.

(** How gcc writes switches: "-fname" and "-fno-name". *)
Inductive gcc_switch : str -> str -> str -> Prop :=
| gs_on x : (forall y, x <> $"no-" ++ y) -> gcc_switch ($"-f" ++ x) x $"true"
| gs_off x : gcc_switch ($"-fno-" ++ x) x $"false".

(** Decimal digits. *)
Definition digit (c : char) (n : Z) : Prop := (0 <= n <= 9)%Z /\ c = ascii_of_N (48 + Z.to_N n).

(** "XXX-XXX" where X are digits; the number is that of the second group. *)
Inductive magic_form : str -> Z -> Prop :=
| mf a b c a' b' c' x y z x' y' z' :
    digit a a' -> digit b b' -> digit c c' -> digit x x' -> digit y y' -> digit z z' ->
    magic_form [a; b; c; "-"%char; x; y; z] (100 * x' + 10 * y' + z').

(** Exactly one of the environment variables has this name in upper or lower case, and this value; or none has. *)
Inductive one_variable (name : str) : list (str * str) -> option str -> Prop :=
| ov_none vars : Forall (fun nv => ~ same_up_to_case (fst nv) name) vars -> one_variable name vars None
| ov_one l1 n v l2 :
    Forall (fun nv => ~ same_up_to_case (fst nv) name) (l1 ++ l2) -> same_up_to_case n name ->
    one_variable name (l1 ++ (n, v) :: l2) (Some v).

(** Two of them have it. *)
Definition two_variables (name : str) (vars : list (str * str)) : Prop :=
  exists l1 n v l2 n' v' l3, vars = l1 ++ (n, v) :: l2 ++ (n', v') :: l3
    /\ same_up_to_case n name /\ same_up_to_case n' name.
