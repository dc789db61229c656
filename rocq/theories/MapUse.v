(** What a program can do with one [variables_map]: the functions of the library and those inherited from
    [std::map] (variables_map.hpp 146-147). *)

From Coq Require Import List Ascii String NArith ZArith Bool.
From Verif Require Import Base Errors Values OptDesc Positional Cmdline Parsers VarMap.
Import ListNotations.

Set Implicit Arguments.

(** [std::map::insert] with a pair of a name and [variable_value(value, defaulted)] (variables_map.hpp 61-63):
    no effect if the name is there. *)
Definition vm_insert (vm : variables_map) (name : str) (a : any) (defaulted : bool) : variables_map :=
  if sm_mem name (vm_map vm) then vm
  else mk_vm (sm_set name (mk_vv a defaulted None) (vm_map vm)) (vm_final vm) (vm_required vm).

(** [std::map::erase] of a name (inherited, variables_map.hpp 146-147); the other members (variables_map.hpp 167-181) stay. *)
Definition vm_erase (vm : variables_map) (name : str) : variables_map :=
  mk_vm (filter (fun kv => negb (str_eqb (fst kv) name)) (vm_map vm)) (vm_final vm) (vm_required vm).

(** [at(name).value() = a] (variables_map.hpp 86; [as<T>() = x], 73-75, is the case that keeps the type).
    [std::map::at] throws [out_of_range] for other names; the program has looked before, here nothing happens. *)
Definition vm_assign (vm : variables_map) (name : str) (a : any) : variables_map :=
  match sm_find name (vm_map vm) with
  | Some v => mk_vm (sm_set name (mk_vv a (vv_defaulted v) (vv_sem v)) (vm_map vm)) (vm_final vm) (vm_required vm)
  | None => vm
  end.

(** The calls (variables_map.hpp 36-55, 61, 86, 146-162) *)
Inductive map_call :=
| MStore (p : parsed_options) (utf8 : bool)
| MNotify
| MClear
| MInsert (name : str) (a : any) (defaulted : bool)
| MErase (name : str)
| MAssign (name : str) (a : any).

(** One call: the new map, the effects, and how the call ends. (the functions above and in VarMap.v:
    variables_map.cpp 23-143, 195-200, 213-247) *)
Definition map_step (vm : variables_map) (c : map_call) : variables_map * (list event * outcome unit) :=
  match c with
  | MStore p utf8 => let (vm', r) := store p vm utf8 in (vm', ([], r))
  | MNotify => (vm, notify vm)
  | MClear => (vm_clear vm, ([], Ok tt))
  | MInsert name a defaulted => (vm_insert vm name a defaulted, ([], Ok tt))
  | MErase name => (vm_erase vm name, ([], Ok tt))
  | MAssign name a => (vm_assign vm name a, ([], Ok tt))
  end.

(** Call after call; the program catches exceptions.  (It has no meaning after undefined behaviour; the theorems
    are about programs without.) *)
Fixpoint map_run (vm : variables_map) (calls : list map_call) : variables_map * list (list event * outcome unit) :=
  match calls with
  | [] => (vm, [])
  | c :: calls' =>
      let (vm1, r) := map_step vm c in
      let (vm2, rs) := map_run vm1 calls' in
      (vm2, r :: rs)
  end.
