(** Storage: src/variables_map.cpp, include/boost/program_options/variables_map.hpp. *)

From Coq Require Import List Ascii String NArith ZArith Bool.
From Verif Require Import Base Errors Values OptDesc Positional Cmdline Parsers.
Import ListNotations.

Set Implicit Arguments.

(** variables_map.hpp 58-102 [variable_value] *)
Record variable_value := mk_vv {
  vv_value : any;                      (* v *)
  vv_defaulted : bool;                 (* m_defaulted *)
  vv_sem : option value_semantic }.    (* m_value_semantic, may be null *)

(** variables_map.hpp 60: default constructor *)
Definition vv_empty : variable_value := mk_vv None false None.

(** variables_map.hpp 146-181 [variables_map] (without [m_next]) *)
Record variables_map := mk_vm {
  vm_map : smap variable_value;        (* the std::map base *)
  vm_final : sset;                     (* m_final *)
  vm_required : smap str }.            (* m_required *)

(** variables_map.cpp 188-189 *)
Definition vm_new : variables_map := mk_vm [] [] [].

(** variables_map.cpp 195-200 [clear] *)
Definition vm_clear (vm : variables_map) : variables_map := mk_vm [] [] [].

(** variables_map.cpp 52-93: the first loop of [store].  [m] is the map, [nf] the
    set [new_final]; both are returned also when an exception leaves. The [catch]
    block (96-101) adds the context. *)
Fixpoint store_options (ds : list option_description) (prefix : Z) (final : sset)
    (utf8 : bool) (opts : list popt) (m : smap variable_value) (nf : sset)
    : smap variable_value * sset * outcome unit :=
  match opts with
  | [] => (m, nf, Ok tt)
  | o :: opts' =>
      let name := po_key o in
      if is_empty name then store_options ds prefix final utf8 opts' m nf
      else if po_unreg o then store_options ds prefix final utf8 opts' m nf
      else if ss_mem name final then store_options ds prefix final utf8 opts' m nf
      else
        let tok := match po_orig o with t :: _ => t | [] => [] end in
        match find ds name false false false with
        | Ok d =>
            let v0 := match sm_find name m with Some v => v | None => vv_empty end in
            let v1 := if vv_defaulted v0 then vv_empty else v0 in
            let (a, r) := vs_parse (od_sem d) (vv_value v1) (po_value o) utf8 in
            match r with
            | Ok _ =>
                store_options ds prefix final utf8 opts'
                  (sm_set name (mk_vv a (vv_defaulted v1) (Some (od_sem d))) m)
                  (if vs_composing (od_sem d) then nf else ss_insert name nf)
            | Throw e =>
                (sm_set name (mk_vv a (vv_defaulted v1) (vv_sem v1)) m, nf,
                 Throw (add_context name tok prefix e))
            | Undef u => (m, nf, Undef u)
            | NoFuel => (m, nf, NoFuel)
            end
        | Throw e => (m, nf, Throw (add_context name tok prefix e))
        | Undef u => (m, nf, Undef u)
        | NoFuel => (m, nf, NoFuel)
        end
  end.

(** variables_map.cpp 107-142: defaults and required names *)
Fixpoint store_defaults (ds : list option_description) (prefix : Z)
    (m : smap variable_value) (req : smap str) : smap variable_value * smap str :=
  match ds with
  | [] => (m, req)
  | d :: ds' =>
      let key := od_key d [] in
      if is_empty key then store_defaults ds' prefix m req
      else
        let m' :=
          if sm_mem key m then m
          else match vs_default (od_sem d) with
               | Some def => sm_set key (mk_vv def true (Some (od_sem d))) m
               | None => m
               end in
        let req' :=
          if vs_required (od_sem d) then
            let canonical := canonical_display_name d prefix in
            let old := match sm_find key req with Some s => s | None => [] end in
            sm_set key
              (if (List.length old <? List.length canonical)%nat then canonical else old) req
          else req in
        store_defaults ds' prefix m' req'
  end.

(** variables_map.cpp 23-143 [store]: the new map, also when it throws. *)
Definition store (p : parsed_options) (vm : variables_map) (utf8 : bool)
    : variables_map * outcome unit :=
  match pr_desc p with
  | None => (vm, Undef UB_assert)
  | Some ds =>
      let '(m, nf, r) :=
        store_options ds (pr_prefix p) (vm_final vm) utf8 (pr_options p) (vm_map vm) [] in
      match r with
      | Ok _ =>
          let final := ss_insert_all nf (vm_final vm) in
          let (m', req) := store_defaults ds (pr_prefix p) m (vm_required vm) in
          (mk_vm m' final req, Ok tt)
      | Throw e => (mk_vm m (vm_final vm) (vm_required vm), Throw e)
      | Undef u => (mk_vm m (vm_final vm) (vm_required vm), Undef u)
      | NoFuel => (mk_vm m (vm_final vm) (vm_required vm), NoFuel)
      end
  end.

(** variables_map.cpp 217-229: the required check of [notify] *)
Fixpoint check_required (req : smap str) (m : smap variable_value) : outcome unit :=
  match req with
  | [] => Ok tt
  | (opt, display) :: req' =>
      match sm_find opt m with
      | None => Throw (mk_required_option display)
      | Some v => if any_empty (vv_value v) then Throw (mk_required_option display)
                  else check_required req' m
      end
  end.

(** variables_map.cpp 232-246: run the notifications in key order *)
Fixpoint run_notify (m : smap variable_value) : list event * outcome unit :=
  match m with
  | [] => ([], Ok tt)
  | (_, v) :: m' =>
      match vv_sem v with
      | None => run_notify m'
      | Some s =>
          let (ev, r) := vs_notify s (vv_value v) in
          match r with
          | Ok _ => let (ev', r') := run_notify m' in (ev ++ ev', r')
          | _ => (ev, r)
          end
      end
  end.

(** variables_map.cpp 213-247 [notify]: the effects performed and the outcome *)
Definition notify (vm : variables_map) : list event * outcome unit :=
  match check_required (vm_required vm) (vm_map vm) with
  | Ok _ => run_notify (vm_map vm)
  | Throw e => ([], Throw e)
  | Undef u => ([], Undef u)
  | NoFuel => ([], NoFuel)
  end.

(** variables_map.cpp 202-211 [get] *)
Definition vm_get (vm : variables_map) (name : str) : variable_value :=
  match sm_find name (vm_map vm) with Some v => v | None => vv_empty end.

(** variables_map.cpp 166-180 [operator[]], on the chain of maps linked by
    [m_next], head first.  Chains with pointers, possibly cyclic, are in Objects.v. *)
Fixpoint chain_get (vm : variables_map) (next : list variables_map) (name : str)
    : variable_value :=
  let v := vm_get vm name in
  match next with
  | [] => v
  | vm2 :: next' =>
      if any_empty (vv_value v) then chain_get vm2 next' name
      else if vv_defaulted v then
        let v2 := chain_get vm2 next' name in
        if negb (any_empty (vv_value v2)) && negb (vv_defaulted v2) then v2 else v
      else v
  end.
