(** [store] with value semantics of the user: classes derived from [value_semantic], or overloads of [validate], that have a state of
    their own and may throw.  The functions of [VarMap.v] are repeated here with the state passed along. *)

From Coq Require Import List Ascii String NArith ZArith Bool.
From Verif Require Import Base Errors Values OptDesc Positional Cmdline Parsers VarMap.
Import ListNotations.

(** The user's code for an option: [parse] is given what [value_store] contains and leaves something there, also when it throws;
    [apply_default] gives a default, gives none ([false]), or throws.  The other functions of a [value_semantic] are those of
    [Values.v] and have no state. (value_semantic.hpp 58-69) *)
Record user_semantic (S : Type) := mk_us {
  us_parse : any -> list str -> bool -> S -> S * (any * outcome unit);
  us_default : S -> S * outcome (option any) }.
Arguments mk_us {S}.
Arguments us_parse {S}.
Arguments us_default {S}.

(** The code of all options *)
Definition user_code (S : Type) : Type := option_description -> user_semantic S.

(** variables_map.cpp 52-101: the first loop of [store] and its [catch] block *)
Fixpoint ustore_options {S} (code : user_code S) (ds : list option_description) (prefix : Z) (final : sset)
    (utf8 : bool) (opts : list popt) (m : smap variable_value) (nf : sset) (s : S)
    : S * smap variable_value * sset * outcome unit :=
  match opts with
  | [] => (s, m, nf, Ok tt)
  | o :: opts' =>
      let name := po_key o in
      if is_empty name then ustore_options code ds prefix final utf8 opts' m nf s
      else if po_unreg o then ustore_options code ds prefix final utf8 opts' m nf s
      else if ss_mem name final then ustore_options code ds prefix final utf8 opts' m nf s
      else
        let tok := match po_orig o with t :: _ => t | [] => [] end in
        match find ds name false false false with
        | Ok d =>
            let v0 := match sm_find name m with Some v => v | None => vv_empty end in
            let v1 := if vv_defaulted v0 then vv_empty else v0 in
            let '(s1, (a, r)) := us_parse (code d) (vv_value v1) (po_value o) utf8 s in
            match r with
            | Ok _ =>
                ustore_options code ds prefix final utf8 opts'
                  (sm_set name (mk_vv a (vv_defaulted v1) (Some (od_sem d))) m)
                  (if vs_composing (od_sem d) then nf else ss_insert name nf) s1
            | Throw e =>
                (s1, sm_set name (mk_vv a (vv_defaulted v1) (vv_sem v1)) m, nf, Throw (add_context name tok prefix e))
            | Undef u => (s1, m, nf, Undef u)
            | NoFuel => (s1, m, nf, NoFuel)
            end
        | Throw e => (s, m, nf, Throw (add_context name tok prefix e))
        | Undef u => (s, m, nf, Undef u)
        | NoFuel => (s, m, nf, NoFuel)
        end
  end.

(** variables_map.cpp 107-142: defaults and required names; there is no [catch] here *)
Fixpoint ustore_defaults {S} (code : user_code S) (ds : list option_description) (prefix : Z)
    (m : smap variable_value) (req : smap str) (s : S) : S * smap variable_value * smap str * outcome unit :=
  match ds with
  | [] => (s, m, req, Ok tt)
  | d :: ds' =>
      let key := od_key d [] in
      if is_empty key then ustore_defaults code ds' prefix m req s
      else
        let (s1, r) := if sm_mem key m then (s, Ok None) else us_default (code d) s in
        match r with
        | Ok def =>
            let m' := match def with Some a => sm_set key (mk_vv a true (Some (od_sem d))) m | None => m end in
            let req' :=
              if vs_required (od_sem d) then
                let canonical := canonical_display_name d prefix in
                let old := match sm_find key req with Some x => x | None => [] end in
                sm_set key (if (List.length old <? List.length canonical)%nat then canonical else old) req
              else req in
            ustore_defaults code ds' prefix m' req' s1
        | Throw e => (s1, m, req, Throw e)
        | Undef u => (s1, m, req, Undef u)
        | NoFuel => (s1, m, req, NoFuel)
        end
  end.

(** variables_map.cpp 23-143 [store]: the new state and the new map, also when it throws *)
Definition ustore {S} (code : user_code S) (p : parsed_options) (vm : variables_map) (utf8 : bool) (s : S)
    : S * variables_map * outcome unit :=
  match pr_desc p with
  | None => (s, vm, Undef UB_assert)
  | Some ds =>
      let '(s1, m, nf, r) := ustore_options code ds (pr_prefix p) (vm_final vm) utf8 (pr_options p) (vm_map vm) [] s in
      match r with
      | Ok _ =>
          let final := ss_insert_all nf (vm_final vm) in
          let '(s2, m', req, r') := ustore_defaults code ds (pr_prefix p) m (vm_required vm) s1 in
          (s2, mk_vm m' final req, r')
      | _ => (s1, mk_vm m (vm_final vm) (vm_required vm), r)
      end
  end.
