(** Running out of memory in [store]: src/variables_map.cpp.  [std::bad_alloc] can leave the function at many places; it
    is not an [error_with_option_name], so nothing is added to it and nothing is undone.  The model says in which states
    the map can be then.  It counts more places than a given compiler and library have. *)

From Coq Require Import List Ascii String NArith ZArith Bool.
From Verif Require Import Base Errors Values OptDesc Cmdline Parsers VarMap.
Import ListNotations.

(** What is in [value_store] if [parse] of a value semantic, called with this value and these tokens, is interrupted.
    (value_semantic.hpp 62-64) *)
Definition in_parse : Type := value_semantic -> any -> list str -> bool -> any -> Prop.

(** variables_map.cpp 55-69: the option is not skipped. *)
Definition considered (final : sset) (o : popt) : Prop :=
  is_empty (po_key o) = false /\ po_unreg o = false /\ ss_mem (po_key o) final = false.

Section Interrupted.
Variable during : in_parse.

(** variables_map.cpp 50-93: the first loop is interrupted and leaves this map. *)
Inductive interrupted_options (ds : list option_description) (prefix : Z) (final : sset) (utf8 : bool)
    (opts : list popt) (m : smap variable_value) : smap variable_value -> Prop :=
| io_between done todo m1 nf :                                  (* 54, 71, 73, 92 *)
    opts = done ++ todo -> store_options ds prefix final utf8 done m [] = (m1, nf, Ok tt) ->
    interrupted_options ds prefix final utf8 opts m m1
| io_entry done o todo m1 nf d :                                (* 76: a new entry; 79: a default is gone *)
    opts = done ++ o :: todo -> store_options ds prefix final utf8 done m [] = (m1, nf, Ok tt) ->
    considered final o -> find ds (po_key o) false false false = Ok d ->
    match sm_find (po_key o) m1 with Some v => vv_defaulted v = true | None => True end ->
    interrupted_options ds prefix final utf8 opts m (sm_set (po_key o) vv_empty m1)
| io_parse done o todo m1 nf d a :                              (* 82 *)
    opts = done ++ o :: todo -> store_options ds prefix final utf8 done m [] = (m1, nf, Ok tt) ->
    considered final o -> find ds (po_key o) false false false = Ok d ->
    let v0 := match sm_find (po_key o) m1 with Some v => v | None => vv_empty end in
    let v1 := if vv_defaulted v0 then vv_empty else v0 in
    during (od_sem d) (vv_value v1) (po_value o) utf8 a ->
    interrupted_options ds prefix final utf8 opts m (sm_set (po_key o) (mk_vv a (vv_defaulted v1) (vv_sem v1)) m1).

(** variables_map.cpp 107-142: the second loop is interrupted and leaves this map and these required names. *)
Inductive interrupted_defaults (prefix : Z) (ds : list option_description) (m : smap variable_value) (req : smap str)
    : smap variable_value -> smap str -> Prop :=
| id_between done todo m1 req1 :
    ds = done ++ todo -> store_defaults done prefix m req = (m1, req1) -> interrupted_defaults prefix ds m req m1 req1
| id_entry done d todo m1 req1 def :                            (* 126: the entry is made but not assigned *)
    ds = done ++ d :: todo -> store_defaults done prefix m req = (m1, req1) -> od_key d [] <> [] ->
    sm_mem (od_key d []) m1 = false -> vs_default (od_sem d) = Some def ->
    interrupted_defaults prefix ds m req (sm_set (od_key d []) vv_empty m1) req1
| id_default done d todo m1 req1 def :                          (* 138 *)
    ds = done ++ d :: todo -> store_defaults done prefix m req = (m1, req1) -> od_key d [] <> [] ->
    sm_mem (od_key d []) m1 = false -> vs_default (od_sem d) = Some def ->
    interrupted_defaults prefix ds m req (sm_set (od_key d []) (mk_vv def true (Some (od_sem d))) m1) req1
| id_required done d todo m1 req1 m2 req2 :                     (* 139-140: the name is made but not assigned *)
    ds = done ++ d :: todo -> store_defaults done prefix m req = (m1, req1) -> od_key d [] <> [] ->
    vs_required (od_sem d) = true -> sm_mem (od_key d []) req1 = false -> store_defaults [d] prefix m1 req1 = (m2, req2) ->
    interrupted_defaults prefix ds m req m2 (sm_set (od_key d []) [] req1).

(** variables_map.cpp 23-143 [store] is interrupted. *)
Inductive interrupted (p : parsed_options) (vm : variables_map) (utf8 : bool) : variables_map -> Prop :=
| in_options ds m :
    pr_desc p = Some ds ->
    interrupted_options ds (pr_prefix p) (vm_final vm) utf8 (pr_options p) (vm_map vm) m ->
    interrupted p vm utf8 (mk_vm m (vm_final vm) (vm_required vm))
| in_final ds m nf n :                                          (* 103: some of the names are inserted *)
    pr_desc p = Some ds ->
    store_options ds (pr_prefix p) (vm_final vm) utf8 (pr_options p) (vm_map vm) [] = (m, nf, Ok tt) ->
    interrupted p vm utf8 (mk_vm m (ss_insert_all (firstn n nf) (vm_final vm)) (vm_required vm))
| in_defaults ds m nf m' req' :
    pr_desc p = Some ds ->
    store_options ds (pr_prefix p) (vm_final vm) utf8 (pr_options p) (vm_map vm) [] = (m, nf, Ok tt) ->
    interrupted_defaults (pr_prefix p) ds m (vm_required vm) m' req' ->
    interrupted p vm utf8 (mk_vm m' (ss_insert_all nf (vm_final vm)) req').

(** A program that goes on whatever happens to its calls of [store]. *)
Inductive survives : variables_map -> list (parsed_options * bool) -> variables_map -> Prop :=
| su_nil vm : survives vm [] vm
| su_done vm p utf8 vm1 r h vm2 :
    store p vm utf8 = (vm1, r) -> r = Ok tt \/ (exists e, r = Throw e) -> survives vm1 h vm2 ->
    survives vm ((p, utf8) :: h) vm2
| su_interrupted vm p utf8 vm1 h vm2 :
    interrupted p vm utf8 vm1 -> survives vm1 h vm2 -> survives vm ((p, utf8) :: h) vm2.

End Interrupted.

(** [parse] of the values of the library: the value is replaced as a whole at the end (detail/value_semantic.hpp 85-130,
    192-205, value_semantic.cpp 114-124), except that a vector gets its elements one by one (detail/value_semantic.hpp
    133-160). *)
Inductive in_library_parse (s : value_semantic) (a : any) (toks : list str) (utf8 : bool) : any -> Prop :=
| lp_before : in_library_parse s a toks utf8 a
| lp_after b r : vs_parse s a toks utf8 = (b, r) -> in_library_parse s a toks utf8 b
| lp_vector lexical_cast utf8_to_local tv t xs n b r :
    s = typed lexical_cast utf8_to_local tv -> tv_type tv = TVec t ->
    (if utf8 then mapM utf8_to_local toks else Ok toks) = Ok xs ->
    validate lexical_cast (TVec t) a (firstn n xs) = (b, r) ->
    in_library_parse s a toks utf8 b.
