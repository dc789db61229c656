(** Vocabulary for the properties of [store], [notify] and value semantics. *)

From Coq Require Import List Ascii String NArith ZArith Bool Sorting.Sorted.
From Verif Require Import Base Errors Spec Values OptDesc SpecLookup Cmdline Parsers VarMap.
Import ListNotations.

(** ** What a source says *)

(** The values with which the options [os] mention [name], in order. *)
Definition occurrences (os : list popt) (name : str) : list (list str) :=
  map po_value (filter (fun o => str_eqb (po_key o) name && negb (po_unreg o)) os).

(** The source mentions the option. *)
Definition mentions (p : parsed_options) (name : str) : Prop := occurrences (pr_options p) name <> [].

(** The source's description has this option under the name. *)
Definition resolves (p : parsed_options) (name : str) (d : option_description) : Prop :=
  exists ds, pr_desc p = Some ds /\ find ds name false false false = Ok d.

(** Starting with the value [a], all these occurrences can be parsed and give [b]. *)
Inductive parsed_all (s : value_semantic) (utf8 : bool) : any -> list (list str) -> any -> Prop :=
| pa_nil a : parsed_all s utf8 a [] a
| pa_cons a xs a' occs b :
    vs_parse s a xs utf8 = (a', Ok tt) -> parsed_all s utf8 a' occs b ->
    parsed_all s utf8 a (xs :: occs) b.

(** ** Maps *)

Definition entry (vm : variables_map) (name : str) : option variable_value := sm_find name (vm_map vm).

(** The value that was given so far, if any: a default is none. *)
Definition given (e : option variable_value) : any :=
  match e with
  | Some v => if vv_defaulted v then None else vv_value v
  | None => None
  end.

(** The default that the options [ds] have for [name]: that of the first option with this
    key that has one. *)
Inductive default_entry (ds : list option_description) (name : str) : option variable_value -> Prop :=
| de_some ds1 d ds2 def :
    ds = ds1 ++ d :: ds2 -> is_key d [] name -> vs_default (od_sem d) = Some def ->
    Forall (fun d' => is_key d' [] name -> vs_default (od_sem d') = None) ds1 ->
    default_entry ds name (Some (mk_vv def true (Some (od_sem d))))
| de_none :
    Forall (fun d' => is_key d' [] name -> vs_default (od_sem d') = None) ds ->
    default_entry ds name None.

(** All these sources are stored, in order, without a failure. *)
Definition history := list (parsed_options * bool).
Inductive stores : variables_map -> history -> variables_map -> Prop :=
| sts_nil vm : stores vm [] vm
| sts_cons vm p utf8 vm1 h vm2 :
    store p vm utf8 = (vm1, Ok tt) -> stores vm1 h vm2 -> stores vm ((p, utf8) :: h) vm2.

(** All the occurrences of [name] in all these sources, parsed one after another. *)
Inductive accumulated (name : str) : any -> history -> any -> Prop :=
| ac_nil a : accumulated name a [] a
| ac_cons a p utf8 d a' h b :
    resolves p name d -> parsed_all (od_sem d) utf8 a (occurrences (pr_options p) name) a' ->
    accumulated name a' h b -> accumulated name a ((p, utf8) :: h) b
| ac_skip a p utf8 h b :
    ~ mentions p name -> accumulated name a h b -> accumulated name a ((p, utf8) :: h) b.

(** All the options that the sources of a history know. *)
Definition described (h : history) : list option_description :=
  List.concat (map (fun pu => match pr_desc (fst pu) with Some ds => ds | None => [] end) h).

Definition never_mentioned (h : history) (name : str) : Prop :=
  Forall (fun pu => ~ mentions (fst pu) name) h.

(** These sources are stored in order; exceptions are caught and ignored. *)
Inductive calls : variables_map -> history -> variables_map -> Prop :=
| cls_nil vm : calls vm [] vm
| cls_cons vm p utf8 vm1 r h vm2 :
    store p vm utf8 = (vm1, r) -> r = Ok tt \/ (exists e, r = Throw e) -> calls vm1 h vm2 ->
    calls vm ((p, utf8) :: h) vm2.

(** ** Required options *)

(** All the options that the sources know, with the prefix style of the source. *)
Definition declarations (h : history) : list (Z * option_description) :=
  List.concat (map (fun pu => match pr_desc (fst pu) with
                              | Some ds => map (pair (pr_prefix (fst pu))) ds
                              | None => []
                              end) h).

Definition demands (name : str) (zd : Z * option_description) : Prop :=
  is_key (snd zd) [] name /\ vs_required (od_sem (snd zd)) = true.

Definition has_value (vm : variables_map) (name : str) : Prop :=
  exists v x, entry vm name = Some v /\ vv_value v = Some x.

(** Some source requires the option, and it has no value. *)
Definition missing (h : history) (vm : variables_map) (name : str) : Prop :=
  name <> [] /\ Exists (demands name) (declarations h) /\ ~ has_value vm name.

Definition display (zd : Z * option_description) : str := canonical_display_name (snd zd) (fst zd).

(** How messages name the option [d] if the command line style is [style]: "--name" or "-name" if long names can be
    written that way, "-x" or "/x" if only short names can be written that way, otherwise just the name.  (A short name
    is stored as "-x".) *)
Inductive shown (style : Z) (d : option_description) : str -> Prop :=
| sh_long first rest : bit style 0 -> od_longs d = first :: rest -> shown style d ($"--" ++ first)
| sh_disguised first rest : ~ bit style 0 -> bit style 12 -> od_longs d = first :: rest -> shown style d ($"-" ++ first)
| sh_no_long : bit style 0 \/ bit style 12 -> od_longs d = [] -> shown style d (od_short d)
| sh_dash b x : ~ bit style 0 -> ~ bit style 12 -> bit style 1 -> bit style 2 -> od_short d = [b; x] ->
    shown style d ($"-" ++ [x])
| sh_slash b x : ~ bit style 0 -> ~ bit style 12 -> bit style 1 -> ~ bit style 2 -> bit style 3 -> od_short d = [b; x] ->
    shown style d ($"/" ++ [x])
| sh_no_short : ~ bit style 0 -> ~ bit style 12 -> (forall b x, od_short d <> [b; x]) ->
    shown style d (hd (od_short d) (od_longs d))
| sh_none : ~ bit style 0 -> ~ bit style 12 -> ~ bit style 1 \/ (~ bit style 2 /\ ~ bit style 3) ->
    shown style d (hd (od_short d) (od_longs d)).

(** The option is reported under the longest of the names it is displayed with, the first
    of these if there are several. *)
Definition reported (h : history) (name disp : str) : Prop :=
  exists l1 zd l2, declarations h = l1 ++ zd :: l2 /\ demands name zd /\ disp = display zd
    /\ Forall (fun zd' => demands name zd' -> List.length (display zd') < List.length disp) l1
    /\ Forall (fun zd' => demands name zd' -> List.length (display zd') <= List.length disp) l2.

(** ** Notification *)

(** Notifying about the entry has these effects. *)
Definition notifies (kv : str * variable_value) (ev : list event) : Prop :=
  match vv_sem (snd kv) with
  | Some s => vs_notify s (vv_value (snd kv)) = (ev, Ok tt)
  | None => ev = []
  end.

(** [m] lists the entries of the map in increasing order of keys. *)
Definition entries_in_order (vm : variables_map) (m : list (str * variable_value)) : Prop :=
  StronglySorted str_lt (map fst m) /\ forall k v, In (k, v) m <-> entry vm k = Some v.

(** ** Values *)

(** An explicit value. *)
Definition explicit (v : variable_value) : Prop := vv_value v <> None /\ vv_defaulted v = false.

(** Types of which an option has one value. *)
Definition scalar (t : vty) : Prop := match t with TVec _ => False | _ => True end.

(** [tok] is one of these words, in upper or lower case. *)
Definition spells (words : list str) (tok : str) : Prop := Exists (same_up_to_case tok) words.

(** The boolean words. *)
Definition true_words : list str := [[]; $"on"; $"yes"; $"1"; $"true"].
Definition false_words : list str := [$"off"; $"no"; $"0"; $"false"].

Section Conversions.
(** How the numeric types are read: see Values.v. *)
Variable lexical_cast : nat -> str -> option Z.

(** The token denotes this value of the type. *)
Inductive converts : vty -> str -> value -> Prop :=
| cv_string tok : converts TString tok (VString tok)
| cv_lex n tok z : lexical_cast n tok = Some z -> converts (TLex n) tok (VLex n z)
| cv_true tok : ascii7 tok -> spells true_words tok -> converts TBool tok (VBool true)
| cv_false tok : ascii7 tok -> spells false_words tok -> converts TBool tok (VBool false)
| cv_opt t tok x : converts t tok x -> converts (TOpt t) tok (VOpt t (Some x))
| cv_vec t tok x : converts t tok x -> converts (TVec t) tok (VVec t [x]).

(** The token denotes no value of the type; this is the exception thrown. *)
Inductive rejects : vty -> str -> exn -> Prop :=
| rj_lex n tok : lexical_cast n tok = None -> rejects (TLex n) tok (mk_invalid_option_value tok)
| rj_bool tok l : ascii7 tok -> ~ spells (true_words ++ false_words) tok -> lowered tok l ->
    rejects TBool tok (mk_invalid_bool_value l)
| rj_opt t tok e : rejects t tok e -> rejects (TOpt t) tok e
| rj_vec t tok e : rejects t tok e -> rejects (TVec t) tok e.

End Conversions.

(** The tokens as the semantics sees them: UTF-8 input is converted to the local encoding. *)
Definition decoded (utf8_to_local : str -> outcome str) (utf8 : bool) (xs ys : list str) : Prop :=
  if utf8 then Forall2 (fun x y => utf8_to_local x = Ok y) xs ys else ys = xs.

(** ** Consistent types *)

(** [default_value] and [implicit_value] take values of the type of the option. *)
Definition well_typed (tv : typed_value) : Prop :=
  match tv_default tv with Some (v, _) => value_ty v = tv_type tv | None => True end
  /\ match tv_implicit tv with Some (v, _) => value_ty v = tv_type tv | None => True end.

(** A semantics of the library for values of this type. *)
Definition library_semantic (t : vty) (s : value_semantic) : Prop :=
  (exists lexical_cast utf8_to_local tv,
     s = typed lexical_cast utf8_to_local tv /\ tv_type tv = t /\ well_typed tv
     /\ (forall x u, utf8_to_local x <> Undef u))
  \/ (t = TString /\ exists utf8_to_local zero, s = untyped utf8_to_local zero
        /\ (forall x u, utf8_to_local x <> Undef u)).

(** In all sources, an option that can be stored under [name] has type [ty name]. *)
Definition consistent (ty : str -> vty) (h : history) : Prop :=
  forall p u ds name d, In (p, u) h -> pr_desc p = Some ds ->
    find ds name false false false = Ok d \/ (In d ds /\ is_key d [] name) ->
    library_semantic (ty name) (od_sem d).

(** All options have semantics of the library. *)
Definition library_only (h : history) : Prop :=
  forall p u ds d, In (p, u) h -> pr_desc p = Some ds -> In d ds -> exists t, library_semantic t (od_sem d).
