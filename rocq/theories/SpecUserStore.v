(** Vocabulary for the user's code that is called while a source is stored. *)

From Coq Require Import List Ascii String NArith ZArith Bool.
From Verif Require Import Base Errors Spec Values OptDesc Cmdline Parsers VarMap SpecStore UserStore.
Import ListNotations.

(** A call of the user's code for the option [d], with its answer: [parse] for the name [name], given the value [before] and the tokens;
    it has left the value [after] and ended with [r].  Or [apply_default], which has ended with [r]. *)
Inductive user_call :=
| UParse (d : option_description) (name : str) (before : any) (tokens : list str) (after : any) (r : outcome unit)
| UDefault (d : option_description) (r : outcome (option any)).

(** Called in this order, the user's code gives these answers, and its state goes from the first to the last. *)
Inductive made {S} (code : user_code S) (utf8 : bool) : S -> list user_call -> S -> Prop :=
| ma_none s : made code utf8 s [] s
| ma_parse s d name before tokens after r s1 h s2 :
    us_parse (code d) before tokens utf8 s = (s1, (after, r)) -> made code utf8 s1 h s2 ->
    made code utf8 s (UParse d name before tokens after r :: h) s2
| ma_default s d r s1 h s2 :
    us_default (code d) s = (s1, r) -> made code utf8 s1 h s2 -> made code utf8 s (UDefault d r :: h) s2.

(** The call returned. *)
Definition returned (c : user_call) : Prop :=
  match c with UParse _ _ _ _ _ r => r = Ok tt | UDefault _ r => exists def, r = Ok def end.

(** The options of a source that are to be stored: those with a name, known to the parser, and not decided by an earlier source. *)
Definition due (p : parsed_options) (vm : variables_map) : list popt :=
  filter (fun o => negb (is_empty (po_key o)) && negb (po_unreg o) && negb (ss_mem (po_key o) (vm_final vm))) (pr_options p).

(** The call for an option of the source: to the option of that name, with the tokens of the source. *)
Definition call_for (ds : list option_description) (o : popt) (c : user_call) : Prop :=
  exists d before after r, c = UParse d (po_key o) before (po_value o) after r /\ find ds (po_key o) false false false = Ok d.

(** The value that the calls have left for [name], beginning with what was given before; a default counts as nothing. *)
Definition latest (vm : variables_map) (h : list user_call) (name : str) : any :=
  fold_left (fun a c => match c with UParse _ n _ _ after _ => if str_eqb n name then after else a | UDefault _ _ => a end) h
    (given (entry vm name)).

(** Each call is given what the calls before have left for that name. *)
Definition continued (vm : variables_map) (h : list user_call) : Prop :=
  forall h1 d name before tokens after r h2, h = h1 ++ UParse d name before tokens after r :: h2 -> before = latest vm h1 name.

(** The names the calls were about. *)
Definition parsed_names (h : list user_call) : list str :=
  flat_map (fun c => match c with UParse _ name _ _ _ _ => [name] | UDefault _ _ => [] end) h.

(** The options of a description are asked for defaults, in order, if there is no value for them yet; a call that does not return is
    the last. *)
Inductive asks (present : str -> Prop) : list option_description -> list user_call -> Prop :=
| as_nil : asks present [] []
| as_skip d ds h : od_key d [] = [] \/ present (od_key d []) -> asks present ds h -> asks present (d :: ds) h
| as_none d ds h : od_key d [] <> [] -> ~ present (od_key d []) -> asks present ds h -> asks present (d :: ds) (UDefault d (Ok None) :: h)
| as_some d ds a h :
    od_key d [] <> [] -> ~ present (od_key d []) -> asks (fun k => present k \/ k = od_key d []) ds h ->
    asks present (d :: ds) (UDefault d (Ok (Some a)) :: h)
| as_end d ds r : od_key d [] <> [] -> ~ present (od_key d []) -> (forall x, r <> Ok x) -> asks present (d :: ds) [UDefault d r].

(** These are the calls for a source, [later] being the options that are not reached: one for each option in order, then those for the
    defaults; only the last may fail to return; and they end early only with such a call or at an option the description does not
    know. *)
Definition carried_out (ds : list option_description) (p : parsed_options) (vm : variables_map)
    (parses defaults : list user_call) (later : list popt) : Prop :=
  (exists taken, due p vm = taken ++ later /\ Forall2 (call_for ds) taken parses)
  /\ continued vm parses
  /\ (forall h1 c h2, parses ++ defaults = h1 ++ c :: h2 -> h2 <> [] -> returned c)
  /\ (later = [] /\ Forall returned parses /\ asks (fun k => entry vm k <> None \/ In k (parsed_names parses)) ds defaults
      \/ defaults = [] /\ Exists (fun c => ~ returned c) parses
      \/ defaults = [] /\ Forall returned parses
         /\ exists o rest, later = o :: rest /\ forall d, find ds (po_key o) false false false <> Ok d).

(** The entries of the map afterwards: those parsed have what the calls have left, those present before are as they were, and the
    others have the default they were asked for. *)
Definition filled (ds : list option_description) (vm vm' : variables_map) (parses defaults : list user_call) : Prop :=
  forall name,
    (In name (parsed_names parses) ->
       exists d, find ds name false false false = Ok d /\ entry vm' name = Some (mk_vv (latest vm parses name) false (Some (od_sem d))))
    /\ (~ In name (parsed_names parses) -> entry vm name <> None -> entry vm' name = entry vm name)
    /\ (~ In name (parsed_names parses) -> entry vm name = None ->
          (forall d a, In (UDefault d (Ok (Some a))) defaults -> od_key d [] = name -> entry vm' name = Some (mk_vv a true (Some (od_sem d))))
          /\ ((forall d a, In (UDefault d (Ok (Some a))) defaults -> od_key d [] <> name) -> entry vm' name = None)).

(** The names that later sources cannot change: those before, and those parsed that are not composing. *)
Definition decided (ds : list option_description) (vm vm' : variables_map) (parses : list user_call) : Prop :=
  forall name, In name (vm_final vm') <->
    In name (vm_final vm)
    \/ In name (parsed_names parses) /\ exists d, find ds name false false false = Ok d /\ vs_composing (od_sem d) = false.

(** The code that only does what the semantics in [Values.v] do. *)
Definition plain_code : user_code unit := fun d =>
  mk_us (fun a xs utf8 s => (s, vs_parse (od_sem d) a xs utf8)) (fun s => (s, Ok (vs_default (od_sem d)))).
