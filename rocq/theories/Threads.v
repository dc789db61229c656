(** Threads that use the library at the same time.  A call reads and writes objects one access after the other; between
    two accesses of a thread the other threads can do theirs, in any order. *)

From Coq Require Import List Ascii String NArith ZArith Bool.
From Verif Require Import Base Errors Values OptDesc Positional Cmdline Parsers VarMap Format Objects.
Import ListNotations.

Set Implicit Arguments.

(** The objects that threads can share: descriptions (options_description.hpp 191-288), maps (variables_map.hpp 146-181), the
    variables of the user to which [value(&v)] points (value_semantic.hpp 207), and the member [m_message] of exceptions
    (errors.hpp 190, the only [mutable] member of the library).  The other objects a call uses are its arguments. *)
Inductive loc := AtDesc (x : nat) | AtMap (m : nat) | AtVariable (a : nat) | AtMessage (e : nat).

(** What is there; a variable may be uninitialised. *)
Definition cell (l : loc) : Type :=
  match l with
  | AtDesc _ => options_description
  | AtMap _ => map_object
  | AtVariable _ => option value
  | AtMessage _ => str
  end.

Definition memory := forall l : loc, cell l.

Definition loc_eq_dec (l l' : loc) : {l = l'} + {l <> l'}.
Proof. decide equality; apply PeanoNat.Nat.eq_dec. Defined.

Definition updated (mem : memory) (l : loc) (v : cell l) : memory :=
  fun l' => match loc_eq_dec l l' with left e => eq_rect l cell v l' e | right _ => mem l' end.

(** What is left to do of a computation: the next access, and what comes after it. *)
Inductive action (R : Type) : Type :=
| Return (r : R)
| Read (l : loc) (k : cell l -> action R)
| Write (l : loc) (v : cell l) (k : action R).

Fixpoint after {R S} (a : action R) (k : R -> action S) : action S :=
  match a with
  | Return r => k r
  | Read l f => Read l (fun v => after (f v) k)
  | Write l v a' => Write l v (after a' k)
  end.

(** What a thread can call. (the functions of parsers.hpp 165-255, variables_map.hpp 29-60, 106-181, options_description.hpp
    196-260, errors.hpp 186; [TVariable] is the user's own look at a variable) *)
Inductive thread_call :=
| TParse (x : nat) (read : list option_description -> outcome parsed_options)   (* parse_...(..., x) *)
| TPrint (x : nat) (width : Z)                                                  (* x.print(os, width) *)
| TAdd (x : nat) (d : option_description)                                       (* x.add(d) *)
| TStore (p : parsed_options) (x m : nat) (utf8 : bool)                         (* store(p, m), where p.description is &x *)
| TNotify (m : nat)                                                             (* notify(m) *)
| TGet (m : nat) (name : str)                                                   (* m[name] *)
| TNext (m : nat) (n : option nat)                                              (* m.next(&n) *)
| TVariable (a : nat)                                                           (* reads the variable *)
| TWhat (e : nat) (x : exn).                                                    (* e.what(), where e is otherwise x *)

(** What the thread sees of it. *)
Inductive answer :=
| AParsed (r : outcome parsed_options)
| AText (r : outcome str)
| AEnd (r : outcome unit)
| ANotified (events : list event) (r : outcome unit)
| AValue (r : outcome variable_value)
| AVariable (v : option value).

(** variables_map.cpp 166-180 [operator[]] *)
Fixpoint index_action (fuel : nat) (m : nat) (name : str) : action (outcome variable_value) :=
  match fuel with
  | O => Return NoFuel
  | S fuel' =>
      Read (AtMap m) (fun mo =>
        let v := vm_get (mo_map mo) name in
        match mo_next mo with
        | None => Return (Ok v)
        | Some b =>
            if any_empty (vv_value v) then index_action fuel' b name
            else if vv_defaulted v then
              after (index_action fuel' b name) (fun r =>
                Return (let* v2 := r in Ok (if negb (any_empty (vv_value v2)) && negb (vv_defaulted v2) then v2 else v)))
            else Return (Ok v)
        end)
  end.

(** detail/value_semantic.hpp 45-46: the assignments [*m_store_to = *value] made by [notify], one after the other *)
Fixpoint assign_action {R} (events : list event) (k : action R) : action R :=
  match events with
  | [] => k
  | EvStore a v :: events' => Write (AtVariable a) (Some v) (assign_action events' k)
  | EvCall _ _ :: events' => assign_action events' k
  end.

(** value_semantic.cpp 271-281 [replace_token].  Simplification: [m_message.replace] puts the text that [find] has seen. *)
Fixpoint replace_action (fuel : nat) (e : nat) (from to : str) : action (outcome unit) :=
  match fuel with
  | O => Return NoFuel
  | S fuel' =>
      Read (AtMessage e) (fun msg =>
        match find_sub from msg with
        | None => Return (Ok tt)
        | Some pos => Write (AtMessage e) (firstn pos msg ++ to ++ skipn (pos + List.length from) msg) (replace_action fuel' e from to)
        end)
  end.

(** Go on if there was no exception. *)
Definition then_action {A B} (a : action (outcome A)) (k : A -> action (outcome B)) : action (outcome B) :=
  after a (fun r => match r with Ok x => k x | Throw ex => Return (Throw ex) | Undef u => Return (Undef u) | NoFuel => Return NoFuel end).

(** value_semantic.cpp 335-345: the first loop *)
Fixpoint defaults_action (fuel : nat) (e : nat) (ds : list (str * (str * str))) (subst : smap str) : action (outcome unit) :=
  match ds with
  | [] => Return (Ok tt)
  | (name, (from, to)) :: ds' =>
      let missing := match sm_find name subst with None => true | Some v => is_empty v end in
      then_action (if missing then replace_action fuel e from to else Return (Ok tt)) (fun _ => defaults_action fuel e ds' subst)
  end.

(** value_semantic.cpp 347-353: the second loop *)
Fixpoint substitutions_action (fuel : nat) (e : nat) (ss : smap str) : action (outcome unit) :=
  match ss with
  | [] => Return (Ok tt)
  | (name, v) :: ss' =>
      then_action (replace_action fuel e ([c_percent] ++ name ++ [c_percent]) v) (fun _ => substitutions_action fuel e ss')
  end.

(** value_semantic.cpp 326-354 [substitute_placeholders] and 268: the text is read at the end. *)
Definition substitute_action (fuel : nat) (e : nat) (x : exn) (template : str) : action (outcome str) :=
  Write (AtMessage e) template
    match (let* name := canonical_option_name x in let* prefix := canonical_prefix (ex_style x) in Ok (name, prefix)) with
    | Ok (name, prefix) =>
        let subst := sm_set $"prefix" prefix (sm_set $"canonical_option" name (ex_subst x)) in
        then_action (defaults_action fuel e substitution_defaults subst) (fun _ =>
          then_action (substitutions_action fuel e subst) (fun _ => Read (AtMessage e) (fun msg => Return (Ok msg))))
    | Throw ex => Return (Throw ex)
    | Undef u => Return (Undef u)
    | NoFuel => Return NoFuel
    end.

(** value_semantic.cpp 263-269, 357-393 [what] *)
Definition what_action (fuel : nat) (e : nat) (x : exn) : action (outcome str) :=
  let t := error_template (ex_class x) in
  if has_option_name (ex_class x) then
    match ex_class x with
    | ambiguous_option alts =>
        if Z.eqb (ex_style x) allow_dash_for_short || Z.eqb (ex_style x) allow_slash_for_short
        then substitute_action fuel e x t
        else match ambiguous_template t alts with
             | Ok t' => substitute_action fuel e x t'
             | Throw ex => Return (Throw ex)
             | Undef u => Return (Undef u)
             | NoFuel => Return NoFuel
             end
    | _ => substitute_action fuel e x t
    end
  else Return (Ok t).

(** The accesses of a call.  Simplification: several accesses in a row to the same object are one.
    (the functions named in [thread_call]; variables_map.cpp 23-143, 182-186, 213-247, options_description.cpp 320-325, 658-696) *)
Definition call_action (fuel : nat) (ndebug : bool) (c : thread_call) : action answer :=
  match c with
  | TParse x read => Read (AtDesc x) (fun ds => Return (AParsed (read (ods_list ds))))
  | TPrint x width => Read (AtDesc x) (fun ds => Return (AText (print ndebug ds width)))
  | TAdd x d => Read (AtDesc x) (fun ds => Write (AtDesc x) (ods_add ds d) (Return (AEnd (Ok tt))))
  | TStore p x m utf8 =>
      Read (AtDesc x) (fun ds => Read (AtMap m) (fun mo =>
        let (vm, r) := store (mk_parsed (pr_options p) (Some (ods_list ds)) (pr_prefix p)) (mo_map mo) utf8 in
        Write (AtMap m) (mk_mo vm (mo_next mo)) (Return (AEnd r))))
  | TNotify m =>
      Read (AtMap m) (fun mo =>
        let (events, r) := notify (mo_map mo) in assign_action events (Return (ANotified events r)))
  | TGet m name => after (index_action fuel m name) (fun r => Return (AValue r))
  | TNext m n => Read (AtMap m) (fun mo => Write (AtMap m) (mk_mo (mo_map mo) n) (Return (AEnd (Ok tt))))
  | TVariable a => Read (AtVariable a) (fun v => Return (AVariable v))
  | TWhat e x => after (what_action fuel e x) (fun r => Return (AText r))
  end.

(** A thread makes calls, and what it does next depends on what it has seen. *)
Inductive program := PEnd | PCall (c : thread_call) (k : answer -> program).

Fixpoint thread_action (fuel : nat) (ndebug : bool) (p : program) : action (list answer) :=
  match p with
  | PEnd => Return []
  | PCall c k =>
      after (call_action fuel ndebug c) (fun a => after (thread_action fuel ndebug (k a)) (fun l => Return (a :: l)))
  end.

(** The thread [i] makes its next access; a thread that has finished does nothing. *)
Definition turn {R} (s : memory * list (action R)) (i : nat) : memory * list (action R) :=
  match nth_error (snd s) i with
  | Some (Read l k) => (fst s, set_cell (snd s) i (k (fst s l)))
  | Some (Write l v k) => (updated (fst s) l v, set_cell (snd s) i k)
  | _ => s
  end.

(** The threads take turns in the order of the schedule. *)
Definition interleave {R} (mem : memory) (ts : list (action R)) (schedule : list nat) : memory * list (action R) :=
  fold_left turn schedule (mem, ts).
