(** [notify] with notifiers that have a state of their own, may throw, and use the map that is being notified: they look at it, store
    further sources into it, put values into it, remove entries, or call [notify] again.  The iterators of the loops in [notify] are
    modelled; the lifetimes of values and semantics are not: a source stored by a notifier may replace the value that the notifier
    has been given a reference to, and removing an entry may destroy it. *)

From Coq Require Import List Ascii String NArith ZArith Bool.
From Verif Require Import Base Errors Values OptDesc Parsers VarMap MapUse.
Import ListNotations.

(** The calls a notifier may make (variables_map.hpp 36-55, 61, 86, 146-162). *)
Inductive inner_call :=
| IStore (p : parsed_options) (utf8 : bool)
| IInsert (name : str) (a : any) (defaulted : bool)
| IAssign (name : str) (a : any)
| IErase (name : str)
| IClear
| INotify.

(** What a notifier does: it returns or throws, with a new state of the user's code, or it makes a call and goes on with the state,
    the map and the result after that.  (The user's code; value_semantic.hpp 257-261 [notifier]) *)
Inductive program (S : Type) :=
| Finish (s : S) (thrown : option exn)
| Make (s : S) (c : inner_call) (go_on : S -> variables_map -> outcome unit -> program S).
Arguments Finish {S}.
Arguments Make {S}.

(** The record of a [notify]: the entries in the order in which they are visited, for each the map when it is reached and when it is
    left, and what happens between.  (Not in the code: for the statements, and for [removes].) *)
Inductive visit :=
| mk_visit (name : str) (v : variable_value) (before : variables_map) (acts : list act) (after : variables_map)
with act :=
| AEvent (e : event)
| ACall (c : inner_call)
| APass (visits : list visit).

Definition vi_name (x : visit) := match x with mk_visit name _ _ _ _ => name end.
Definition vi_entry (x : visit) := match x with mk_visit _ v _ _ _ => v end.
Definition vi_before (x : visit) := match x with mk_visit _ _ vm _ _ => vm end.
Definition vi_acts (x : visit) := match x with mk_visit _ _ _ acts _ => acts end.
Definition vi_after (x : visit) := match x with mk_visit _ _ _ _ vm => vm end.

(** Does this remove the entry [name]?  The entry may be there again afterwards, but iterators to it are lost. ([std::map::erase] and
    [clear], variables_map.cpp 195-200) *)
Fixpoint removes (name : str) (a : act) : bool :=
  match a with
  | ACall (IErase name') => str_eqb name' name
  | ACall IClear => true
  | APass visits => existsb (fun x => match x with mk_visit _ _ _ acts _ => existsb (removes name) acts end) visits
  | _ => false
  end.

Section Notify.
Variable S : Type.

(** The notifier number [f], called with a value in some state, while the map is in some state *)
Variable notifier : nat -> value -> S -> variables_map -> program S.

(** The body of a notifier; [pass] is [notify] on this map. (the user's code) *)
Fixpoint run_program (pass : S -> variables_map -> S * variables_map * list visit * outcome unit) (p : program S) (vm : variables_map)
    : S * variables_map * list act * outcome unit :=
  match p with
  | Finish s None => (s, vm, [], Ok tt)
  | Finish s (Some e) => (s, vm, [], Throw e)
  | Make s c go_on =>
      let '(s1, vm1, acts, r) :=
        match c with
        | IStore p utf8 => let (vm1, r) := store p vm utf8 in (s, vm1, [ACall c], r)
        | IInsert name a defaulted => (s, vm_insert vm name a defaulted, [ACall c], Ok tt)
        | IAssign name a => (s, vm_assign vm name a, [ACall c], Ok tt)
        | IErase name => (s, vm_erase vm name, [ACall c], Ok tt)
        | IClear => (s, vm_clear vm, [ACall c], Ok tt)
        | INotify => let '(s1, vm1, visits, r) := pass s vm in (s1, vm1, [APass visits], r)
        end in
      match r with
      | Undef u => (s1, vm1, acts, Undef u)
      | NoFuel => (s1, vm1, acts, NoFuel)
      | _ => let '(s2, vm2, acts2, r2) := run_program pass (go_on s1 vm1 r) vm1 in (s2, vm2, acts ++ acts2, r2)
      end
  end.

(** detail/value_semantic.hpp 40-51 [typed_value::notify], or the user's own [notify]: its effects [evs] one after
    another; a call is now the call of the notifier above.  [r] is how it ends if all its calls return ([Throw] for a user's own
    [notify] that throws; for a [typed_value] take a notifier that does not throw there: the one above may). *)
Fixpoint perform (pass : S -> variables_map -> S * variables_map * list visit * outcome unit) (evs : list event) (r : outcome unit)
    (s : S) (vm : variables_map) : S * variables_map * list act * outcome unit :=
  match evs with
  | [] => (s, vm, [], r)
  | EvStore addr v :: evs' =>
      let '(s2, vm2, acts2, r2) := perform pass evs' r s vm in (s2, vm2, AEvent (EvStore addr v) :: acts2, r2)
  | EvCall f v :: evs' =>
      let '(s1, vm1, acts1, r1) := run_program pass (notifier f v s vm) vm in
      match r1 with
      | Ok _ =>
          let '(s2, vm2, acts2, r2) := perform pass evs' r s1 vm1 in (s2, vm2, AEvent (EvCall f v) :: acts1 ++ acts2, r2)
      | _ => (s1, vm1, AEvent (EvCall f v) :: acts1, r1)
      end
  end.

(** [++k] on an iterator of the map, or [begin()] ([std::map], variables_map.cpp 232-234): the entry with the next key *)
Definition next_entry (k : option str) (m : smap variable_value) : option (str * variable_value) :=
  List.find (fun kv => match k with None => true | Some k => str_ltb k (fst kv) end) m.

(** variables_map.cpp 232-246: the loop, after the entry [k]; one unit of fuel for each entry and each call of [notify].  If the entry
    has been removed, [++k] is undefined. *)
Fixpoint notify_from (fuel : nat) (k : option str) (s : S) (vm : variables_map) : S * variables_map * list visit * outcome unit :=
  match fuel with
  | O => (s, vm, [], NoFuel)
  | Datatypes.S fuel' =>
      match next_entry k (vm_map vm) with
      | None => (s, vm, [], Ok tt)
      | Some (name, v) =>
          let '(s1, vm1, acts, r) :=
            match vv_sem v with
            | None => (s, vm, [], Ok tt)
            | Some sem =>
                let (evs, r) := vs_notify sem (vv_value v) in
                perform (fun s vm =>
                  match check_required (vm_required vm) (vm_map vm) with
                  | Ok _ => notify_from fuel' None s vm
                  | Throw e => (s, vm, [], Throw e)
                  | Undef u => (s, vm, [], Undef u)
                  | NoFuel => (s, vm, [], NoFuel)
                  end) evs r s vm
            end in
          let x := mk_visit name v vm acts vm1 in
          match r with
          | Ok _ =>
              if existsb (removes name) acts then (s1, vm1, [x], Undef UB_iterator)
              else let '(s2, vm2, visits, r2) := notify_from fuel' (Some name) s1 vm1 in (s2, vm2, x :: visits, r2)
          | _ => (s1, vm1, [x], r)
          end
      end
  end.

(** variables_map.cpp 213-247 [notify] *)
Definition notify_using (fuel : nat) (s : S) (vm : variables_map) : S * variables_map * list visit * outcome unit :=
  match check_required (vm_required vm) (vm_map vm) with
  | Ok _ => notify_from fuel None s vm
  | Throw e => (s, vm, [], Throw e)
  | Undef u => (s, vm, [], Undef u)
  | NoFuel => (s, vm, [], NoFuel)
  end.
End Notify.
