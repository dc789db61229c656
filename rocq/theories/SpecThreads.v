(** Vocabulary for threads. *)

From Coq Require Import List Ascii String NArith ZArith Bool.
From Verif Require Import Base Errors Values OptDesc Positional Cmdline Parsers VarMap Format Objects SpecStore Threads.
Import ListNotations.

(** A thread that is alone *)
Fixpoint run_alone {R} (mem : memory) (a : action R) : memory * R :=
  match a with
  | Return r => (mem, r)
  | Read l k => run_alone mem (k (mem l))
  | Write l v k => run_alone (updated mem l v) k
  end.

(** The accesses it makes when it is alone, and whether they write. *)
Fixpoint touches {R} (mem : memory) (a : action R) : list (bool * loc) :=
  match a with
  | Return _ => []
  | Read l k => (false, l) :: touches mem (k (mem l))
  | Write l v k => (true, l) :: touches (updated mem l v) k
  end.

(** Two threads get in each other's way: one writes an object that the other reads or writes, each looked at alone. *)
Definition conflict {R} (mem : memory) (ts : list (action R)) : Prop :=
  exists i j t u l w, i <> j /\ nth_error ts i = Some t /\ nth_error ts j = Some u
    /\ In (true, l) (touches mem t) /\ In (w, l) (touches mem u).

(** All threads have finished. *)
Definition all_done {R} (ts : list (action R)) : Prop := Forall (fun t => exists r, t = Return r) ts.

(** A lookup of [name] in the map [m] comes to the map [k]: it goes on to the next map until it finds an explicit value. *)
Inductive looks_at (mem : memory) (name : str) : nat -> nat -> Prop :=
| la_here m : looks_at mem name m m
| la_next m n k : mo_next (mem (AtMap m)) = Some n -> ~ explicit (vm_get (mo_map (mem (AtMap m))) name) ->
    looks_at mem name n k -> looks_at mem name m k.

(** The objects a call may read ([false]) or write ([true]). *)
Inductive accesses (mem : memory) : thread_call -> bool -> loc -> Prop :=
| as_parse x read : accesses mem (TParse x read) false (AtDesc x)
| as_print x width : accesses mem (TPrint x width) false (AtDesc x)
| as_add x d w : accesses mem (TAdd x d) w (AtDesc x)
| as_store_from p x m utf8 : accesses mem (TStore p x m utf8) false (AtDesc x)
| as_store_to p x m utf8 w : accesses mem (TStore p x m utf8) w (AtMap m)
| as_notify m : accesses mem (TNotify m) false (AtMap m)
| as_notify_to m a v : In (EvStore a v) (fst (notify (mo_map (mem (AtMap m))))) -> accesses mem (TNotify m) true (AtVariable a)
| as_get m name k : looks_at mem name m k -> accesses mem (TGet m name) false (AtMap k)
| as_next m n w : accesses mem (TNext m n) w (AtMap m)
| as_variable a : accesses mem (TVariable a) false (AtVariable a)
| as_what e x w : has_option_name (ex_class x) = true -> accesses mem (TWhat e x) w (AtMessage e).

(** The member functions that are [const], and the functions that take everything by reference to [const]. *)
Definition is_const (c : thread_call) : bool :=
  match c with TParse _ _ | TPrint _ _ | TGet _ _ | TVariable _ | TWhat _ _ => true | _ => false end.

(** What belongs to a thread: maps, variables and exceptions.  Descriptions are shared. *)
Record property := mk_property { own_maps : nat -> Prop; own_variables : nat -> Prop; own_errors : nat -> Prop }.

(** The value semantic gives its value only to variables of the thread. *)
Definition gives_to (own : property) (s : value_semantic) : Prop :=
  forall x a v, In (EvStore a v) (fst (vs_notify s x)) -> own_variables own a.

(** The thread uses only its own objects, and descriptions, which it does not change.  What it stores into its maps goes to its variables. *)
Definition own_call (own : property) (mem : memory) (c : thread_call) : Prop :=
  match c with
  | TParse _ _ | TPrint _ _ => True
  | TAdd _ _ => False
  | TStore _ x m _ => own_maps own m /\ Forall (fun d => gives_to own (od_sem d)) (ods_list (mem (AtDesc x)))
  | TNotify m | TGet m _ => own_maps own m
  | TNext m n => own_maps own m /\ forall k, n = Some k -> own_maps own k
  | TVariable a => own_variables own a
  | TWhat e _ => own_errors own e
  end.

Fixpoint own_program (own : property) (mem : memory) (p : program) : Prop :=
  match p with PEnd => True | PCall c k => own_call own mem c /\ forall a, own_program own mem (k a) end.

(** The maps of the thread point to its maps, and what they contain goes to its variables. *)
Definition own_start (own : property) (mem : memory) : Prop :=
  forall m, own_maps own m ->
    (forall n, mo_next (mem (AtMap m)) = Some n -> own_maps own n)
    /\ Forall (fun kv => forall s, vv_sem (snd kv) = Some s -> gives_to own s) (vm_map (mo_map (mem (AtMap m)))).

(** Nothing belongs to both. *)
Definition disjoint (a b : property) : Prop :=
  (forall m, own_maps a m -> ~ own_maps b m) /\ (forall v, own_variables a v -> ~ own_variables b v)
  /\ (forall e, own_errors a e -> ~ own_errors b e).

(** What a thread accesses next, and whether it writes. *)
Definition next_access {R} (a : action R) : option (bool * loc) :=
  match a with Return _ => None | Read l _ => Some (false, l) | Write l _ _ => Some (true, l) end.

(** A data race: two threads are about to access the same object, and one of them writes. *)
Definition race {R} (ts : list (action R)) : Prop :=
  exists i j t u l w, i <> j /\ nth_error ts i = Some t /\ nth_error ts j = Some u
    /\ next_access t = Some (true, l) /\ next_access u = Some (w, l).

(** Calls of [const] functions, except [what()] of an exception that carries an option name. *)
Definition only_looks (c : thread_call) : Prop :=
  is_const c = true /\ forall e x, c = TWhat e x -> has_option_name (ex_class x) = false.

Fixpoint only_looking (p : program) : Prop :=
  match p with PEnd => True | PCall c k => only_looks c /\ forall a, only_looking (k a) end.

(** [v] is what the variable [a], which was [old], is after the assignments. *)
Definition left_in (a : nat) (events : list event) (old v : option value) : Prop :=
  (v = old /\ forall x, ~ In (EvStore a x) events)
  \/ exists x before rest, v = Some x /\ events = before ++ EvStore a x :: rest /\ forall y, ~ In (EvStore a y) rest.
