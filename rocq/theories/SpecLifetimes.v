(** Vocabulary for objects that end. *)

From Coq Require Import List Ascii String NArith ZArith Bool.
From Verif Require Import Base Errors Values OptDesc Positional Cmdline Parsers VarMap Build Objects SpecStore Lifetimes.
Import ListNotations.

(** The call destroys an object. *)
Definition is_end (c : life_call) : bool :=
  match c with LEndDesc _ | LEndPos _ | LEndMap _ | LEndVariable _ => true | _ => false end.

(** The same program if nothing were ever destroyed. *)
Definition without_ends (cs : list life_call) : list life_call := filter (fun c => negb (is_end c)) cs.

(** What the last of the calls that tells something tells. *)
Definition latest {A} (tells : life_call -> option A) (before : list life_call) (x : A) : Prop :=
  exists b1 c b2, before = b1 ++ c :: b2 /\ tells c = Some x /\ forall d, In d b2 -> tells d = None.

(** The call gives the parser [p] a description, ... a positional description, or the map [m] a next map. *)
Definition options_of (p : nat) (c : life_call) : option nat :=
  match c with LOptions p' x => if Nat.eqb p' p then Some x else None | _ => None end.
Definition positional_of (p : nat) (c : life_call) : option nat :=
  match c with LPositional p' q => if Nat.eqb p' p then Some q else None | _ => None end.
Definition next_of (m : nat) (c : life_call) : option (option nat) :=
  match c with LNext m' n => if Nat.eqb m' m then Some n else None | _ => None end.

(** The source [s] was read with the description [x]: it is that of the call, or the one the parser had been given. *)
Definition makes_source (c : life_call) : bool := match c with LRun _ | LParse _ _ => true | _ => false end.
Definition read_with (before : list life_call) (s x : nat) : Prop :=
  exists b1 c b2, before = b1 ++ c :: b2 /\ List.length (filter makes_source b1) = s
    /\ ((exists read, c = LParse x read) \/ (exists p, c = LRun p /\ latest (options_of p) b1 x)).

(** A lookup of [name] in the map [m] comes to the map [k]: it goes on to the next map until it finds an explicit value. *)
Inductive comes_to (before : list life_call) (w : life_world) (name : str) : nat -> nat -> Prop :=
| ct_here m : comes_to before w name m m
| ct_next m mo n k : nth_error (lw_maps w) m = Some (Some mo) -> latest (next_of m) before (Some n) ->
    ~ explicit (vm_get (mo_map mo) name) -> comes_to before w name n k -> comes_to before w name m k.

(** After the calls [before] and in the state [w], the call uses ... *)

(** ... the description [x]: because it is named, because the parser has been given it, or because the source was read with it; *)
Inductive needs_desc (before : list life_call) (x : nat) : life_call -> Prop :=
| nd_copy : needs_desc before x (LDesc (DCopy x))
| nd_add d : needs_desc before x (LDesc (DAdd x d))
| nd_group_to b : needs_desc before x (LDesc (DAddGroup x b))
| nd_group a : needs_desc before x (LDesc (DAddGroup a x))
| nd_options p : needs_desc before x (LOptions p x)
| nd_run p : latest (options_of p) before x -> needs_desc before x (LRun p)
| nd_parse read : needs_desc before x (LParse x read)
| nd_store s m utf8 : read_with before s x -> needs_desc before x (LStore s m utf8).

(** ... the positional description [q]; *)
Inductive needs_pos (before : list life_call) (q : nat) : life_call -> Prop :=
| np_add name n : needs_pos before q (LAddPos q name n)
| np_positional p : needs_pos before q (LPositional p q)
| np_run p : latest (positional_of p) before q -> needs_pos before q (LRun p).

(** ... the map [k]: because it is named or because a lookup comes to it; *)
Inductive needs_map (before : list life_call) (w : life_world) (k : nat) : life_call -> Prop :=
| nm_next n : needs_map before w k (LNext k n)
| nm_next_to m : needs_map before w k (LNext m (Some k))
| nm_store s utf8 : needs_map before w k (LStore s k utf8)
| nm_notify : needs_map before w k (LNotify k)
| nm_get m name : comes_to before w name m k -> needs_map before w k (LGet m name).

(** ... the variable of the user at [a]: notify writes to it. *)
Inductive needs_variable (w : life_world) (a : nat) : life_call -> Prop :=
| nv_notify m mo v : nth_error (lw_maps w) m = Some (Some mo) -> In (EvStore a v) (fst (notify (mo_map mo))) ->
    needs_variable w a (LNotify m).

(** The call uses an object that one of the calls [before] has destroyed. *)
Definition uses_destroyed (before : list life_call) (w : life_world) (c : life_call) : Prop :=
  (exists x, In (LEndDesc x) before /\ needs_desc before x c)
  \/ (exists q, In (LEndPos q) before /\ needs_pos before q c)
  \/ (exists k, In (LEndMap k) before /\ needs_map before w k c)
  \/ (exists a, In (LEndVariable a) before /\ needs_variable w a c).

(** The call destroys an object that exists and has not been destroyed before. *)
Definition ends_once (before : list life_call) (w : life_world) (c : life_call) : Prop :=
  match c with
  | LEndDesc x => ~ In c before /\ x < List.length (lw_descs w)
  | LEndPos q => ~ In c before /\ q < List.length (lw_positionals w)
  | LEndMap m => ~ In c before /\ m < List.length (lw_maps w)
  | _ => True
  end.

(** Every object lives long enough: no call of the program uses, or destroys again, what an earlier one has destroyed.
    The state that decides what is used is the one the program has if nothing is destroyed. *)
Definition lives_long_enough (fuel : nat) (cs : list life_call) : Prop :=
  forall before c after xs w, cs = before ++ c :: after -> life_run fuel life_start (without_ends before) = (xs, Ok w) ->
    if is_end c then ends_once before w c else ~ uses_destroyed before w c.

(** The call leaves the map [m] alone. *)
Definition leaves_map (m : nat) (c : life_call) : Prop :=
  match c with LNext k _ | LStore _ k _ | LEndMap k => k <> m | _ => True end.
