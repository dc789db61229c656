(** Who deletes value semantics: options_description.hpp, src/options_description.cpp, src/variables_map.cpp.
    [value<T>()] returns a raw pointer; the constructor of an option makes a group of [shared_ptr] that own it.  Descriptions hold
    options, entries of maps hold value semantics.  [boost::shared_ptr] is modelled by what it guarantees: the object is deleted when
    the last pointer of its group goes away.  Options are shared as well; here a description holds the group of each of its options
    directly, also for those in [groups], which comes to the same: a group is held as long as some description has the option.
    Descriptions and maps are not distinguished.  Only references are represented here, and no values, errors or [bad_alloc]. *)

From Coq Require Import List Ascii String NArith ZArith Bool Arith.
From Verif Require Import Base Errors Values OptDesc.
Import ListNotations.

(** The references of a description or a map: name and group. (options_description.hpp 275, 286; variables_map.hpp 95) *)
Definition references : Type := list (str * nat).

(** The value semantics that have been deleted, the number of those that have been made, the value semantic of each group, and the
    descriptions and maps; an empty cell has been destroyed. (value_semantic.hpp 377-391 [value], options_description.hpp 155,
    275, variables_map.hpp 95) *)
Record owners := mk_ow {
  ow_gone : list nat;
  ow_made : nat;
  ow_groups : list nat;
  ow_holders : list (option references) }.

(** No object yet ([value], value_semantic.hpp 377-391, has not been called) *)
Definition owners_start : owners := mk_ow [] 0 [] [].

(** What a program can do; objects of each kind are numbered in the order of their construction. (options_description.hpp
    171-178, 196-218, 231; value_semantic.hpp 187-290, 385-391; variables_map.hpp 38-53, 146-160) *)
Inductive own_call :=
| ONew                                  (* value<T>() *)
| OSet (s : nat)                        (* a setter: s->required(); *)
| ODelete (s : nat)                     (* delete s; *)
| OHolder                               (* options_description h;   variables_map h; *)
| ODeclare (h : nat) (name : str) (s : nat)  (* h.add_options()(name, s); *)
| OCopy (h : nat)                       (* options_description k(h);   variables_map k(h); *)
| OInclude (h k : nat)                  (* h.add(k); *)
| OStore (m h : nat) (name : str)       (* store: an option with this name, described by h, or its default *)
| OWork (h : nat) (name : str)          (* parsing asks the value semantic; notify calls it *)
| OErase (m : nat) (name : str)         (* m.erase(name); *)
| OClear (m : nat)                      (* m.clear(); *)
| OEnd (h : nat).                       (* the end of the scope of h *)

(** The references of a description or map: it must exist. (options_description.hpp 275) *)
Definition refs_of (w : owners) (h : nat) : outcome references :=
  match nth_error (ow_holders w) h with
  | Some (Some l) => Ok l
  | _ => Undef UB_null
  end.

(** Some description or map has a pointer of the group. (options_description.hpp 153-155, variables_map.hpp 90-95) *)
Definition held (hs : list (option references)) (g : nat) : bool :=
  existsb (fun h => match h with Some l => existsb (fun x => Nat.eqb (snd x) g) l | None => false end) hs.

(** [delete] of each of these: what has been deleted before cannot be deleted again. (options_description.cpp 70-72: the destructor,
    of the member declared in options_description.hpp 155) *)
Fixpoint delete_all (gone : list nat) (ss : list nat) : outcome (list nat) :=
  match ss with
  | [] => Ok gone
  | s :: ss' => if existsb (Nat.eqb s) gone then Undef UB_dangling else delete_all (s :: gone) ss'
  end.

(** The groups that were held and are not any more (options_description.cpp 70-72, variables_map.cpp 84, 127, 197) *)
Definition released (before now : list (option references)) (n : nat) : list nat :=
  filter (fun g => held before g && negb (held now g)) (seq 0 n).

(** The descriptions and maps change: groups that are not held any more delete their value semantic. (options_description.cpp 70-72,
    variables_map.cpp 84, 127, 197) *)
Definition rehold (w : owners) (hs : list (option references)) : outcome owners :=
  let* gone := delete_all (ow_gone w) (map (fun g => nth g (ow_groups w) 0) (released (ow_holders w) hs (List.length (ow_groups w)))) in
  Ok (mk_ow gone (ow_made w) (ow_groups w) hs).

(** Replace a cell. (the members in options_description.hpp 275, variables_map.hpp 95) *)
Fixpoint set_holder (hs : list (option references)) (h : nat) (x : option references) : list (option references) :=
  match hs, h with
  | [], _ => []
  | _ :: hs', O => x :: hs'
  | y :: hs', S h' => y :: set_holder hs' h' x
  end.

(** A pointer to a value semantic is used. (value_semantic.hpp 187-290) *)
Definition touch (w : owners) (s : nat) : outcome unit :=
  if Nat.ltb s (ow_made w) then if existsb (Nat.eqb s) (ow_gone w) then Undef UB_dangling else Ok tt else Undef UB_null.

(** The group under a name. (variables_map.cpp 73-74, 109-112, 232-234) *)
Fixpoint group_of (l : references) (name : str) : outcome nat :=
  match l with
  | [] => Undef UB_null
  | (k, g) :: l' => if str_eqb k name then Ok g else group_of l' name
  end.

(** All references but those with this name (variables_map.hpp 146-147: the map is a [std::map]) *)
Definition but_for (name : str) (l : references) : references := filter (fun x => negb (str_eqb (fst x) name)) l.

(** One call A description with options that is added to itself hangs, C77. (options_description.cpp 52-68, 262-297, 320-339;
    variables_map.cpp 76-84, 125-127, 195-200, 244-245) *)
Definition own_step (w : owners) (c : own_call) : outcome owners :=
  match c with
  | ONew => Ok (mk_ow (ow_gone w) (S (ow_made w)) (ow_groups w) (ow_holders w))
  | OSet s => let* _ := touch w s in Ok w
  | ODelete s => let* _ := touch w s in Ok (mk_ow (s :: ow_gone w) (ow_made w) (ow_groups w) (ow_holders w))
  | OHolder => Ok (mk_ow (ow_gone w) (ow_made w) (ow_groups w) (ow_holders w ++ [Some []]))
  | ODeclare h name s =>
      let* _ := touch w s in
      let* l := refs_of w h in
      Ok (mk_ow (ow_gone w) (ow_made w) (ow_groups w ++ [s])
            (set_holder (ow_holders w) h (Some (l ++ [(name, List.length (ow_groups w))]))))
  | OCopy h => let* l := refs_of w h in rehold w (ow_holders w ++ [Some l])
  | OInclude h k =>
      let* l := refs_of w h in
      let* l' := refs_of w k in
      if Nat.eqb h k && negb (is_empty l) then NoFuel else
      rehold w (set_holder (ow_holders w) h (Some (l ++ l')))
  | OStore m h name =>
      let* l := refs_of w h in
      let* g := group_of l name in
      let* _ := touch w (nth g (ow_groups w) 0) in
      let* e := refs_of w m in
      rehold w (set_holder (ow_holders w) m (Some (but_for name e ++ [(name, g)])))
  | OWork h name =>
      let* l := refs_of w h in
      let* g := group_of l name in
      let* _ := touch w (nth g (ow_groups w) 0) in
      Ok w
  | OErase m name => let* l := refs_of w m in rehold w (set_holder (ow_holders w) m (Some (but_for name l)))
  | OClear m => let* _ := refs_of w m in rehold w (set_holder (ow_holders w) m (Some []))
  | OEnd h => let* _ := refs_of w h in rehold w (set_holder (ow_holders w) h None)
  end.

(** A program: calls one after the other (options_description.cpp 52-339, variables_map.cpp 23-247) *)
Fixpoint own_run (w : owners) (cs : list own_call) : outcome owners :=
  match cs with
  | [] => Ok w
  | c :: cs' => let* w1 := own_step w c in own_run w1 cs'
  end.
