(** Objects with identity: maps linked by [next], descriptions added to descriptions, and [variable_value::as].
    An object is a cell of a memory and a pointer is its index; nothing is ever freed. *)

From Coq Require Import List Ascii String NArith ZArith Bool.
From Verif Require Import Base Errors Values OptDesc Positional Cmdline Parsers VarMap.
Import ListNotations.

Set Implicit Arguments.

(** variables_map.hpp 66-75 [as<T>]: [any_cast] to a reference throws if the types differ. *)
Definition vv_as (t : vty) (v : variable_value) : outcome value :=
  match any_cast t (vv_value v) with
  | Some x => Ok x
  | None => Throw (plain_exn bad_any_cast)
  end.

(** Replace the cell [a]. (the assignments to members in variables_map.cpp 185, options_description.cpp 323-324) *)
Fixpoint set_cell {A} (mem : list A) (a : nat) (x : A) : list A :=
  match mem, a with
  | [], _ => []
  | _ :: mem', O => x :: mem'
  | y :: mem', S a' => y :: set_cell mem' a' x
  end.

(** ** Chains of maps *)

(** variables_map.hpp 106-139, 146-181: a map and its member [m_next] *)
Record map_object := mk_mo { mo_map : variables_map; mo_next : option nat }.

(** variables_map.cpp 182-186 [next] *)
Definition set_next (mem : list map_object) (a : nat) (b : option nat) : list map_object :=
  match nth_error mem a with
  | Some mo => set_cell mem a (mk_mo (mo_map mo) b)
  | None => mem
  end.

(** variables_map.cpp 166-180 [operator[]], following pointers; fuel is the depth of the recursion.  A pointer to
    nothing is [UB_null]. *)
Fixpoint map_index (fuel : nat) (mem : list map_object) (a : nat) (name : str) : outcome variable_value :=
  match fuel with
  | O => NoFuel
  | S fuel' =>
      match nth_error mem a with
      | None => Undef UB_null
      | Some mo =>
          let v := vm_get (mo_map mo) name in
          match mo_next mo with
          | None => Ok v
          | Some b =>
              if any_empty (vv_value v) then map_index fuel' mem b name
              else if vv_defaulted v then
                let* v2 := map_index fuel' mem b name in
                Ok (if negb (any_empty (vv_value v2)) && negb (vv_defaulted v2) then v2 else v)
              else Ok v
          end
      end
  end.

(** ** Descriptions *)

(** options_description.hpp 268-286: the members; [groups] are pointers, options are values (they do not change
    after their construction). *)
Record desc_object := mk_do {
  do_caption : str;
  do_line_length : Z;
  do_min_description_length : Z;
  do_options : list (option_description * bool);
  do_groups : list nat }.

(** The cells, and where the variables of the program are. (the objects of the class of options_description.hpp 191-288) *)
Record desc_memory := mk_dm { dm_cells : list desc_object; dm_vars : list nat }.

(** options_description.cpp 320-325 [add], in a cell *)
Definition do_add (o : desc_object) (d : option_description) (in_group : bool) : desc_object :=
  mk_do (do_caption o) (do_line_length o) (do_min_description_length o) (do_options o ++ [(d, in_group)]) (do_groups o).

(** options_description.cpp 331 [groups.push_back] *)
Definition do_add_pointer (o : desc_object) (g : nat) : desc_object :=
  mk_do (do_caption o) (do_line_length o) (do_min_description_length o) (do_options o) (do_groups o ++ [g]).

(** options_description.cpp 333-336: the loop of [a.add(b)]; the size of [b] is read again in every round. *)
Fixpoint add_cells (fuel : nat) (cells : list desc_object) (a b i : nat) : outcome (list desc_object) :=
  match fuel with
  | O => NoFuel
  | S fuel' =>
      match nth_error cells a, nth_error cells b with
      | Some oa, Some ob =>
          match nth_error (do_options ob) i with
          | None => Ok cells
          | Some (d, _) => add_cells fuel' (set_cell cells a (do_add oa d true)) a b (S i)
          end
      | _, _ => Undef UB_null
      end
  end.

(** What a program does with descriptions; variables are numbered in the order of their construction.
    (options_description.hpp 196-231: the public functions) *)
Inductive desc_call :=
| DNew (caption : str) (line_length min_desc : Z)   (* options_description v(caption, line_length, min_desc); *)
| DCopy (b : nat)                                   (* options_description v(b); *)
| DAdd (a : nat) (d : option_description)           (* a.add(d); or a.add_options()(...); *)
| DAddGroup (a b : nat).                            (* a.add(b); *)

(** The copy constructor of [options_description] (used in options_description.cpp 330) copies the members: the
    groups are shared. *)
Definition desc_step (fuel : nat) (m : desc_memory) (c : desc_call) : outcome desc_memory :=
  let cells := dm_cells m in
  let var x := match nth_error (dm_vars m) x with
               | Some p => match nth_error cells p with Some o => Ok (p, o) | None => Undef UB_null end
               | None => Undef UB_null
               end in
  match c with
  | DNew caption line_length min_desc =>
      let* _ := new_options caption line_length min_desc in
      Ok (mk_dm (cells ++ [mk_do caption line_length min_desc [] []]) (dm_vars m ++ [List.length cells]))
  | DCopy b =>
      let* pb := var b in
      Ok (mk_dm (cells ++ [snd pb]) (dm_vars m ++ [List.length cells]))
  | DAdd a d =>
      let* pa := var a in
      Ok (mk_dm (set_cell cells (fst pa) (do_add (snd pa) d false)) (dm_vars m))
  | DAddGroup a b =>
      let* pa := var a in
      let* pb := var b in
      let cells1 := cells ++ [snd pb] in
      let cells2 := set_cell cells1 (fst pa) (do_add_pointer (snd pa) (List.length cells)) in
      let* cells3 := add_cells fuel cells2 (fst pa) (fst pb) 0 in
      Ok (mk_dm cells3 (dm_vars m))
  end.

(** A sequence of such calls (options_description.cpp 300-339), one after the other *)
Fixpoint desc_run (fuel : nat) (m : desc_memory) (cs : list desc_call) : outcome desc_memory :=
  match cs with
  | [] => Ok m
  | c :: cs' => let* m1 := desc_step fuel m c in desc_run fuel m1 cs'
  end.
