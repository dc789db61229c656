(** The objects that [add_options()] returns, kept in variables, copied and assigned: options_description.hpp 161-181,
    options_description.cpp 255-296, 341-345.  Such an object points to the description it was asked for. *)

From Coq Require Import List Ascii String NArith ZArith Bool.
From Verif Require Import Base Errors Values OptDesc Build Objects Lifetimes.
Import ListNotations.

(** The variables of the program; an empty cell of [aw_descs] is a description that has been destroyed, and a cell of [aw_owners] is
    the member [owner]. (options_description.hpp 180, 191-288) *)
Record adder_world := mk_aw {
  aw_descs : list (option options_description);
  aw_owners : list nat }.

(** No object yet (the start of the program, before options_description.cpp 300-318) *)
Definition adder_start : adder_world := mk_aw [] [].

(** What a program can do.  Variables of each kind are numbered in the order of their construction.  Descriptions cannot be assigned:
    they have constant members. (options_description.hpp 161-231, 268-269) *)
Inductive adder_call :=
| ADesc (c : desc_call)               (* make, copy or extend an options_description *)
| AAdder (x : nat)                    (* options_description_easy_init v = x.add_options(); *)
| ACopyAdder (e : nat)                (* options_description_easy_init v = e; *)
| ASetAdder (e f : nat)               (* e = f; *)
| ADeclare (e : nat) (a : add_call)   (* e(name, ...); *)
| ADirect (x : nat) (a : add_call)    (* x.add_options()(name, ...); *)
| AEnd (x : nat).                     (* the end of the life of the description x *)

(** Use a variable of the second kind: it is always there, unless it has not been made.  (the implicit copy operations of
    options_description.hpp 161-181) *)
Definition the_owner (l : list nat) (e : nat) : outcome nat :=
  match nth_error l e with Some x => Ok x | None => Undef UB_null end.

(** options_description.cpp 261-296 [operator()] through the pointer [owner] *)
Definition declare_at (flag : value_semantic) (l : list (option options_description)) (x : nat) (a : add_call)
    : outcome (list (option options_description)) :=
  let* v := fetch l x in
  let* v' := easy_init flag v a in
  Ok (set_cell l x (Some v')).

(** One call: options_description.cpp 255-296, 300-345; the destructor empties the cell. *)
Definition adder_step (flag : value_semantic) (w : adder_world) (c : adder_call) : outcome adder_world :=
  match c with
  | ADesc c' => let* ds := life_desc (aw_descs w) c' in Ok (mk_aw ds (aw_owners w))
  | AAdder x => let* _ := fetch (aw_descs w) x in Ok (mk_aw (aw_descs w) (aw_owners w ++ [x]))
  | ACopyAdder e => let* x := the_owner (aw_owners w) e in Ok (mk_aw (aw_descs w) (aw_owners w ++ [x]))
  | ASetAdder e f =>
      let* _ := the_owner (aw_owners w) e in
      let* x := the_owner (aw_owners w) f in
      Ok (mk_aw (aw_descs w) (set_cell (aw_owners w) e x))
  | ADeclare e a =>
      let* x := the_owner (aw_owners w) e in
      let* ds := declare_at flag (aw_descs w) x a in Ok (mk_aw ds (aw_owners w))
  | ADirect x a => let* ds := declare_at flag (aw_descs w) x a in Ok (mk_aw ds (aw_owners w))
  | AEnd x => let* _ := alive (aw_descs w) x in Ok (mk_aw (set_cell (aw_descs w) x None) (aw_owners w))
  end.

(** A program: its calls one after another (each as in options_description.cpp 255-345) *)
Fixpoint adder_run (flag : value_semantic) (w : adder_world) (cs : list adder_call) : outcome adder_world :=
  match cs with
  | [] => Ok w
  | c :: cs' => let* w1 := adder_step flag w c in adder_run flag w1 cs'
  end.
