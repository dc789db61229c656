(** Vocabulary for the objects that [add_options()] returns: which description each of them belongs to, read off the program. *)

From Coq Require Import List Ascii String NArith ZArith Bool.
From Verif Require Import Base Values OptDesc Build Objects Adders.
Import ListNotations.

(** Calls that make or change such an object *)
Definition about_adders (c : adder_call) : Prop :=
  match c with AAdder _ | ACopyAdder _ | ASetAdder _ _ => True | _ => False end.

(** After the calls [p], the objects belong to the descriptions listed: the one whose [add_options()] was called, or that of the
    object copied or assigned. *)
Inductive belong : list adder_call -> list nat -> Prop :=
| be_none : belong [] []
| be_made p xs x : belong p xs -> belong (p ++ [AAdder x]) (xs ++ [x])
| be_copied p xs e x : belong p xs -> nth_error xs e = Some x -> belong (p ++ [ACopyAdder e]) (xs ++ [x])
| be_assigned p xs y ys f x : belong p (xs ++ y :: ys) -> nth_error (xs ++ y :: ys) f = Some x ->
    belong (p ++ [ASetAdder (List.length xs) f]) (xs ++ x :: ys)
| be_other p xs c : belong p xs -> ~ about_adders c -> belong (p ++ [c]) xs.

(** The same program without such objects: the calls about them are left out, and an option is declared directly in the description
    that the object belongs to. *)
Inductive written_directly : list adder_call -> list adder_call -> Prop :=
| wd_none : written_directly [] []
| wd_adder p q c : written_directly p q -> about_adders c -> written_directly (p ++ [c]) q
| wd_declare p q xs e x a : written_directly p q -> belong p xs -> nth_error xs e = Some x ->
    written_directly (p ++ [ADeclare e a]) (q ++ [ADirect x a])
| wd_other p q c : written_directly p q -> ~ about_adders c -> (forall e a, c <> ADeclare e a) ->
    written_directly (p ++ [c]) (q ++ [c]).

(** The life of the description [x] has ended. *)
Definition ended (p : list adder_call) (x : nat) : Prop := In (AEnd x) p.
