(** Vocabulary for objects with identity. *)

From Coq Require Import List Ascii String NArith ZArith Bool.
From Verif Require Import Base Errors Values OptDesc VarMap Objects SpecStore.
Import ListNotations.

(** ** Maps linked by [next] *)

(** From the map at [a], [next] leads in [n] steps to the map at [b]. *)
Inductive leads (mem : list map_object) : nat -> nat -> nat -> Prop :=
| ld_here a : leads mem a 0 a
| ld_next a mo a' n b : nth_error mem a = Some mo -> mo_next mo = Some a' -> leads mem a' n b -> leads mem a (S n) b.

(** These are the maps from the one at [a] to the last. *)
Inductive links (mem : list map_object) : nat -> list variables_map -> Prop :=
| lk_last a mo : nth_error mem a = Some mo -> mo_next mo = None -> links mem a [mo_map mo]
| lk_next a mo b l : nth_error mem a = Some mo -> mo_next mo = Some b -> links mem b l -> links mem a (mo_map mo :: l).

(** The map at [a] has an explicit value for [name]. *)
Definition explicit_at (mem : list map_object) (a : nat) (name : str) : Prop :=
  exists mo, nth_error mem a = Some mo /\ explicit (vm_get (mo_map mo) name).

(** ** Descriptions *)

(** What a program sees if each description is a value of its own, and adding takes a copy. *)
Definition value_step (vals : list options_description) (c : desc_call) : outcome (list options_description) :=
  let var x := match nth_error vals x with Some v => Ok v | None => Undef UB_null end in
  match c with
  | DNew caption line_length min_desc =>
      let* v := new_options caption line_length min_desc in Ok (vals ++ [v])
  | DCopy b => let* v := var b in Ok (vals ++ [v])
  | DAdd a d => let* v := var a in Ok (set_cell vals a (ods_add v d))
  | DAddGroup a b => let* v := var a in let* w := var b in Ok (set_cell vals a (ods_add_group v w))
  end.

Fixpoint value_run (vals : list options_description) (cs : list desc_call) : outcome (list options_description) :=
  match cs with
  | [] => Ok vals
  | c :: cs' => let* vals1 := value_step vals c in value_run vals1 cs'
  end.

(** The call adds a description to itself. *)
Definition to_itself (c : desc_call) : Prop := match c with DAddGroup a b => a = b | _ => False end.

(** The call is made on the variable [x]. *)
Definition on (c : desc_call) (x : nat) : Prop := match c with DAdd a _ => a = x | DAddGroup a _ => a = x | _ => False end.

(** The object at [p], with everything it points to, is the value [t]. *)
Inductive views (cells : list desc_object) : nat -> options_description -> Prop :=
| vw p o ts : nth_error cells p = Some o -> views_all cells (do_groups o) ts ->
    views cells p (mk_ods (do_caption o) (do_line_length o) (do_min_description_length o) (do_options o) ts)
with views_all (cells : list desc_object) : list nat -> list options_description -> Prop :=
| vw_nil : views_all cells [] []
| vw_cons p t ps ts : views cells p t -> views_all cells ps ts -> views_all cells (p :: ps) (t :: ts).
