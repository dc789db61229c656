(** Vocabulary for C116: who deletes value semantics. *)

From Coq Require Import List Ascii String NArith ZArith Bool.
From Verif Require Import Base Errors Spec Values OptDesc Owners.
Import ListNotations.

(** A description or map that has not been destroyed refers to the group. *)
Definition refers (w : owners) (g : nat) : Prop :=
  exists h l name, nth_error (ow_holders w) h = Some (Some l) /\ In (name, g) l.

(** The value semantic of the group. *)
Definition owns (w : owners) (g s : nat) : Prop := nth_error (ow_groups w) g = Some s.

(** The value semantic has been deleted. *)
Definition deleted (w : owners) (s : nat) : Prop := In s (ow_gone w).

(** A program gives each value semantic to at most one option, or deletes it itself, and does not use its pointer to it any more.
    [spent] are the value semantics it has given away or deleted. *)
Fixpoint hands_over (spent : list nat) (cs : list own_call) : Prop :=
  match cs with
  | [] => True
  | OSet s :: cs' => ~ In s spent /\ hands_over spent cs'
  | ODelete s :: cs' => ~ In s spent /\ hands_over (s :: spent) cs'
  | ODeclare _ _ s :: cs' => ~ In s spent /\ hands_over (s :: spent) cs'
  | _ :: cs' => hands_over spent cs'
  end.

(** The program gives this value semantic to an option. *)
Definition gives (cs : list own_call) (s : nat) : Prop := exists h name, In (ODeclare h name s) cs.

(** Every description and map has been destroyed. *)
Definition all_over (w : owners) : Prop := forall h l, nth_error (ow_holders w) h <> Some (Some l).

(** The call may change what this description or map refers to. *)
Definition changes (m : nat) (c : own_call) : bool :=
  match c with
  | ODeclare h _ _ | OInclude h _ | OStore h _ _ | OErase h _ | OClear h | OEnd h => Nat.eqb m h
  | _ => false
  end.

(** What a description or map that exists refers to under which names. *)
Definition refs (w : owners) (h : nat) (l : list (str * nat)) : Prop := nth_error (ow_holders w) h = Some (Some l).

(** The first option of this name. *)
Definition first_of (l : list (str * nat)) (name : str) (g : nat) : Prop :=
  exists l1 l2, l = l1 ++ (name, g) :: l2 /\ forall g', ~ In (name, g') l1.
