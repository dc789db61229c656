(** Vocabulary for notifiers that use the map that is being notified. *)

From Coq Require Import List Ascii String NArith ZArith Bool Sorting.Sorted.
From Verif Require Import Base Errors Spec Values OptDesc Cmdline Parsers VarMap SpecStore MapUse Reenter.
Import ListNotations.

(** The names visited. *)
Definition visited (xs : list visit) : list str := map vi_name xs.

(** The map changes only during the visits: [vm] before them, [vm'] after them. *)
Fixpoint chained (vm : variables_map) (xs : list visit) (vm' : variables_map) : Prop :=
  match xs with
  | [] => vm = vm'
  | x :: xs' => vi_before x = vm /\ chained (vi_after x) xs' vm'
  end.

(** What the option itself did during a visit; what its notifier did is left out. *)
Definition own_effects (x : visit) : list event :=
  flat_map (fun a => match a with AEvent e => [e] | _ => [] end) (vi_acts x).

(** The effects its entry asks for. *)
Definition asked_effects (x : visit) : list event :=
  match vv_sem (vi_entry x) with Some sem => fst (vs_notify sem (vv_value (vi_entry x))) | None => [] end.

(** The notifiers leave maps alone and do not throw. *)
Definition harmless {S} (notifier : nat -> value -> S -> variables_map -> program S) : Prop :=
  forall f v s vm, exists s', notifier f v s vm = Finish s' None.

(** Every notifier starts with a call of [notify] for its map. *)
Definition starts_over {S} (notifier : nat -> value -> S -> variables_map -> program S) : Prop :=
  forall f v s vm, exists s' go_on, notifier f v s vm = Make s' INotify go_on.

(** A call that puts only entries with the names [ks] into the map, and is not [notify]. *)
Definition within_call (ks : list str) (c : inner_call) : Prop :=
  match c with
  | IStore p _ => (forall o, In o (pr_options p) -> In (po_key o) ks)
                  /\ (forall ds d, pr_desc p = Some ds -> In d ds -> In (od_key d []) ks)
  | IInsert name _ _ => In name ks
  | IAssign _ _ | IErase _ | IClear => True
  | INotify => False
  end.

Inductive within {S} (ks : list str) : program S -> Prop :=
| wi_finish s t : within ks (Finish s t)
| wi_make s c go_on : within_call ks c -> (forall s' vm r, within ks (go_on s' vm r)) -> within ks (Make s c go_on).

(** A notifier that ends by throwing [e], with some answers to its calls. *)
Inductive throws {S} (e : exn) : program S -> Prop :=
| th_finish s : throws e (Finish s (Some e))
| th_make s c go_on s' vm r : throws e (go_on s' vm r) -> throws e (Make s c go_on).

(** During these acts, or during one of the visits that are part of them, the entry [name] is removed. *)
Inductive takes_out (name : str) : list act -> Prop :=
| to_erase acts : In (ACall (IErase name)) acts -> takes_out name acts
| to_clear acts : In (ACall IClear) acts -> takes_out name acts
| to_pass acts xs x : In (APass xs) acts -> In x xs -> takes_out name (vi_acts x) -> takes_out name acts.

(** Where undefined behaviour comes from: an entry is removed while [notify] is at it; an option does something undefined itself; or a
    source is stored for which this is undefined. *)
Inductive stems (u : ub) : list visit -> Prop :=
| st_own xs x : In x xs -> u = UB_iterator -> takes_out (vi_name x) (vi_acts x) -> stems u xs
| st_option xs x sem : In x xs -> vv_sem (vi_entry x) = Some sem -> snd (vs_notify sem (vv_value (vi_entry x))) = Undef u -> stems u xs
| st_store xs x p utf8 vm : In x xs -> In (ACall (IStore p utf8)) (vi_acts x) -> snd (store p vm utf8) = Undef u -> stems u xs
| st_pass xs x ys : In x xs -> In (APass ys) (vi_acts x) -> stems u ys -> stems u xs.
