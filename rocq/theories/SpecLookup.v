(** What it means for a typed name to match an option, in declarative terms. *)

From Coq Require Import List Ascii String NArith ZArith Bool.
From Verif Require Import Base Errors Spec Values OptDesc.
Import ListNotations.

Set Implicit Arguments.

(** [t] is what comparison looks at for the name [s]: its lower-case form if case
    is ignored, [s] itself otherwise. *)
Definition folded (ignore_case : bool) (s t : str) : Prop :=
  if ignore_case then lowered s t else t = s.

(** Two names are equal for comparison. *)
Definition same_name (ci_a ci_b : bool) (a b : str) : Prop :=
  exists t, folded ci_a a t /\ folded ci_b b t.

(** The typed name is one of the (non-empty) long names or the short name ("-c", or
    "" if there is none). *)
Definition full (d : option_description) (typed : str) (lic sic : bool) : Prop :=
  (exists l, In l (od_longs d) /\ l <> [] /\ same_name lic lic l typed)
  \/ same_name sic lic (od_short d) typed.

(** A long name "p*" is registered and the typed name starts with p, or guessing is
    on and the typed name abbreviates a (non-empty) long name. *)
Definition approximate (d : option_description) (typed : str) (guess lic : bool) : Prop :=
  (exists l p t, In l (od_longs d) /\ folded lic l (p ++ [c_star]) /\ folded lic typed (p ++ t))
  \/ (guess = true /\
      exists l u v, In l (od_longs d) /\ l <> [] /\ folded lic typed u /\ folded lic l (u ++ v)).

Definition match_spec (d : option_description) (typed : str) (guess lic sic : bool)
    (r : match_result) : Prop :=
  match r with
  | full_match => full d typed lic sic
  | approximate_match => ~ full d typed lic sic /\ approximate d typed guess lic
  | no_match => ~ full d typed lic sic /\ ~ approximate d typed guess lic
  end.

(** Case folding is only applied to 7-bit ASCII strings. *)
Definition foldable_option (d : option_description) (lic sic : bool) : Prop :=
  (lic = true -> Forall ascii7 (od_longs d)) /\ (sic = true -> ascii7 (od_short d)).
Definition foldable (ds : list option_description) (typed : str) (lic sic : bool) : Prop :=
  (lic = true -> ascii7 typed) /\ Forall (fun d => foldable_option d lic sic) ds.

(** [sel] consists of exactly the elements of [l] that satisfy [P], in order. *)
Inductive selects {A} (P : A -> Prop) : list A -> list A -> Prop :=
| selects_nil : selects P [] []
| selects_take x l sel : P x -> selects P l sel -> selects P (x :: l) (x :: sel)
| selects_skip x l sel : ~ P x -> selects P l sel -> selects P (x :: l) sel.

(** [k] is the canonical key of [d] when typed as [typed]: the first long name; the
    typed spelling if that contains a star; the short name "-c" if there is no long
    name. *)
Definition is_key (d : option_description) (typed k : str) : Prop :=
  (exists first rest, od_longs d = first :: rest /\ ~ In c_star first /\ k = first)
  \/ (exists first rest, od_longs d = first :: rest /\ In c_star first /\ k = typed)
  \/ (od_longs d = [] /\ k = od_short d).

(** How the comma separated pieces of a declaration become short and long names. *)
Inductive decoded : list str -> str -> list str -> Prop :=
| dec_both init c :
    init <> [] -> init <> [[]] -> decoded (init ++ [[c]]) [c_dash; c] init
| dec_short_only c : decoded [[]; [c]] [c_dash; c] []
| dec_long pieces :
    (forall init c, pieces = init ++ [[c]] -> init = []) -> decoded pieces [] pieces.

(** Result of a lookup, given the full matches and the other, approximate matches. *)
Inductive lookup_result (typed : str)
  : list option_description -> list option_description ->
    outcome (option option_description) -> Prop :=
| lr_one_full d apps : lookup_result typed [d] apps (Ok (Some d))
| lr_many_full d1 d2 fulls apps alts :
    Forall2 (fun d k => is_key d typed k) (d1 :: d2 :: fulls) alts ->
    lookup_result typed (d1 :: d2 :: fulls) apps (Throw (mk_ambiguous alts))
| lr_one_approx d : lookup_result typed [] [d] (Ok (Some d))
| lr_many_approx d1 d2 apps alts :
    Forall2 (fun d k => is_key d typed k) (d1 :: d2 :: apps) alts ->
    lookup_result typed [] (d1 :: d2 :: apps) (Throw (mk_ambiguous alts))
| lr_none : lookup_result typed [] [] (Ok None).

(** The long names cannot be confused with a short name. *)
Definition plain_longs (d : option_description) : Prop :=
  Forall (fun l => forall c l', l = c :: l' -> c <> c_dash /\ c <> c_star) (od_longs d).
