(** Vocabulary for programs that use a map in arbitrary ways. *)

From Coq Require Import List Ascii String NArith ZArith Bool.
From Verif Require Import Base Errors Values OptDesc Parsers VarMap MapUse SpecStore.
Import ListNotations.

(** A call that returned or threw. *)
Definition ended (r : list event * outcome unit) : Prop := snd r = Ok tt \/ exists e, snd r = Throw e.

(** The sources that have been stored successfully since the last [clear], after those in [h]. *)
Fixpoint sources (h : history) (calls : list map_call) (rs : list (list event * outcome unit)) : history :=
  match calls, rs with
  | MStore p utf8 :: calls', (_, Ok _) :: rs' => sources (h ++ [(p, utf8)]) calls' rs'
  | MClear :: calls', _ :: rs' => sources [] calls' rs'
  | _ :: calls', _ :: rs' => sources h calls' rs'
  | _, _ => h
  end.

(** An entry the program has put into the map itself. *)
Definition own (a : any) (defaulted : bool) : variable_value := mk_vv a defaulted None.
