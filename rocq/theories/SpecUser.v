(** Vocabulary for the user's code that is called while a command line is parsed. *)

From Coq Require Import List Ascii String NArith ZArith Bool.
From Verif Require Import Base Errors Spec Values OptDesc Positional Cmdline SpecCmdline UserCode.
Import ListNotations.

(** The calls that were made: the tokens passed to the user's function, and its answers. *)
Definition history : Type := list (str * (str * str + exn)).

(** Called in this order, the user's function gives these answers, and its state goes from the first to the last. *)
Inductive calls {S} (f : user_parser S) : S -> history -> S -> Prop :=
| ca_none s : calls f s [] s
| ca_call s tok s1 a h s2 : f s tok = (s1, a) -> calls f s1 h s2 -> calls f s ((tok, a) :: h) s2.

Definition asked (h : history) : list str := map fst h.

(** Every call has been answered. *)
Definition answered (h : history) : Prop := Forall (fun ta => exists p, snd ta = inl p) h.

(** How an exception of the user's function reaches the caller of the parser: unchanged, or, if it was thrown while the parser looked
    for the value of an option and is one of the library's exceptions that name an option, completed with the names of that option. *)
Definition passed_on (c : cmdline) (e e' : exn) : Prop := e' = e \/ exists key tok, e' = add_context key tok (cl_prefix c) e.

(** A function without state that never throws. *)
Definition stateless (g : str -> str * str) : user_parser unit := fun s tok => (s, inl (g tok)).

(** Such a function would have given the same answers. *)
Definition answers_of (g : str -> str * str) (h : history) : Prop := Forall (fun ta => snd ta = inl (g (fst ta))) h.

(** The parser with a function without state for its additional parser. *)
Definition with_parser (c : cmdline) (g : str -> str * str) : cmdline :=
  mk_cl (cl_style c) (cl_allow_unregistered c) (cl_desc c) (cl_positional c) (Some g) None.

(** The parser with the user's function; [C93_calls] shows that this many steps suffice. *)
Definition uparse {S} (c : cmdline) (f : user_parser S) (s : S) (args : list str) : S * outcome (list popt) :=
  urun (List.length args) c f args s.
