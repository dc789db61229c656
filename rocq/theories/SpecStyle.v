(** Vocabulary for parsers with a style parser supplied by the user. *)

From Coq Require Import List Ascii String NArith ZArith Bool.
From Verif Require Import Base Errors Spec Values OptDesc SpecLookup Positional Cmdline SpecCmdline.
Import ListNotations.

(** The same parser with, and without, a style parser supplied by the user. *)
Definition with_user_parser (c : cmdline) (p : style_parser) : cmdline :=
  mk_cl (cl_style c) (cl_allow_unregistered c) (cl_desc c) (cl_positional c) (cl_additional c) (Some p).
Definition without_user_parser (c : cmdline) : cmdline :=
  mk_cl (cl_style c) (cl_allow_unregistered c) (cl_desc c) (cl_positional c) (cl_additional c) None.

(** Calling the user's function always comes to an end. *)
Definition returns (p : style_parser) : Prop := forall args, p args <> NoFuel.

(** What a list of tokens weighs. *)
Definition weighs (w : str -> nat) (args : list str) : nat := list_sum (map w args).

(** Every token weighs something, and the style parser either leaves as many tokens as it was
    given, not heavier together, or lighter ones. *)
Definition lightens (w : str -> nat) (p : style_parser) : Prop :=
  (forall t, 1 <= w t) /\
  forall args os left, p args = Ok (os, left) ->
    weighs w left <= weighs w args /\
    (List.length left <> List.length args -> weighs w left < weighs w args).

(** The style parser leaves all tokens to the other ones. *)
Definition declines (p : style_parser) : Prop :=
  forall t rest, p (t :: rest) = Ok ([], t :: rest).

(** Whatever it is given, the style parser finds no option but leaves more tokens. *)
Definition swells (p : style_parser) : Prop :=
  forall t rest, exists more, p (t :: rest) = Ok ([], more) /\ List.length (t :: rest) < List.length more.

(** A response file reader: a first token that names a file, according to [content], is
    replaced by the tokens in the file. *)
Definition response_reader (content : str -> option (list str)) : style_parser := fun args =>
  match args with
  | t :: rest =>
      match content t with
      | Some words => Ok ([], words ++ rest)
      | None => Ok ([], args)
      end
  | [] => Ok ([], [])
  end.

(** [out] is [args] with every response file replaced by what is in it, again and again. *)
Inductive expands (content : str -> option (list str)) : list str -> list str -> Prop :=
| expands_nil : expands content [] []
| expands_word t rest out :
    content t = None -> expands content rest out -> expands content (t :: rest) (t :: out)
| expands_file t words rest out :
    content t = Some words -> expands content (words ++ rest) out -> expands content (t :: rest) out.

(** No file holds just the name of another file. *)
Definition no_links (content : str -> option (list str)) : Prop :=
  forall t t', content t = Some [t'] -> content t' = None.

(** None of the tokens of the result names a file. *)
Definition all_read (content : str -> option (list str)) (os : list popt) : Prop :=
  forall t, In t (tokens_of os) -> content t = None.

(** What a named option of a result must be. *)
Definition is_unregistered (c : cmdline) (o : popt) : Prop :=
  po_unreg o = true /\ lookup c (po_key o) = Ok None /\ cl_allow_unregistered c = true.
Definition is_registered (c : cmdline) (o : popt) : Prop :=
  exists typed d, lookup c typed = Ok (Some d) /\ is_key d typed (po_key o)
    /\ (vs_min (od_sem d) <= Z.of_nat (List.length (po_value o)))%Z.
