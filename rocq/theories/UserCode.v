(** The command line parser with an additional parser that has a state of its own and may throw.  The functions of [Cmdline.v] are
    repeated here with the state passed along; everything else the parser calls does not touch the state. *)

From Coq Require Import List Ascii String NArith ZArith Bool.
From Verif Require Import Base Errors Values OptDesc Positional Cmdline.
Import ListNotations.

(** A computation that can change the state of the user's code; the changes made before an exception stay.  (C++ semantics; no code of
    the library.) *)
Definition st (S A : Type) : Type := S -> S * outcome A.

(** Sequencing of statements (C++ semantics; no code of the library). *)
Definition lift {S A} (x : outcome A) : st S A := fun s => (s, x).
Definition sbind {S A B} (m : st S A) (k : A -> st S B) : st S B := fun s =>
  let (s1, x) := m s in
  match x with
  | Ok a => k a s1
  | Throw e => (s1, Throw e)
  | Undef u => (s1, Undef u)
  | NoFuel => (s1, NoFuel)
  end.
(** The [catch] block of [finish_option] (cmdline.cpp 504-508) around a computation *)
Definition scontext {S A} (name tok : str) (style : Z) (m : st S A) : st S A := fun s =>
  let (s1, x) := m s in (s1, with_context name tok style x).

(** The user's function: a new state, and an answer or an exception.  (parsers.hpp 97-98 [ext_parser]) *)
Definition user_parser (S : Type) : Type := S -> str -> S * (str * str + exn).

(** A style parser with access to the state (detail/cmdline.hpp 67-69) *)
Definition ustyle_parser (S : Type) : Type := list str -> st S (list popt * list str).

(** cmdline.cpp 691: the call of the user's function *)
Definition ask {S} (f : user_parser S) (tok : str) : st S (str * str) := fun s =>
  let (s1, a) := f s tok in (s1, match a with inl p => Ok p | inr e => Throw e end).

(** cmdline.cpp 687-701 [handle_additional_parser] *)
Definition uhandle_additional_parser {S} (f : user_parser S) : ustyle_parser S := fun args =>
  sbind (lift (at_index args 0)) (fun tok =>
  sbind (ask f tok) (fun p =>
  lift (if is_empty (fst p) then Ok ([], args)
        else
          let* rest := erase_front args in
          Ok ([mk_popt (fst p) (-1) (if is_empty (snd p) then [] else [snd p]) [] false false], rest)))).

(** cmdline.cpp 224-248: the list of style parsers; [c] is a parser without additional parser and style parser, to which [f] is
    added. *)
Definition ustyle_parsers {S} (c : cmdline) (f : user_parser S) : list (ustyle_parser S) :=
  uhandle_additional_parser f :: map (fun p args => lift (p args)) (style_parsers c).

(** cmdline.cpp 468-471 *)
Fixpoint ulooks_like_option {S} (ps : list (ustyle_parser S)) (next_token : list str) : st S bool :=
  match ps with
  | [] => lift (Ok false)
  | p :: ps' =>
      sbind (p next_token) (fun r =>
      if is_empty (fst r) then ulooks_like_option ps' (snd r) else lift (Ok true))
  end.

(** cmdline.cpp 460-486 *)
Fixpoint ugrab_tokens {S} (c : cmdline) (ps : list (ustyle_parser S)) (key tok_exc : str)
    (min_tokens : Z) (opt : popt) (other_tokens : list str) : st S (popt * list str) :=
  match other_tokens with
  | [] => lift (Ok (opt, []))
  | tok :: rest =>
      if Z.eqb min_tokens 0 then lift (Ok (opt, other_tokens))
      else
        sbind (scontext key tok_exc (cl_prefix c) (ulooks_like_option ps [tok])) (fun followed =>
        sbind (lift (if (followed : bool) then
            let* od := with_context key tok (cl_prefix c) (lookup c tok) in
            match od with
            | Some _ => with_context key tok (cl_prefix c)
                          (Throw (mk_cmdline_syntax missing_parameter [] [] 0))
            | None => Ok tok
            end
          else Ok tok_exc)) (fun tok_exc' =>
        ugrab_tokens c ps key tok_exc' (min_tokens - 1)
          (mk_popt (po_key opt) (po_pos opt) (po_value opt ++ [tok]) (po_orig opt ++ [tok])
             (po_unreg opt) (po_ci opt)) rest))
  end.

(** cmdline.cpp 400-510 [finish_option] *)
Definition ufinish_option {S} (c : cmdline) (ps : list (ustyle_parser S)) (opt : popt)
    (other_tokens : list str) : st S (popt * list str) :=
  if is_empty (po_key opt) then lift (Ok (opt, other_tokens))
  else
    let tok_exc := match po_orig opt with t :: _ => t | [] => po_key opt end in
    let ctx {A} (key : str) (x : outcome A) := with_context key tok_exc (cl_prefix c) x in
    sbind (lift (ctx (po_key opt) (lookup c (po_key opt)))) (fun xd =>
    match xd with
    | None =>
        if cl_allow_unregistered c then
          lift (Ok (mk_popt (po_key opt) (po_pos opt) (po_value opt) (po_orig opt) true (po_ci opt),
              other_tokens))
        else lift (ctx (po_key opt) (Throw (mk_unknown_option [])))
    | Some d =>
        let key := od_key d (po_key opt) in
        let opt1 := mk_popt key (po_pos opt) (po_value opt) (po_orig opt)
                      (po_unreg opt) (po_ci opt) in
        let min_tokens := vs_min (od_sem d) in
        let max_tokens := vs_max (od_sem d) in
        let nvalues := Z.of_nat (List.length (po_value opt)) in
        let present := (nvalues + Z.of_nat (List.length other_tokens))%Z in
        if Z.leb min_tokens present then
          if negb (is_empty (po_value opt)) && Z.eqb max_tokens 0 then
            lift (ctx key (Throw (mk_cmdline_syntax extra_parameter [] [] 0)))
          else
            let need := if Z.leb nvalues min_tokens then (min_tokens - nvalues)%Z else 0%Z in
            ugrab_tokens c ps key tok_exc need opt1 other_tokens
        else lift (ctx key (Throw (mk_cmdline_syntax missing_parameter [] [] 0)))
    end).

(** cmdline.cpp 262-276 *)
Fixpoint ufinish_all {S} (c : cmdline) (ps : list (ustyle_parser S)) (next : list popt)
    (args : list str) : st S (list popt * list str) :=
  match next with
  | [] => lift (Ok ([], args))
  | [o] => sbind (ufinish_option c ps o args) (fun r => lift (Ok ([fst r], snd r)))
  | o :: next' =>
      sbind (ufinish_option c ps o []) (fun r =>
      sbind (ufinish_all c ps next' args) (fun rs =>
      lift (Ok (fst r :: fst rs, snd rs))))
  end.

(** cmdline.cpp 253-282 *)
Fixpoint utry_parsers {S} (c : cmdline) (ps todo : list (ustyle_parser S)) (args : list str)
    : st S (list popt * list str * bool) :=
  match todo with
  | [] => lift (Ok ([], args, false))
  | p :: todo' =>
      sbind (p args) (fun r =>
      sbind (ufinish_all c ps (fst r) (snd r)) (fun f =>
      if Nat.eqb (List.length (snd f)) (List.length args) then
        sbind (utry_parsers c ps todo' (snd f)) (fun r2 =>
        lift (Ok (fst f ++ fst (fst r2), snd (fst r2), snd r2)))
      else lift (Ok (fst f, snd f, true))))
  end.

(** cmdline.cpp 252-289 *)
Definition umain_step {S} (c : cmdline) (f : user_parser S) (args : list str) : st S (list popt * list str) :=
  let ps := ustyle_parsers c f in
  sbind (utry_parsers c ps ps args) (fun r =>
  if snd r then lift (Ok (fst (fst r), snd (fst r)))
  else
    lift (let* tok := at_index (snd (fst r)) 0 in
          let* rest := erase_front (snd (fst r)) in
          Ok (fst (fst r) ++ [mk_popt [] (-1) [tok] [tok] false false], rest))).

(** cmdline.cpp 250-289: the main loop; one unit of fuel per iteration. *)
Fixpoint umain_loop {S} (fuel : nat) (c : cmdline) (f : user_parser S) (args : list str) : st S (list popt) :=
  match args with
  | [] => lift (Ok [])
  | _ =>
      match fuel with
      | O => lift NoFuel
      | Datatypes.S fuel' =>
          sbind (umain_step c f args) (fun r =>
          sbind (umain_loop fuel' c f (snd r)) (fun rest =>
          lift (Ok (fst r ++ rest))))
      end
  end.

(** cmdline.cpp 207-398 [run] *)
Definition urun {S} (fuel : nat) (c : cmdline) (f : user_parser S) (args : list str) : st S (list popt) :=
  sbind (umain_loop fuel c f args) (fun r1 =>
  lift (let* r2 := merge_pass (List.length r1) c r1 in
        let r3 := number_positionals 0 r2 in
        let* r4 := match cl_positional c with
                   | Some p => name_positionals p 0 r3
                   | None => Ok r3
                   end in
        Ok (map (set_case_flag c) r4))).
