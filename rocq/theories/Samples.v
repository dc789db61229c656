(** Concrete options used by the non-vacuity examples. *)

From Coq Require Import List Ascii String NArith ZArith Bool.
From Verif Require Import Base Errors Spec Values OptDesc Positional Cmdline.
Import ListNotations.

(** A decimal digit reader standing in for [lexical_cast<int>]. *)
Fixpoint digits (acc : Z) (s : str) : option Z :=
  match s with
  | [] => Some acc
  | c :: s' =>
      let n := N_of_ascii c in
      if ((48 <=? n) && (n <=? 57))%N then digits (acc * 10 + Z.of_N (n - 48)) s' else None
  end.
Definition lex (_ : nat) (s : str) : option Z :=
  match s with [] => None | _ => digits 0 s end.
Definition local (s : str) : outcome str := Ok s.

Definition tflag : value_semantic := untyped local true.
Definition tvalue : value_semantic := untyped local false.
Definition tint : typed_value := value_of_type (TLex 0) None.
Definition tints : typed_value :=
  mk_typed (TVec (TLex 0)) None [] None None true true false false None.
Definition tstrings : typed_value :=
  mk_typed (TVec TString) None [] None None false true false false None.
Definition timplicit : typed_value :=
  mk_typed (TLex 0) None [] None (Some (VLex 0 7, $"7")) false false false false None.

(** help,h : flag; verbose,v : flag; output,o : value; number,n : int;
    input (alias in) : vector; log.* : value. *)
Definition o_help := mk_od $"-h" [$"help"] $"print help" tflag.
Definition o_verbose := mk_od $"-v" [$"verbose"] $"be chatty" tflag.
Definition o_output := mk_od $"-o" [$"output"] $"output file" tvalue.
Definition o_number := mk_od $"-n" [$"number"] $"a number" (typed lex local tint).
Definition o_input := mk_od [] [$"input"; $"in"] $"input files" (typed lex local tstrings).
Definition o_log := mk_od [] [$"log.*"] $"log settings" tvalue.
Definition o_level := mk_od $"-l" [$"level"] $"level" (typed lex local timplicit).
Definition sample : list option_description :=
  [o_help; o_verbose; o_output; o_number; o_input; o_log; o_level].

(** Parsers for these options. *)
Definition sample_cl (style : Z) : cmdline := mk_cl style false sample None None None.
Definition sample_cl_unreg (style : Z) : cmdline := mk_cl style true sample None None None.
(** Short options introduced by '-' or '/'. *)
Definition slash_style : Z := 1015 + 8.
(** The default style with letter case ignored. *)
Definition nocase_style : Z := 1015 + 3072.
Definition disguise_style : Z := 1015 + 4096.
