(** C84: the language of command lines. *)

From Coq Require Import List Ascii String NArith ZArith Bool Lia.
From Verif Require Import Base Errors Spec BaseFacts Values OptDesc SpecLookup LookupFacts Positional Cmdline SpecCmdline
  CmdlineFacts SpecReject SpecGrammar GrammarFacts Samples PropCmdline PropCmdline2.
Import ListNotations.

(** C84. The parser returns exactly the options the command line means by the rules of [SpecGrammar.v]. *)
Theorem C84_grammar : forall c args,
  cl_style_parser c = None -> Forall has_name (cl_desc c) -> Forall (fun d => sensible d /\ fits d) (cl_desc c) ->
  (Z.of_nat (List.length args) < INT_MAX)%Z ->
  forall res, parse c args = Ok res <-> means c args res.
Proof. intros c args H1 H2 H3 H4 res. now apply parse_iff. Qed.
Print Assumptions C84_grammar.

(** C84. No command line has two meanings. *)
Theorem C84_unambiguous : forall c args r1 r2,
  cl_style_parser c = None -> Forall has_name (cl_desc c) -> Forall (fun d => sensible d /\ fits d) (cl_desc c) ->
  (Z.of_nat (List.length args) < INT_MAX)%Z ->
  means c args r1 -> means c args r2 -> r1 = r2.
Proof.
  intros c args r1 r2 H1 H2 H3 H4 M1 M2. apply (C84_grammar c args H1 H2 H3 H4) in M1, M2. congruence.
Qed.
Print Assumptions C84_unambiguous.

(** C84. A command line without a meaning is rejected with an exception, where the parser executes no undefined
    behaviour (C27 says when). *)
Theorem C84_rejected : forall c args,
  cl_style_parser c = None -> Forall has_name (cl_desc c) -> Forall (fun d => sensible d /\ fits d) (cl_desc c) ->
  (Z.of_nat (List.length args) < INT_MAX)%Z -> defined (parse c args) ->
  (exists e, parse c args = Throw e) <-> (forall res, ~ means c args res).
Proof.
  intros c args H1 H2 H3 H4 Hd. split.
  - intros [e E] res M. apply (C84_grammar c args H1 H2 H3 H4) in M. congruence.
  - intros HN. destruct (parse c args) as [r|e|u|] eqn:E.
    + destruct (HN r). now apply (C84_grammar c args H1 H2 H3 H4).
    + eauto.
    + destruct (Hd u). reflexivity.
    + destruct (proj1 (C11_run_terminates c args H1) E).
Qed.
Print Assumptions C84_rejected.

Definition grammar_cl : cmdline :=
  mk_cl default_style false [o_help; o_verbose; o_output; o_number; o_input] (Some (mk_pos [$"in"] $"rest")) None None.

Example C84_ex :
  let args := [$"-vofile"; $"--in=a"; $"b"; $"-n"; $"3"; $"-"; $"--"; $"--help"] in
  means grammar_cl args
    [mk_popt $"verbose" (-1) [] [] false false; mk_popt $"output" (-1) [$"file"] [$"-vofile"] false false;
     mk_popt $"input" (-1) [$"a"; $"b"] [$"--in=a"; $"b"] false false;
     mk_popt $"number" (-1) [$"3"] [$"-n"; $"3"] false false;
     mk_popt $"in" 0 [$"-"] [$"-"] false false; mk_popt $"rest" 1 [$"--help"] [$"--help"] false false]
  /\ forall res, ~ means grammar_cl [$"--help=3"] res.
Proof.
  assert (H2 : Forall has_name (cl_desc grammar_cl)) by (repeat constructor; cbn; discriminate).
  assert (H3 : Forall (fun d => sensible d /\ fits d) (cl_desc grammar_cl))
    by (repeat constructor; cbn; unfold fits, UINT_MAX, INT_MAX; cbn; lia).
  split.
  - refine (proj1 (C84_grammar grammar_cl _ eq_refl H2 H3 _ _) _); [reflexivity|]. vm_compute. reflexivity.
  - intros res M.
    assert (H4 : (Z.of_nat (List.length [$"--help=3"]) < INT_MAX)%Z) by reflexivity.
    apply (C84_grammar grammar_cl _ eq_refl H2 H3 H4) in M. vm_compute in M. discriminate.
Qed.
