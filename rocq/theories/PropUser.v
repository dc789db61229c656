(** Code of the user that is called while a command line is parsed. *)

From Coq Require Import List Ascii String NArith ZArith Bool Lia.
From Verif Require Import Base Errors Spec BaseFacts Values OptDesc Positional Cmdline SpecCmdline UserCode SpecUser UserFacts Samples Witness.
Import ListNotations.

(** C93. A command line parser with an additional parser, a function [f] of the user with a state of its own that may throw.  The
    tokens are passed to [f] one by one, in order, each at most once, from the first one on.  An exception of [f] ends the parsing and
    reaches the caller.  A parse that returns has asked for all tokens, or for those up to and including a "--".  Nothing but the
    answers counts: any other function, with any other state, that gives these answers to these calls leads to the same result. *)
Theorem C93_calls : forall S c (f : user_parser S) s args s' r,
  plain c -> uparse c f s args = (s', r) ->
  r <> NoFuel /\ exists h,
    calls f s h s'
    /\ (exists later, args = asked h ++ later)
    /\ (answered h \/ exists h1 tok e e', h = h1 ++ [(tok, inr e)] /\ answered h1 /\ passed_on c e e' /\ r = Throw e')
    /\ (forall os, r = Ok os -> answered h
          /\ (asked h = args \/ exists before rest, args = before ++ dashdash :: rest /\ asked h = before ++ [dashdash]))
    /\ (forall T (g : user_parser T) t t', calls g t h t' -> uparse c g t args = (t', r)).
Proof.
  intros S c f s args s' r Hc E. split; [intros ->; apply (time_run c f Hc args s); unfold uparse in E; now rewrite E|].
  destruct (tracks_run c f Hc (List.length args) args _ _ _ E) as (h & H1 & H2 & H3 & H4 & H5). exists h.
  split; [exact H1|]. split; [exact H4|]. split; [|split; [|exact H3]].
  - clear - H2. destruct H2 as [h r H|h tok e e' H K]; [now left|]. right. exists h, tok, e, e'. auto.
  - intros os ->. split; [eapply ends_ok; exact H2|]. exact (H5 os eq_refl).
Qed.
Print Assumptions C93_calls.

(** C93. If the answers are those of a function without state, the result is the one of the parser that has this function: the
    theorems about parsers with an additional parser apply. *)
Theorem C93_stateless : forall c g args,
  plain c -> uparse c (stateless g) tt args = (tt, parse (with_parser c g) args).
Proof. intros c g args Hc. apply same_run. exact Hc. Qed.
Print Assumptions C93_stateless.

Theorem C93_same_answers : forall S c (f : user_parser S) s args s' r,
  plain c -> uparse c f s args = (s', r) ->
  exists h, calls f s h s' /\ forall g, answers_of g h -> r = parse (with_parser c g) args.
Proof.
  intros S c f s args s' r Hc E. destruct (C93_calls S c f s args s' r Hc E) as (_ & h & H & _ & _ & _ & K). exists h. split; [exact H|].
  intros g Hg. apply answers_calls, K in Hg. rewrite C93_stateless in Hg by exact Hc. congruence.
Qed.
Print Assumptions C93_same_answers.

(** A function that counts its calls, gives the second token that starts with '+' to the option "number", and throws at the sixth call. *)
Definition plus_parser : user_parser (nat * nat) := fun s tok =>
  let (calls, pluses) := s in
  if Nat.eqb calls 5 then ((S calls, pluses), inr (mk_unknown_option tok)) else
  match tok with
  | "+"%char :: digits => if Nat.eqb pluses 1 then ((S calls, S pluses), inl ($"number", digits)) else ((S calls, S pluses), inl ([], []))
  | _ => ((S calls, pluses), inl ([], []))
  end.

Example C93_ex :
  let c := sample_cl default_style in
  plain c
  /\ uparse c plus_parser (0, 0) [$"+5"; $"-o"; $"x"; $"+5"; $"--"; $"+7"; $"y"]
     = ((5, 2), Ok [mk_popt [] 0 [$"+5"] [$"+5"] false false; mk_popt $"output" (-1) [$"x"] [$"-o"; $"x"] false false;
                    mk_popt $"number" (-1) [$"5"] [] false false; mk_popt [] 1 [$"+7"] [$"+7"] false false; mk_popt [] 2 [$"y"] [$"y"] false false])
  /\ uparse c plus_parser (0, 0) [$"a"; $"b"; $"c"; $"d"; $"e"; $"f"; $"g"] = ((6, 0), Throw (mk_unknown_option $"f"))
  /\ uparse c plus_parser (0, 0) [$"a"; $"b"; $"c"; $"d"; $"-o"; $"f"; $"g"]
     = ((6, 0), Throw (add_context $"output" $"-o" (cl_prefix c) (mk_unknown_option $"f"))).
Proof. cbv zeta. split; [now split|]. split; [vm_compute; reflexivity|]. split; [vm_compute; reflexivity|]. vm_compute; reflexivity. Qed.

(** C93. That a token the function has given to an option always becomes that option is false: the function is also asked about the
    values of options, and then its answer is ignored. *)
Theorem C93_claimed_token_refuted :
  ~ forall c g args os tok, plain c -> parse (with_parser c g) args = Ok os -> In tok args -> ~ In dashdash args -> fst (g tok) <> [] ->
      exists o, In o os /\ po_key o = fst (g tok).
Proof.
  intros H.
  set (g := fun tok : str => match tok with "+"%char :: digits => ($"number", digits) | _ => ([], []) end).
  destruct (H (sample_cl default_style) g [$"-o"; $"+5"] [mk_popt $"output" (-1) [$"+5"] [$"-o"; $"+5"] false false] $"+5") as (o & Ho & Hk).
  - now split.
  - vm_compute. reflexivity.
  - cbn. auto.
  - cbn. intuition discriminate.
  - discriminate.
  - destruct Ho as [<-|[]]. discriminate Hk.
Qed.
Print Assumptions C93_claimed_token_refuted.
