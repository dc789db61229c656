(** C09-C16: styles and the basic behaviour of the command line parser. *)

From Coq Require Import List Ascii String NArith ZArith Bool Arith Lia.
From Verif Require Import Base Errors Spec BaseFacts Values OptDesc SpecLookup LookupFacts
  Positional Cmdline SpecCmdline CmdlineFacts RunFacts ParseFacts StickyFacts CongruenceFacts
  Samples.
Import ListNotations.

(** C09. Style 0 stands for the default style; a consistent style is accepted and used
    unchanged; *)
Theorem C09_consistent_accepted : forall s,
  (s <> 0%Z -> consistent_style s -> set_style s = Ok s)
  /\ set_style 0 = Ok default_style /\ consistent_style default_style.
Proof.
  intros s. split; [apply consistent_lemma|]. split; [reflexivity|].
  unfold consistent_style, bit, default_style, unix_style. cbn. intuition.
Qed.
Print Assumptions C09_consistent_accepted.

(** C09. any other one is rejected. *)
Theorem C09_inconsistent_rejected : forall s,
  s <> 0%Z -> ~ consistent_style s ->
  exists msg, set_style s = Throw (plain_exn (invalid_command_line_style msg)).
Proof. exact inconsistent_lemma. Qed.
Print Assumptions C09_inconsistent_rejected.

Example C09_ex :
  consistent_style slash_style /\ consistent_style 0 /\ ~ consistent_style allow_long
  /\ ~ consistent_style (allow_short + short_allow_next)
  /\ ~ consistent_style (allow_short + allow_dash_for_short)
  /\ ~ consistent_style (allow_long_disguise + allow_short).
Proof. unfold consistent_style, bit. cbn. intuition discriminate. Qed.

(** C10. The adjacent/next bits do not influence the result of a parse. *)
Theorem C10_adjacency_bits_irrelevant : forall c s args,
  same_but_adjacency (cl_style c) s -> parse c args = parse (with_style c s) args.
Proof. intros c s args. exact (adjacency_lemma c s (List.length args) args). Qed.
Print Assumptions C10_adjacency_bits_irrelevant.

(** C10. so the documentation of these bits does not hold: without
    [long_allow_adjacent] "--output=x" is still accepted, and without [long_allow_next]
    "--output x" is. *)
Theorem C10_adjacency_documented_refuted :
  exists no_adjacent no_next r1 r2,
    ~ bit no_adjacent 4 /\ set_style no_adjacent = Ok no_adjacent
    /\ ~ bit no_next 5 /\ set_style no_next = Ok no_next
    /\ parse (sample_cl no_adjacent) [$"--output=x"] = Ok [r1]
    /\ po_key r1 = $"output" /\ po_value r1 = [$"x"]
    /\ parse (sample_cl no_next) [$"--output"; $"x"] = Ok [r2]
    /\ po_key r2 = $"output" /\ po_value r2 = [$"x"].
Proof.
  exists (1015 - 16)%Z, (1015 - 32)%Z. do 2 eexists.
  repeat split; try reflexivity; unfold bit; cbn; discriminate.
Qed.
Print Assumptions C10_adjacency_documented_refuted.

Example C10_ex :
  same_but_adjacency default_style (default_style - 16)
  /\ same_but_adjacency default_style (default_style - 32 - 64).
Proof.
  split; intros k Hk Hn; unfold default_style, unix_style; cbn [Z.sub Z.add Z.opp Z.pos_sub];
    (destruct (Z_lt_le_dec k 10) as [Hlt|Hge];
     [assert (Hc : (k = 0 \/ k = 1 \/ k = 2 \/ k = 3 \/ k = 8 \/ k = 9)%Z) by lia;
      repeat (destruct Hc as [->|Hc]; [reflexivity|]); subst; reflexivity
     |rewrite !Z.bits_above_log2; auto; cbn; lia]).
Qed.

(** C11. Parsing ends: one iteration per token is enough, [NoFuel] never happens, and
    with more iterations allowed the result is the same. *)
Theorem C11_run_terminates : forall c args,
  cl_style_parser c = None ->
  parse c args <> NoFuel
  /\ forall fuel, List.length args <= fuel -> run fuel c args = parse c args.
Proof.
  intros c args Hc. split; [now apply run_nofuel_lemma|].
  intros fuel Hf. now apply run_more_lemma.
Qed.
Print Assumptions C11_run_terminates.

Example C11_ex :
  exists r, parse (sample_cl default_style) [$"a"; $"-vofile"; $"--num=3"; $"--"; $"-h"] = Ok r
    /\ List.length r = 5.
Proof. eexists. split; reflexivity. Qed.

(** C12. No token is lost, altered, duplicated or reordered; at most the "--" goes. *)
Theorem C12_token_conservation : forall c args res,
  plain c -> ~ bit (cl_style c) 12 -> parse c args = Ok res ->
  tokens_of res = args
  \/ exists pre post, args = pre ++ dashdash :: post /\ tokens_of res = pre ++ post.
Proof.
  intros c args res Hp Hd. apply conservation_lemma; auto.
  change allow_long_disguise with (2 ^ 12)%Z. rewrite has_testbit by lia.
  unfold bit in Hd. now destruct (Z.testbit (cl_style c) 12).
Qed.
Print Assumptions C12_token_conservation.

Example C12_ex :
  exists r, parse (sample_cl default_style) [$"a"; $"-vo"; $"f"; $"--num=3"; $"--"; $"-h"] = Ok r
    /\ plain (sample_cl default_style) /\ ~ bit (cl_style (sample_cl default_style)) 12
    /\ tokens_of r = [$"a"; $"-vo"; $"f"; $"--num=3"; $"-h"].
Proof. eexists. repeat split. unfold bit; cbn; discriminate. Qed.

(** C13. Once the parser has dealt with [pre], the tokens after "--" become positional
    options, one each, verbatim, and the options before it are what they would be
    without them. *)
Theorem C13_after_terminator : forall c pre rest r,
  plain c -> cl_positional c = None -> ~ In dashdash pre -> parse c pre = Ok r ->
  exists tail, parse c (pre ++ dashdash :: rest) = Ok (r ++ tail)
    /\ positional_items (count_positionals r) rest tail.
Proof. exact terminator_lemma. Qed.
Print Assumptions C13_after_terminator.

Example C13_ex :
  exists r tail,
    parse (sample_cl default_style) [$"a"; $"--in"; $"b"] = Ok r
    /\ parse (sample_cl default_style) ([$"a"; $"--in"; $"b"] ++ dashdash :: [$"-h"; $"--"; $"x"])
       = Ok (r ++ tail)
    /\ count_positionals r = 1%Z
    /\ map po_value tail = [[$"-h"]; [$"--"]; [$"x"]] /\ map po_pos tail = [1; 2; 3]%Z
    /\ map po_key tail = [[]; []; []].
Proof. do 2 eexists. repeat split; reflexivity. Qed.

(** C14, C15. Any list of tokens, each spelling one option with a value ("--name=value",
    "-cvalue" or "/cvalue"), parses to exactly these options and values. *)
Theorem C14_round_trip : forall c toks kvs,
  plain c ->
  Forall2 (fun tok kv => exists typed, spelled c tok typed (snd kv) /\ takes_one c typed (fst kv))
    toks kvs ->
  exists res, parse c toks = Ok res
    /\ named_options (map fst kvs) (map (fun kv => [snd kv]) kvs) (map (fun t => [t]) toks) res.
Proof. exact round_trip_lemma. Qed.
Print Assumptions C14_round_trip.

(** C14. "--name=" is rejected. *)
Theorem C14_empty_adjacent : forall c n rest,
  plain c -> has (cl_style c) allow_long = true -> without c_eq n ->
  fails_with (parse c ((dashdash ++ n ++ [c_eq]) :: rest))
    (invalid_command_line_syntax empty_adjacent_parameter).
Proof. exact empty_adjacent_lemma. Qed.
Print Assumptions C14_empty_adjacent.

Lemma takes_output style typed :
  lookup (sample_cl style) typed = Ok (Some o_output) ->
  unambiguous (sample_cl style) $"output" ->
  takes_one (sample_cl style) typed $"output".
Proof.
  intros H Hk. exists o_output. repeat split; auto; try (cbn; discriminate).
  left. exists $"output", []. repeat split; auto. cbn. intuition discriminate.
Qed.

Example C14_ex :
  let c := sample_cl default_style in
  plain c
  /\ Forall2 (fun tok kv => exists typed, spelled c tok typed (snd kv) /\ takes_one c typed (fst kv))
       [$"--out=a=b --x"; $"-o-v"] [($"output", $"a=b --x"); ($"output", $"-v")]
  /\ (exists r, parse c [$"--out=a=b --x"; $"-o-v"] = Ok r
       /\ map po_value r = [[$"a=b --x"]; [$"-v"]]).
Proof.
  split; [split; reflexivity|]. split; [|eexists; split; reflexivity].
  constructor; [|constructor; [|constructor]].
  - exists $"out". split; [|now apply takes_output; [|eexists]].
    apply (sp_long (sample_cl default_style) $"out" $"a=b --x"); try reflexivity; try discriminate.
    unfold without; cbn; intuition discriminate.
  - exists $"-o". split; [|now apply takes_output; [|eexists]].
    apply (sp_short (sample_cl default_style) "o"%char $"-v"); try reflexivity; try discriminate.
    split; [reflexivity|]. split; [|discriminate]. split; [discriminate|].
    repeat constructor; discriminate.
Qed.

(** C15. One short option: in dash style, *)
Theorem C15_short_round_trip : forall c x v key,
  plain c -> has (cl_style c) allow_short = true -> has (cl_style c) allow_dash_for_short = true ->
  has (cl_style c) allow_long_disguise = false -> case_sensitive c ->
  x <> c_dash -> v <> [] -> takes_one c [c_dash; x] key ->
  exists o, parse c [[c_dash; x] ++ v] = Ok [o] /\ po_key o = key /\ po_value o = [v]
    /\ po_pos o = (-1)%Z /\ po_unreg o = false.
Proof.
  intros c x v key Hp H1 H2 H3 [H4 H5] Hx Hv Ht.
  destruct (round_trip_lemma c [[c_dash; x] ++ v] [(key, v)] Hp) as (res & Hr & Hk & Hval & Ho & Hf).
  - constructor; [|constructor]. exists [c_dash; x]. split; [|exact Ht]. apply sp_short; auto.
    unfold short_style_ok. rewrite H4, H5. split; [exact H3|]. split; [|discriminate].
    split; [discriminate|]. clear. induction (cl_desc c); constructor; auto. split; discriminate.
  - destruct res as [|o [|? ?]]; try discriminate. exists o. inversion Hf; subst.
    cbn in Hk, Hval. repeat split; try tauto; congruence.
Qed.
Print Assumptions C15_short_round_trip.

(** C15. and with a slash. *)
Theorem C15_slash_round_trip : forall c x v key,
  plain c -> has (cl_style c) allow_short = true -> has (cl_style c) allow_slash_for_short = true ->
  has (cl_style c) allow_long_disguise = false ->
  v <> [] -> takes_one c [c_dash; x] key ->
  exists o, parse c [[c_slash; x] ++ v] = Ok [o] /\ po_key o = key /\ po_value o = [v]
    /\ po_pos o = (-1)%Z /\ po_unreg o = false.
Proof.
  intros c x v key Hp H1 H2 H3 Hv Ht.
  destruct (round_trip_lemma c [[c_slash; x] ++ v] [(key, v)] Hp) as (res & Hr & Hk & Hval & Ho & Hf).
  - constructor; [|constructor]. exists [c_dash; x]. split; [|exact Ht]. apply sp_slash; auto.
  - destruct res as [|o [|? ?]]; try discriminate. exists o. inversion Hf; subst.
    cbn in Hk, Hval. repeat split; try tauto; congruence.
Qed.
Print Assumptions C15_slash_round_trip.

Example C15_ex :
  let c := sample_cl slash_style in
  takes_one c $"-o" $"output" /\ case_sensitive c /\ plain c
  /\ (exists o, parse c [$"-ofile"] = Ok [o] /\ po_key o = $"output" /\ po_value o = [$"file"])
  /\ (exists o, parse c [$"/ofile"] = Ok [o] /\ po_key o = $"output" /\ po_value o = [$"file"]).
Proof.
  split; [apply takes_output; [reflexivity|now eexists]|].
  repeat split; eexists; repeat split; reflexivity.
Qed.

(** C16. A group of flags and a last short option parses like the separate tokens. *)
Theorem C16_sticky_groups : forall c fl x rest,
  plain c -> case_sensitive c -> has (cl_style c) allow_short = true ->
  has (cl_style c) allow_dash_for_short = true -> has (cl_style c) allow_long_disguise = false ->
  has (cl_style c) allow_sticky = true ->
  Forall (fun a => a <> c_dash) (fl ++ [x]) -> Forall (is_flag c) fl ->
  let group := parse c ((c_dash :: fl ++ [x]) :: rest) in
  let separate := parse c (map (fun a => [c_dash; a]) fl ++ [c_dash; x] :: rest) in
  (forall r, group = Ok r -> exists r', separate = Ok r' /\ Forall2 same_option r r')
  /\ (forall r, separate = Ok r -> exists r', group = Ok r' /\ Forall2 same_option r r').
Proof. exact sticky_lemma. Qed.
Print Assumptions C16_sticky_groups.

Example C16_ex :
  let c := sample_cl default_style in
  plain c /\ case_sensitive c /\ Forall (is_flag c) $"vhv"
  /\ (exists r, parse c [$"-vhvo"; $"f"; $"g"] = Ok r
        /\ map po_key r = [$"verbose"; $"help"; $"verbose"; $"output"; []]
        /\ map po_value r = [[]; []; []; [$"f"]; [$"g"]]).
Proof.
  repeat split; [|eexists; repeat split; reflexivity].
  repeat constructor; [exists o_verbose|exists o_help|exists o_verbose];
    (repeat split; [cbn; tauto|cbn; discriminate]).
Qed.

(** C16. With case ignored this fails: '-V' and '-H' are accepted separately, '-VH' is
    not. *)
Theorem C16_sticky_ignoring_case_refuted :
  exists c a b r,
    plain c /\ cl_style c = nocase_style /\ has (cl_style c) allow_sticky = true
    /\ (exists d, lookup c [c_dash; a] = Ok (Some d) /\ vs_max (od_sem d) = 0%Z)
    /\ parse c [[c_dash; a]; [c_dash; b]] = Ok r
    /\ exists e, parse c [[c_dash; a; b]] = Throw e.
Proof.
  exists (sample_cl nocase_style), "V"%char, "H"%char. eexists.
  repeat split.
  - exists o_verbose. split; reflexivity.
  - eexists. vm_compute. reflexivity.
Qed.
Print Assumptions C16_sticky_ignoring_case_refuted.
