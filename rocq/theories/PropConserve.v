(** C89, C90: what [allow_unregistered] and [allow_guessing] change. *)

From Coq Require Import List Ascii String NArith ZArith Bool Lia.
From Verif Require Import Base Errors Spec BaseFacts Values OptDesc SpecLookup LookupFacts Positional Cmdline SpecCmdline
  CmdlineFacts SpecGrammar Parsers ConfigFile SpecConfig SpecConserve ConserveFacts GuessFacts Samples PropCmdline PropConfig Witness.
Import ListNotations.

(** ** Unregistered options *)

(** C89. A parser that does not allow unregistered options succeeds exactly if the one that allows them succeeds without
    having met one, and then with the same result.  If that one met some, the strict one fails with [unknown_option]; if
    that one fails, the strict one fails too: in the same way, or with [unknown_option]. *)
Theorem C89_command_line : forall c args, cl_style_parser c = None ->
  (forall r, parse (strict c) args = Ok r <-> parse (lax c) args = Ok r /\ all_registered r)
  /\ (forall r, parse (lax c) args = Ok r -> ~ all_registered r -> unknown (parse (strict c) args))
  /\ ((forall r, parse (lax c) args <> Ok r) ->
        parse (strict c) args = parse (lax c) args \/ unknown (parse (strict c) args)).
Proof. intros c args H. apply stricter_cases. unfold parse. now apply run_strict. Qed.
Print Assumptions C89_command_line.

(** C89. The same for config files, whatever the options and the content. *)
Theorem C89_config_file : forall content ds,
  (forall r, parse_config_file content ds false = Ok r <-> parse_config_file content ds true = Ok r /\ all_registered (pr_options r))
  /\ (forall r, parse_config_file content ds true = Ok r -> ~ all_registered (pr_options r) ->
        unknown (parse_config_file content ds false))
  /\ ((forall r, parse_config_file content ds true <> Ok r) ->
        parse_config_file content ds false = parse_config_file content ds true \/ unknown (parse_config_file content ds false)).
Proof. intros content ds. apply (stricter_cases (fun p => all_registered (pr_options p))), config_strict. Qed.
Print Assumptions C89_config_file.

(** Accepted by both; accepted by the second only; rejected by both, in the same way and in different ways. *)
Example C89_ex :
  let c := sample_cl default_style in
  (exists r, parse (lax c) [$"--help"; $"x"] = Ok r /\ all_registered r /\ parse (strict c) [$"--help"; $"x"] = Ok r)
  /\ (exists r, parse (lax c) [$"--bogus=1"; $"-v"] = Ok r /\ ~ all_registered r /\ unknown (parse (strict c) [$"--bogus=1"; $"-v"]))
  /\ (exists e, parse (lax c) [$"--output="] = Throw e /\ parse (strict c) [$"--output="] = Throw e)
  /\ (exists e, parse (lax c) [$"--bogus"; $"--output="] = Throw e /\ ex_class e <> unknown_option
        /\ unknown (parse (strict c) [$"--bogus"; $"--output="]))
  /\ (exists r, parse_config_file (unlines [$"number=1"]) conf true = Ok r /\ parse_config_file (unlines [$"number=1"]) conf false = Ok r)
  /\ (exists r, parse_config_file (unlines [$"bogus=1"]) conf true = Ok r /\ unknown (parse_config_file (unlines [$"bogus=1"]) conf false)).
Proof.
  cbv zeta. split; [|split; [|split; [|split; [|split]]]].
  - eexists. split; [vm_compute; reflexivity|]. split; [repeat constructor|vm_compute; reflexivity].
  - eexists. split; [vm_compute; reflexivity|]. split; [intros H; inversion H; discriminate|unfold unknown; compute_ex].
  - eexists. split; vm_compute; reflexivity.
  - eexists. split; [vm_compute; reflexivity|]. split; [discriminate|]. unfold unknown; compute_ex.
  - apply ok_with. vm_compute. reflexivity.
  - match goal with |- exists r, ?x = Ok r /\ ?P => assert (E : exists r, x = Ok r) by compute_ex; destruct E as [r E]; exists r; split; [exact E|] end.
    unfold unknown; compute_ex.
Qed.

(** ** Abbreviations *)

(** C90. Allowing abbreviations only gives a meaning to command lines that were rejected because of an unknown option: every
    other one keeps its result, or its error.  This holds if unregistered options are not allowed, long options take
    two dashes, no long name is a wildcard, and no token that could be an option (and no short name), with its dashes, is the beginning of
    a long name. *)
Theorem C90_allow_guessing : forall c args,
  cl_style_parser c = None -> cl_allow_unregistered c = false -> has (cl_style c) allow_long_disguise = false ->
  no_wildcards (cl_desc c) ->
  (forall d, In d (cl_desc c) -> od_short d <> [] -> no_abbreviation c (od_short d)) ->
  Forall (fun tok => option_like c tok -> no_abbreviation c tok) args ->
  parse (exact_names c) args = parse (abbreviated_names c) args \/ unknown (parse (exact_names c) args).
Proof.
  intros c args H1 H2 H3 H4 H5 H6. unfold parse. apply run_on; auto.
  eapply Forall_impl; [|exact H6]. intros tok. apply calm_no_abbreviation.
Qed.
Print Assumptions C90_allow_guessing.

(** C90. In particular what was accepted keeps its meaning. *)
Theorem C90_accepted_stays : forall c args r,
  cl_style_parser c = None -> cl_allow_unregistered c = false -> has (cl_style c) allow_long_disguise = false ->
  no_wildcards (cl_desc c) ->
  (forall d, In d (cl_desc c) -> od_short d <> [] -> no_abbreviation c (od_short d)) ->
  Forall (fun tok => option_like c tok -> no_abbreviation c tok) args ->
  parse (exact_names c) args = Ok r -> parse (abbreviated_names c) args = Ok r.
Proof.
  intros c args r H1 H2 H3 H4 H5 H6 H. destruct (C90_allow_guessing c args H1 H2 H3 H4 H5 H6) as [<-|(e & E & _)]; congruence.
Qed.
Print Assumptions C90_accepted_stays.

(** The options of the sample without the wildcard. *)
Definition tame : list option_description := [o_help; o_verbose; o_output; o_number; o_input; o_level].
Definition tame_cl (style : Z) : cmdline := mk_cl style false tame None None None.

Lemma tame_dash style s : no_abbreviation (tame_cl style) (c_dash :: s).
Proof.
  intros d Hd Ha. exfalso. apply approx_b_spec in Ha. revert Ha. unfold approx_b. rewrite fold_dash.
  generalize (fold_str (has (cl_style (tame_cl style)) long_case_insensitive) s). intros t.
  destruct (has (cl_style (tame_cl style)) long_case_insensitive);
    repeat (destruct Hd as [<-|Hd]; [vm_compute; discriminate|]); destruct Hd.
Qed.

Lemma tame_plain : no_wildcards tame.
Proof.
  assert (N : forall l, last l c_dash <> c_star -> forall p, l <> p ++ [c_star]) by (intros l H p ->; apply H; apply last_last).
  repeat (apply Forall_cons; [repeat (apply Forall_cons; [apply N; discriminate|]); apply Forall_nil|]). apply Forall_nil.
Qed.

Lemma tame_short style d : In d tame -> od_short d <> [] -> no_abbreviation (tame_cl style) (od_short d).
Proof.
  intros Hd Hs. repeat (destruct Hd as [<-|Hd]; [first [apply tame_dash|contradiction]|]). destruct Hd.
Qed.

Lemma tame_word style c1 s : c1 <> c_dash -> c1 <> c_slash -> ~ option_like (tame_cl style) (c1 :: s).
Proof. intros H1 H2 [(n & v & f & E & _)|[[r E]|[r E]]]; [discriminate|congruence|congruence]. Qed.

Example C90_ex :
  let c := tame_cl default_style in
  let args := [$"--output"; $"-5"; $"--number=3"; $"-v"; $"file"] in
  (exists r, parse (exact_names c) args = Ok r /\ parse (abbreviated_names c) args = Ok r)
  /\ unknown (parse (exact_names c) [$"--out=x"]) /\ (exists r, parse (abbreviated_names c) [$"--out=x"] = Ok r)
  /\ unknown (parse (exact_names c) [$"--bogus"]) /\ unknown (parse (abbreviated_names c) [$"--bogus"]).
Proof.
  cbv zeta. split; [|repeat split; try unfold unknown; compute_ex].
  eexists. split; [vm_compute; reflexivity|].
  apply C90_accepted_stays; try reflexivity.
  - apply tame_plain.
  - intros d. apply tame_short.
  - do 4 (apply Forall_cons; [intros _; apply tame_dash|]). apply Forall_cons; [|constructor].
    intros H. now apply tame_word in H.
Qed.

(** C90. The conditions on the style and on the long names are needed: with abbreviations an unregistered option becomes a registered one, "-ou"
    means [output] without a value instead of [o] with the value "u", a name under a wildcard becomes ambiguous, and a value that starts
    with dashes becomes an option (for a long name with leading dashes). *)
Theorem C90_conditions_refuted :
  let log_level := mk_od [] [$"log.level"] [] tvalue in
  let dashed := mk_od [] [$"--bar"] [] tflag in
  (exists r r', parse (exact_names (lax (tame_cl default_style))) [$"--verb"] = Ok r
     /\ parse (abbreviated_names (lax (tame_cl default_style))) [$"--verb"] = Ok r' /\ r <> r')
  /\ (exists r e, parse (exact_names (tame_cl (Z.lor default_style allow_long_disguise))) [$"-ou"] = Ok r
     /\ parse (abbreviated_names (tame_cl (Z.lor default_style allow_long_disguise))) [$"-ou"] = Throw e)
  /\ (exists r e, parse (exact_names (mk_cl default_style false [o_log; log_level] None None None)) [$"--log.l=1"] = Ok r
     /\ parse (abbreviated_names (mk_cl default_style false [o_log; log_level] None None None)) [$"--log.l=1"] = Throw e)
  /\ (exists r e, parse (exact_names (mk_cl default_style false [o_output; dashed] None None None)) [$"--output"; $"--b"] = Ok r
     /\ parse (abbreviated_names (mk_cl default_style false [o_output; dashed] None None None)) [$"--output"; $"--b"] = Throw e).
Proof.
  cbv zeta. split; [|split; [|split]].
  - eexists _, _. split; [vm_compute; reflexivity|]. split; [vm_compute; reflexivity|discriminate].
  - ok_throw.
  - ok_throw.
  - ok_throw.
Qed.
Print Assumptions C90_conditions_refuted.
