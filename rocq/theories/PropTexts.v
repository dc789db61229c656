(** C104: texts that are shown in the help have no effect on anything else. *)

From Coq Require Import List Ascii String NArith ZArith Bool Lia.
From Verif Require Import Base Errors Spec Values OptDesc Format Positional Cmdline SpecCmdline Parsers ConfigFile VarMap Build SpecBuild
  SpecTexts TextFacts Samples.
From Verif Require PropBuild.
Import ListNotations.

(** C104. Two parsers whose options differ in their descriptions and the names of their values only do the same with each command
    line: they return the same options, or throw the same exception. *)
Theorem C104_command_line : forall c c' args fuel,
  same_parser c c' -> run fuel c args = run fuel c' args.
Proof. intros. apply run_texts. assumption. Qed.
Print Assumptions C104_command_line.

(** C104. So do config files, *)
Theorem C104_config : forall ds ds' content allow,
  Forall2 same_but_texts ds ds' ->
  (let* p := parse_config_file content ds allow in Ok (pr_options p, pr_prefix p))
  = (let* p := parse_config_file content ds' allow in Ok (pr_options p, pr_prefix p)).
Proof.
  intros ds ds' content allow H. unfold parse_config_file. rewrite (allowed_texts ds ds' H []).
  destruct (cf_allowed ds' []) as [a| | |]; cbn [bind]; try reflexivity. destruct (cf_add_options [] a); cbn [bind]; try reflexivity.
  destruct (cf_copy _ _ _ _ _); reflexivity.
Qed.
Print Assumptions C104_config.

(** C104. and storing any sources one after the other: it returns normally or throws the same exception, with the same values in the
    map, and [notify] does the same with the two maps. *)
Theorem C104_store : forall ds ds' sources vm vm',
  Forall2 same_but_texts ds ds' -> same_map vm vm' ->
  same_map (fst (store_all ds sources vm)) (fst (store_all ds' sources vm'))
  /\ snd (store_all ds sources vm) = snd (store_all ds' sources vm').
Proof.
  intros ds ds' sources vm vm' H. revert vm vm'. induction sources as [|[[opts prefix] utf8] sources IH]; intros vm vm' Hm; cbn [store_all]; [cbn; auto|].
  destruct (store_texts ds ds' opts prefix utf8 vm vm' H Hm) as [A B].
  destruct (store (mk_parsed opts (Some ds) prefix) vm utf8) as [x r]. destruct (store (mk_parsed opts (Some ds') prefix) vm' utf8) as [y r'].
  cbn [fst snd] in A, B. subst r'. destruct r; cbn [fst snd]; auto.
Qed.
Print Assumptions C104_store.

Theorem C104_notify : forall vm vm', same_map vm vm' -> notify vm = notify vm'.
Proof.
  intros vm vm' (H1 & H2 & H3). unfold notify. rewrite H3, (check_required_texts _ _ _ H1), (run_notify_texts _ _ H1). reflexivity.
Qed.
Print Assumptions C104_notify.

(** C104. Typed values that differ in the name of the value and the texts for the default and the implicit value only make options
    that differ in texts only; so do different values of the global [arg]. *)
Theorem C104_values : forall lex local arg arg' tv tv',
  same_typed tv tv' -> same_semantic (typed_with lex local arg tv) (typed_with lex local arg' tv').
Proof.
  intros lex local arg arg' tv tv' H. destruct tv as [t st n d i co mu ze re no], tv' as [t' st' n' d' i' co' mu' ze' re' no'].
  unfold same_typed in H. cbn in H. destruct H as (-> & -> & Hd & Hi & -> & -> & -> & -> & ->). unfold typed_with, typed, under_name.
  constructor; cbn; try reflexivity.
  - unfold tv_min_tokens. cbn. destruct i as [[? ?]|], i' as [[? ?]|]; try discriminate; reflexivity.
  - intros a xs utf8. unfold codecvt_parse, tv_xparse. cbn.
    destruct i as [[? ?]|], i' as [[? ?]|]; try discriminate; [injection Hi as ->|]; reflexivity.
  - destruct d as [[? ?]|], d' as [[? ?]|]; try discriminate; [injection Hd as ->|]; reflexivity.
Qed.
Print Assumptions C104_values.

Theorem C104_untyped : forall local arg arg' zero_tokens,
  same_semantic (untyped_with local arg zero_tokens) (untyped_with local arg' zero_tokens).
Proof. intros. constructor; reflexivity. Qed.
Print Assumptions C104_untyped.

(** C104. What the help shows of a value with a name does not depend on [arg]; without one it shows [arg] as it is then. *)
Theorem C104_arg : forall lex local to_text arg t addr calls tv,
  declare_value to_text t addr calls = Ok tv ->
  forall name d i,
    (last_call says_name calls name /\ name <> []
     \/ (last_call says_name calls [] \/ no_call says_name calls) /\ name = arg) ->
    text_left (says_default to_text) calls d -> text_left (says_implicit to_text) calls i ->
    argument_shown name d i (vs_name (typed_with lex local arg tv)).
Proof. intros lex local to_text arg. exact (PropBuild.help_shown to_text arg). Qed.
Print Assumptions C104_arg.

(** C104. The other way round, help shows nothing but names and texts: it does not depend on the types, defaults, notifiers and other
    settings of the values. *)
Theorem C104_help : forall ndebug od od' width, look_same od od' -> print ndebug od width = print ndebug od' width.
Proof. intros. apply print_looks. assumption. Qed.
Print Assumptions C104_help.

(** ** A concrete case: a program and its translation *)

Definition level_en : typed_value := mk_typed (TLex 0) (Some 0%nat) [] (Some (VLex 0 7, $"7")) (Some (VLex 0 9, $"9")) false false false false None.
Definition level_de : typed_value := mk_typed (TLex 0) (Some 0%nat) $"stufe" (Some (VLex 0 7, $"sieben")) (Some (VLex 0 9, $"neun")) false false false false None.
Definition english : list option_description :=
  [mk_od $"-o" [$"output"] $"output file" (untyped_with local $"arg" false);
   mk_od $"-l" [$"level"] $"level" (typed_with lex local $"arg" level_en)].
Definition german : list option_description :=
  [mk_od $"-o" [$"output"] $"Ausgabe" (untyped_with local $"wert" false);
   mk_od $"-l" [$"level"] $"Stufe" (typed_with lex local $"wert" level_de)].
Definition program_of (ds : list option_description) : cmdline := mk_cl 503 false ds None None None.
Definition help_of (ds : list option_description) : outcome str := print false (mk_ods [] 80 40 (map (fun d => (d, false)) ds) []) 0.

Example C104_ex :
  Forall2 same_but_texts english german /\ same_parser (program_of english) (program_of german)
  /\ (exists r, parse (program_of english) [$"-l"; $"-ox"] = Ok r /\ parse (program_of german) [$"-l"; $"-ox"] = Ok r
        /\ map po_value r = [[]; [$"x"]]
        /\ snd (store_all english [(r, 0%Z, false)] (mk_vm [] [] [])) = Ok tt
        /\ map (fun x => (fst x, vv_value (snd x))) (vm_map (fst (store_all german [(r, 0%Z, false)] (mk_vm [] [] []))))
           = [($"level", Some (VLex 0 9)); ($"output", Some (VString $"x"))])
  /\ help_of english = Ok ($"  -o [ --output ] arg            output file" ++ [c_nl] ++ $"  -l [ --level ] [=arg(=9)] (=7) level" ++ [c_nl])
  /\ help_of german = Ok ($"  -o [ --output ] wert                  Ausgabe" ++ [c_nl] ++ $"  -l [ --level ] [=stufe(=neun)] (=sieben)" ++ [c_nl]
                           ++ $"                                        Stufe" ++ [c_nl])
  /\ look_same (mk_ods [] 80 40 [(o_output, false)] []) (mk_ods [] 80 40 [(mk_od $"-o" [$"output"] $"output file" (typed lex local tint), false)] []).
Proof.
  assert (F : Forall2 same_but_texts english german).
  { constructor; [|constructor; [|constructor]]; split; [reflexivity|split; [reflexivity|]|reflexivity|split; [reflexivity|]]; cbn [od_sem].
    - apply C104_untyped.
    - apply C104_values. unfold same_typed. cbn. auto 12. }
  split; [exact F|]. split; [repeat split; exact F|]. split.
  - eexists. split; [vm_compute; reflexivity|]. split; [vm_compute; reflexivity|]. split; [reflexivity|]. split; [vm_compute; reflexivity|].
    vm_compute. reflexivity.
  - split; [vm_compute; reflexivity|]. split; [vm_compute; reflexivity|].
    constructor; [|constructor]. constructor; [|constructor]. split; [|reflexivity]. repeat split; cbn; discriminate.
Qed.
