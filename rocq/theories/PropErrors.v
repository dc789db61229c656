(** C51: error messages. *)

From Coq Require Import List Ascii String NArith ZArith Bool Arith Lia.
From Verif Require Import Base Errors Values OptDesc Positional Cmdline Parsers ConfigFile VarMap
  Spec SpecCmdline SpecStore SpecErrors BaseFacts ErrorFacts ErrorFacts2 ThrowFacts Samples.
Import ListNotations.

(** C51. The message of an error about an option is the text for its kind, with the option named as it
    is written on the command line, the rejected value and the alternatives, if these texts contain no
    placeholder. *)
Theorem C51_message : forall e name prefix option token names,
  has_option_name (ex_class e) = true -> presentable e ->
  detail e $"option" = Some option -> detail e $"original_token" = Some token ->
  shown_name (ex_style e) option token name -> style_prefix (ex_style e) prefix ->
  distinct_sorted (alternatives e) names ->
  inert e name ->
  (forall v, detail e $"value" = Some v -> inert e v) ->
  (forall l, detail e $"invalid_line" = Some l -> inert e l) ->
  (forall a, In a (alternatives e) -> without "%"%char a) ->
  exists N, forall steps, N <= steps -> what steps e = Ok (message e name prefix names).
Proof. intros. eapply what_message; eauto. Qed.
Print Assumptions C51_message.

(** C51. The message of an error that can be shown is never undefined and computing it never throws, *)
Theorem C51_never_crashes : forall e steps, showable e ->
  (exists m, what steps e = Ok m) \/ what steps e = NoFuel.
Proof. intros e steps. apply what_safe. Qed.
Print Assumptions C51_never_crashes.

(** C51. and every error thrown can be shown: by the command line parser, *)
Theorem C51_thrown_by_parser : forall steps c args,
  (forall p, cl_style_parser c = Some p -> forall args, throws_showable (p args)) ->
  throws_showable (run steps c args).
Proof. intros steps c args H. now apply ts_run. Qed.
Print Assumptions C51_thrown_by_parser.

Theorem C51_thrown_by_parse_command_line : forall steps args ds style ext,
  throws_showable (parse_command_line steps args ds style ext).
Proof. exact ts_parse_command_line. Qed.
Print Assumptions C51_thrown_by_parse_command_line.

(** C51. the file and environment parsers, *)
Theorem C51_thrown_by_config_file : forall content ds allow,
  throws_showable (parse_config_file content ds allow).
Proof. exact ts_parse_config. Qed.
Print Assumptions C51_thrown_by_config_file.

Theorem C51_thrown_by_environment : forall env ds mapper,
  (forall s, throws_showable (mapper s)) -> throws_showable (parse_environment env ds mapper).
Proof. exact ts_environment. Qed.
Print Assumptions C51_thrown_by_environment.

(** C51. store *)
Theorem C51_thrown_by_store : forall p vm utf8,
  In (pr_prefix p) [0; allow_long; allow_long_disguise; allow_dash_for_short; allow_slash_for_short]%Z ->
  (forall ds d, pr_desc p = Some ds -> In d ds -> polite (od_sem d)) ->
  throws_showable (snd (store p vm utf8)).
Proof. intros p vm utf8 Hp H. apply ts_store; auto. intros ds d Hd Hi. apply (H ds d Hd Hi). Qed.
Print Assumptions C51_thrown_by_store.

(** C51. and notify, if the semantics are polite, *)
Theorem C51_thrown_by_notify : forall vm,
  (forall k v s, In (k, v) (vm_map vm) -> vv_sem v = Some s -> polite s) ->
  throws_showable (snd (notify vm)).
Proof. intros vm H. apply ts_notify. intros k v s Hi Hs. apply (H k v s Hi Hs). Qed.
Print Assumptions C51_thrown_by_notify.

(** C51. as those of the library are: for typed values, if the notifier and the conversion from UTF-8 are. *)
Theorem C51_library_polite : forall lexical_cast utf8_to_local,
  (forall s, throws_showable (utf8_to_local s)) ->
  (forall tv, (forall f body v e, tv_notifier tv = Some (f, body) -> body v = Some e -> showable e) ->
     polite (typed lexical_cast utf8_to_local tv))
  /\ (forall zero, polite (untyped utf8_to_local zero)).
Proof.
  intros lc loc Hl. split.
  - intros tv H. split; [intros; now apply ts_typed|]. intros a. cbn [typed vs_notify]. unfold tv_notify.
    assert (G : forall ev, throws_showable (snd (match tv_notifier tv, any_cast (tv_type tv) a with
      | None, _ => (ev, Ok tt) | Some _, None => (ev, Undef UB_null)
      | Some (f, body), Some v => (ev ++ [EvCall f v], match body v with Some e => Throw e | None => Ok tt end) end))).
    { intros ev. destruct (tv_notifier tv) as [[f body]|] eqn:En; [|apply ts_Ok].
      destruct (any_cast (tv_type tv) a) as [v|]; [|apply ts_Undef]. cbn [snd].
      destruct (body v) as [e|] eqn:Eb; [|apply ts_Ok]. apply ts_Throw. eapply H; eauto. }
    destruct (tv_store_to tv); [destruct (any_cast (tv_type tv) a) eqn:E; [apply G|apply ts_Undef]|apply G].
  - intros zero. split; [intros; now apply ts_untyped|]. intros a. apply ts_Ok.
Qed.
Print Assumptions C51_library_polite.

(** C51. But the message need not exist: what() hangs if an unknown option, *)
Theorem C51_terminates_refuted : forall c name,
  plain c -> cl_allow_unregistered c = false -> has (cl_style c) allow_long = true ->
  without "="%char name -> contains (placeholder $"canonical_option") name -> lookup c name = Ok None ->
  exists e, parse c [$"--" ++ name] = Throw e /\ hangs e.
Proof.
  intros c name [Hp Ha] Hu Hl He Hc Hf.
  exists (add_context name ($"--" ++ name) (cl_prefix c) (mk_unknown_option [])). split.
  - destruct name as [|x name]; [destruct Hc as ([|? ?] & ? & E); discriminate|].
    assert (Hlong : parse_long_option c [$"--" ++ x :: name] = Ok ([mk_popt (x :: name) (-1) [] [$"--" ++ x :: name] false false], [])).
    { unfold parse_long_option. cbn [at_index nth_error bind].
      assert (E : find_char c_eq ($"--" ++ x :: name) = None).
      { apply find_char_None. intros [H|[H|H]]; try discriminate. now apply He. }
      rewrite E. cbn. reflexivity. }
    unfold parse, run, main_step. cbn [List.length main_loop]. unfold main_step.
    assert (E : try_parsers c (style_parsers c) (style_parsers c) [$"--" ++ x :: name]
      = Throw (add_context (x :: name) ($"--" ++ x :: name) (cl_prefix c) (mk_unknown_option []))).
    { unfold style_parsers at 2. rewrite Hp, Ha, Hl. cbn [app try_parsers]. change ("-"%char :: "-"%char :: x :: name) with ($"--" ++ x :: name).
      rewrite Hlong. cbn [bind finish_all]. unfold finish_option. cbn [po_key po_orig is_empty]. rewrite Hf. cbn [with_context bind].
      rewrite Hu. reflexivity. }
    rewrite E. reflexivity.
  - intros steps. destruct (style_prefix_exists (add_context name ($"--" ++ name) (cl_prefix c) (mk_unknown_option []))) as [p Hpr].
    { apply presentable_context; [apply valid_cl_prefix|]. now apply showable_unknown. }
    unfold what, substitute_placeholders.
    assert (En : canonical_option_name (add_context name ($"--" ++ name) (cl_prefix c) (mk_unknown_option [])) = Ok ($"--" ++ name)) by reflexivity.
    rewrite En, (prefix_fun _ _ Hpr). cbn [bind has_option_name ex_class add_context mk_unknown_option make_exn set_substitute no_option_name].
    match goal with |- context [sm_set $"prefix" p ?m] => set (m1 := sm_set $"prefix" p m) end.
    assert (Em : m1 = [($"canonical_option", $"--" ++ name); ($"option", []); ($"original_token", $"--" ++ name); ($"prefix", p)]) by reflexivity.
    assert (Ed : forall msg, apply_defaults steps substitution_defaults m1 msg
      = flag_defaults steps false (is_empty p) true msg).
    { intros msg. change m1 with (full_subst (add_context name ($"--" ++ name) (cl_prefix c) (mk_unknown_option [])) ($"--" ++ name) p).
      now rewrite defaults_flags. }
    rewrite Ed. clear Ed. unfold flag_defaults. cbn [bind].
    assert (Hd : replace_token steps (placeholder $"canonical_option") ($"--" ++ name) (error_template unknown_option) = NoFuel).
    { apply replace_diverges.
      - destruct Hc as (a & b & E). exists ($"--" ++ a), b. rewrite E. now rewrite <- app_assoc.
      - exists $"unrecognised option '", $"'". reflexivity. }
    destruct steps as [|steps]; [now destruct (is_empty p)|].
    replace (if is_empty p then replace_token (S steps) $"%prefix%" [] (error_template unknown_option) else Ok (error_template unknown_option))
      with (@Ok str (error_template unknown_option)) by (destruct (is_empty p); reflexivity).
    cbn [bind]. replace (replace_token (S steps) $"argument ('%value%')" $"argument" (error_template unknown_option))
      with (@Ok str (error_template unknown_option)) by reflexivity.
    cbn [bind]. rewrite Em. cbn [apply_substitutions].
    change ([c_percent] ++ $"canonical_option" ++ [c_percent]) with (placeholder $"canonical_option"). now rewrite Hd.
Qed.
Print Assumptions C51_terminates_refuted.

(** C51. or a rejected value contains the placeholder it replaces. *)
Theorem C51_value_terminates_refuted : forall key token style name v,
  In style [0; allow_long; allow_long_disguise; allow_dash_for_short; allow_slash_for_short]%Z ->
  shown_name style key token name -> name <> [] -> without "%"%char name ->
  contains (placeholder $"value") v ->
  hangs (add_context key token style (mk_invalid_option_value v)).
Proof.
  intros key token style name v Hz Hn Hne Hnw Hv steps.
  set (e := add_context key token style (mk_invalid_option_value v)).
  assert (P : presentable e) by (apply presentable_context; auto; now apply showable_invalid_value).
  destruct (style_prefix_exists e P) as [p Hp].
  assert (Hvne : is_empty v = false).
  { destruct v; [|reflexivity]. destruct Hv as ([|? ?] & ? & E); discriminate. }
  unfold what. change (ex_class e) with invalid_option_value. cbn [has_option_name]. unfold substitute_placeholders.
  assert (Ho : detail e $"option" = Some key) by reflexivity.
  assert (Ht : detail e $"original_token" = Some token) by reflexivity.
  rewrite (name_fun e key token name Ho Ht Hn), (prefix_fun _ _ Hp). cbn [bind]. cbv zeta.
  fold (full_subst e name p). rewrite defaults_flags.
  assert (Emv : missing_value e = false) by exact Hvne. rewrite Emv.
  assert (Ene : is_empty name = false) by (destruct name; [contradiction|reflexivity]). rewrite Ene.
  unfold flag_defaults. cbn [bind].
  assert (Em : full_subst e name p = [($"canonical_option", name); ($"option", key); ($"original_token", token); ($"prefix", p); ($"value", v)])
    by reflexivity.
  set (t := error_template invalid_option_value) in *.
  destruct steps as [|[|steps]]; [now destruct (is_empty p)| |].
  { destruct (is_empty p); cbn [bind]; [change (replace_token 1 $"%prefix%" [] t) with (@Ok str t); cbn [bind]|];
      rewrite Em; cbn [apply_substitutions]; reflexivity. }
  replace (if is_empty p then replace_token (S (S steps)) $"%prefix%" [] t else Ok t)
    with (@Ok str t) by (destruct (is_empty p); reflexivity).
  cbn [bind]. rewrite Em. cbn [apply_substitutions].
  assert (E1 : replace_token (S (S steps)) (placeholder $"canonical_option") name t
    = Ok ($"the argument ('%value%') for option '" ++ name ++ $"' is invalid")).
  { set (gs := [(None, $"the argument ("); (Some $"value", []); (None, $") for option "); (Some $"canonical_option", []); (None, $" is invalid")] : list seg).
    assert (Ec : render gs = t) by (vm_compute; reflexivity).
    assert (Ef : render (map (fill1 $"canonical_option" name) gs) = $"the argument ('%value%') for option '" ++ name ++ $"' is invalid").
    { change (map (fill1 $"canonical_option" name) gs) with
        ([(None, $"the argument ("); (Some $"value", []); (None, $") for option "); (None, name ++ []); (None, $" is invalid")] : list seg).
      rewrite app_nil_r. reflexivity. }
    destruct (replace_render [$"canonical_option"]
      ltac:(constructor; [split; intros H; cbn in H; intuition discriminate|constructor]) 1 $"canonical_option" name gs (S (S steps))) as [R _].
    - reflexivity.
    - lia.
    - apply clean_b_all. vm_compute. reflexivity.
    - now left.
    - intros s Hs. apply without_quiet. intros H.
      assert (Hs' : s = []) by (destruct Hs as [Hs|[Hs|[Hs|[Hs|[Hs|[]]]]]]; congruence).
      subst s. rewrite app_nil_r in H. contradiction.
    - rewrite <- Ec, R, Ef. reflexivity. }
  change ([c_percent] ++ $"canonical_option" ++ [c_percent]) with (placeholder $"canonical_option"). rewrite E1. cbn [bind].
  set (msg := $"the argument ('%value%') for option '" ++ name ++ $"' is invalid").
  assert (Hother : forall k, good_name k -> k <> $"value" -> forall w, replace_token (S (S steps)) ([c_percent] ++ k ++ [c_percent]) w msg = Ok msg).
  { intros k Hg Hkv w. change ([c_percent] ++ k ++ [c_percent]) with (placeholder k). apply replace_absent.
    assert (Er : msg = render [(None, $"the argument ("); (Some $"value", []); (None, $") for option "); (None, name); (None, $" is invalid")]).
    { unfold msg. cbn -[app]. reflexivity. }
    rewrite Er. apply (render_find_none [k]); [constructor; auto| |now left|].
    - repeat constructor; cbn [clean fst snd]; try (apply without_quiet; assumption);
        try (apply without_quiet; intros H; cbn in H; intuition discriminate); try (intros H; cbn in H; intuition discriminate).
    - intros g Hg'. cbn in Hg'. destruct Hg' as [<-|[<-|[<-|[<-|[<-|[]]]]]]; try reflexivity.
      unfold is_hole. cbn [fst]. destruct (str_eqb k _) eqn:E; [apply str_eqb_eq in E; contradiction|reflexivity]. }
  rewrite (Hother $"option") by (apply good_option || discriminate). cbn [bind].
  rewrite (Hother $"original_token") by (apply good_token || discriminate). cbn [bind].
  rewrite (Hother $"prefix") by (discriminate || (split; intros H; cbn in H; intuition discriminate)). cbn [bind].
  change ([c_percent] ++ $"value" ++ [c_percent]) with (placeholder $"value").
  rewrite replace_diverges; [reflexivity|exact Hv|]. eexists $"the argument ('", _. unfold msg. reflexivity.
Qed.
Print Assumptions C51_value_terminates_refuted.

(** C51. Guessing "--ver" among two options; a value that is not a number; *)
Definition versions : list option_description := [o_verbose; mk_od [] [$"version"] [] tflag].
Definition versions_cl : cmdline := mk_cl default_style false versions None None None.
Definition stored (args : list str) : outcome unit :=
  match parser_run (List.length args) (sample_cl default_style) args with
  | Ok p => snd (store p vm_new false)
  | _ => NoFuel
  end.

Example C51_ex :
  (exists e, parse versions_cl [$"--ver"] = Throw e /\ presentable e /\ has_option_name (ex_class e) = true
     /\ distinct_sorted (alternatives e) [$"verbose"; $"version"]
     /\ shown_name (ex_style e) [] $"--ver" $"--ver" /\ style_prefix (ex_style e) $"--"
     /\ (forall a, In a (alternatives e) -> without "%"%char a) /\ inert e $"--ver"
     /\ message e $"--ver" $"--" [$"verbose"; $"version"]
        = $"option '--ver' is ambiguous and matches '--verbose', and '--version'"
     /\ what 10 e = Ok $"option '--ver' is ambiguous and matches '--verbose', and '--version'")
  /\ (exists e, stored [$"-n"; $"x"] = Throw e /\ presentable e
        /\ what 10 e = Ok $"the argument ('x') for option '--number' is invalid").
Proof.
  assert (Ps : forall e, parse versions_cl [$"--ver"] = Throw e -> showable e) by (apply C51_thrown_by_parser; discriminate).
  assert (Pn : forall e, stored [$"-n"; $"x"] = Throw e -> showable e).
  { unfold stored. destruct (parser_run _ _ _) as [p| | |] eqn:E; try discriminate.
    apply bind_Ok in E. destruct E as (r & _ & E). injection E as <-. apply C51_thrown_by_store; [right; now left|].
    intros ds d Hd Hi. injection Hd as <-. unfold sample_cl, cl_desc, sample in Hi.
    destruct (C51_library_polite lex local) as [H1 H2]; [discriminate|].
    repeat (destruct Hi as [<-|Hi]; [first [apply H2 | apply H1; discriminate]|]). destruct Hi. }
  split.
  - eexists. split; [vm_compute; reflexivity|]. split; [eapply Ps; [vm_compute; reflexivity|reflexivity]|].
    split; [reflexivity|]. split.
    + split; [|intros a; cbn [In alternatives ex_class]; split; tauto].
      repeat constructor; vm_compute; reflexivity.
    + split; [now apply sn_written|]. split; [apply sp_long|]. split.
      * intros a [<-|[<-|[]]] H; cbn in H; intuition discriminate.
      * split; [|split; vm_compute; reflexivity].
        intros k _. apply find_sub_None.
        assert (H : forall k, find_sub (placeholder k) $"--ver" = None).
        { intros k0. apply find_sub_None. intros (a & b & E).
          assert (Hi : In "%"%char $"--ver") by (rewrite E; apply in_or_app; right; left; reflexivity).
          cbn in Hi. intuition discriminate. }
        apply H.
  - eexists. split; [vm_compute; reflexivity|]. split; [eapply Pn; [vm_compute; reflexivity|reflexivity]|]. vm_compute. reflexivity.
Qed.

(** C51. and the messages that are never finished. *)
Example C51_hangs_ex :
  (exists e, parse (sample_cl default_style) [$"--%canonical_option%"] = Throw e /\ hangs e)
  /\ (exists e, stored [$"--number=%value%"] = Throw e /\ hangs e).
Proof.
  split.
  - apply (C51_terminates_refuted (sample_cl default_style) $"%canonical_option%"); try reflexivity.
    + split; reflexivity.
    + intros H. cbn in H. intuition discriminate.
    + exists [], []. reflexivity.
  - exists (add_context $"number" $"--number=%value%" 1 (mk_invalid_option_value $"%value%")).
    split; [vm_compute; reflexivity|].
    apply (C51_value_terminates_refuted $"number" $"--number=%value%" 1 $"--number").
    + right. now left.
    + apply (sn_long 1 $"number" $"--number=%value%" $"--"); [discriminate|now left|apply sp_long|].
      apply (stripped_some [] "n"%char $"umber"); [constructor|]. intros [H|H]; discriminate.
    + discriminate.
    + intros H. cbn in H. intuition discriminate.
    + exists [], []. reflexivity.
Qed.
