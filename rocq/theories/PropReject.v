(** C69-C72: what errors say, files given by name, why command lines are rejected, the case flag. *)

From Coq Require Import List Ascii String NArith ZArith Bool Lia.
From Verif Require Import Base Errors Spec BaseFacts Values OptDesc SpecLookup LookupFacts KeyFacts Positional Cmdline SpecCmdline
  CmdlineFacts RunFacts ParseFacts ReadFacts SpecErrors ErrorFacts ThrowFacts Parsers ConfigFile SpecConfig ConfigFacts Build
  Streams SpecStreams StreamFacts SpecReject RejectFacts Samples PropConfig PropErrors.
From Verif Require Import Witness.
Import ListNotations.

(** C69. get_option_name() of an error about an option is the name shown in its message; there is
    always exactly one. *)
Theorem C69_option_name : forall e option token,
  presentable e -> detail e $"option" = Some option -> detail e $"original_token" = Some token ->
  (exists name, get_option_name e = Ok name)
  /\ forall name, get_option_name e = Ok name <-> shown_name (ex_style e) option token name.
Proof.
  intros e o t P Ho Ht. destruct (shown_name_exists e o t P) as [n Hn].
  pose proof (name_fun e o t n Ho Ht Hn) as En. split; [now exists n|].
  intros name. split; [|apply (name_fun e o t name Ho Ht)].
  unfold get_option_name. rewrite En. intros [= <-]. exact Hn.
Qed.
Print Assumptions C69_option_name.

(** C69. tokens() and get_option_name() of every error about an option that the library throws are defined. *)
Theorem C69_accessors_defined : forall e, showable e -> has_option_name (ex_class e) = true ->
  (exists name, get_option_name e = Ok name)
  /\ (forall k, syntax_kind_of e = Some k -> (ex_class e = invalid_config_file_syntax k -> k = unrecognized_line) ->
      exists t, tokens e = Ok t).
Proof.
  intros e Hs Hc. specialize (Hs Hc). destruct (detail e $"option") as [o|] eqn:Ho; [|now destruct (pr_option _ Hs)].
  destruct (detail e $"original_token") as [t|] eqn:Ht; [|now destruct (pr_token _ Hs)].
  pose proof (proj1 (C69_option_name e o t Hs Ho Ht)) as En. split; [exact En|].
  intros k Hk Hl. unfold tokens. destruct (ex_class e) eqn:Ec; auto.
  cbn in Hk. unfold syntax_kind_of in Hk. rewrite Ec in Hk. injection Hk as ->. specialize (Hl eq_refl).
  destruct (detail e $"invalid_line") as [l|] eqn:El.
  - exists l. unfold subst_get. unfold detail in El. now rewrite El.
  - exfalso. apply (pr_line _ Hs k); auto.
Qed.
Print Assumptions C69_accessors_defined.

(** C69. An unknown option is named as written on the command line, *)
Theorem C69_unknown_option : forall c pre r tok typed rest,
  plain c -> cl_allow_unregistered c = false -> ~ In dashdash pre -> parse c pre = Ok r ->
  writes c tok typed -> lookup c typed = Ok None ->
  exists e, parse c (pre ++ tok :: rest) = Throw e /\ ex_class e = unknown_option /\ get_option_name e = Ok tok.
Proof.
  intros c pre r tok typed rest Hp Hu Hd Hr Hw Hl. eexists. split; [eapply unknown_exact; eauto|]. split; reflexivity.
Qed.
Print Assumptions C69_unknown_option.

Lemma reads_prefix ds allow es1 sec o : reads ds allow sec es1 o -> forall r1, o = Ok r1 ->
  exists sec', leads_to sec es1 sec' /\
  forall es2 r2, reads ds allow sec' es2 r2 -> reads ds allow sec (es1 ++ es2) (let* os := r2 in Ok (r1 ++ os)).
Proof.
  assert (Hid : forall x : outcome (list popt), (let* os := x in Ok os) = x) by now intros [].
  assert (Hcons : forall (o : popt) r (x : outcome (list popt)),
    (let* os := x in Ok ((o :: r) ++ os)) = (let* os := (let* os := x in Ok (r ++ os)) in Ok (o :: os))) by now intros o' r [].
  induction 1 as [sec|sec es o H IH|s sec' sec es o Hs H IH|sec es|sec n v es o Ha H IH|sec n v es o Ha Hal H IH|sec n v es Ha Hal|sec s es];
    intros r1 E; try discriminate.
  - injection E as <-. exists sec. split; [constructor|]. intros es2 r2 H2. cbn [app]. now rewrite Hid.
  - destruct (IH _ E) as (s' & Hl & HH). exists s'. split; [constructor; auto; discriminate|].
    intros es2 r2 H2. cbn [app]. apply rd_nothing. auto.
  - destruct (IH _ E) as (s' & Hl & HH). exists s'. split; [econstructor; eauto|].
    intros es2 r2 H2. cbn [app]. eapply rd_section; eauto.
  - destruct o as [r| | |]; try discriminate. cbn [bind] in E. injection E as <-.
    destruct (IH _ eq_refl) as (s' & Hl & HH). exists s'. split; [constructor; auto; discriminate|].
    intros es2 r2 H2. rewrite Hcons. cbn [app]. apply rd_assign; auto.
  - destruct o as [r| | |]; try discriminate. cbn [bind] in E. injection E as <-.
    destruct (IH _ eq_refl) as (s' & Hl & HH). exists s'. split; [constructor; auto; discriminate|].
    intros es2 r2 H2. rewrite Hcons. cbn [app]. apply rd_unregistered; auto.
Qed.

Lemma leads_to_fun : forall es sec s1 s2, leads_to sec es s1 -> leads_to sec es s2 -> s1 = s2.
Proof.
  intros es sec s1 s2 H1. revert s2. induction H1 as [sec|s sec1 sec sec' es Hs H IH|e sec sec' es He H IH];
    intros s2 H2; inversion H2 as [|s0 sec1' sec0 sec0' es0 Hs' H'|e0 sec0 sec0' es0 He' H']; subst; auto.
  - apply IH. replace sec1 with sec1'; auto.
    destruct Hs as [[Hd ->]|(_ & Hd & ->)]; destruct Hs' as [[Hd' ->]|(_ & Hd' & ->)]; auto; contradiction.
  - now destruct (He' s).
  - now destruct (He s0).
Qed.

Lemma config_fails ds allow content ls es1 e0 es2 r e :
  all_named ds -> compatible ds -> lines_of content ls -> Forall2 line_is ls (es1 ++ e0 :: es2) ->
  reads ds allow [] es1 (Ok r) ->
  (forall sec, leads_to [] es1 sec -> reads ds allow sec (e0 :: es2) (Throw e)) ->
  parse_config_file content ds allow = Throw e.
Proof.
  intros Hn Hc Hl He H1 H2. destruct (reads_prefix _ _ _ _ _ H1 _ eq_refl) as (sec & Hs & HH).
  specialize (HH _ _ (H2 _ Hs)). pose proof (config_reads ds allow content ls _ Hn Hc Hl He) as H.
  rewrite parse_config_shape, (reads_fun _ _ _ _ _ H _ HH). reflexivity.
Qed.

(** C69. the first line of a config file that cannot be read is returned by tokens(), *)
Theorem C69_config_line : forall ds allow content ls es1 s es2 r,
  all_named ds -> compatible ds -> lines_of content ls -> Forall2 line_is ls (es1 ++ Junk s :: es2) ->
  reads ds allow [] es1 (Ok r) ->
  exists e, parse_config_file content ds allow = Throw e
    /\ syntax_kind_of e = Some unrecognized_line /\ tokens e = Ok s.
Proof.
  intros ds allow content ls es1 s es2 r Hn Hc Hl He H1. eexists. split.
  - eapply config_fails; eauto. intros sec _. apply rd_junk.
  - split; reflexivity.
Qed.
Print Assumptions C69_config_line.

(** C69. and the first unregistered name, with its section, by get_option_name(). *)
Theorem C69_config_unknown : forall ds content ls es1 sec n v es2 r,
  all_named ds -> compatible ds -> lines_of content ls -> Forall2 line_is ls (es1 ++ Assign n v :: es2) ->
  reads ds false [] es1 (Ok r) -> leads_to [] es1 sec -> ~ accepts ds (sec ++ n) ->
  exists e, parse_config_file content ds false = Throw e
    /\ ex_class e = unknown_option /\ get_option_name e = Ok (sec ++ n).
Proof.
  intros ds content ls es1 sec n v es2 r Hn Hc Hl He H1 Hs Ha. exists (mk_unknown_option (sec ++ n)). split.
  - eapply config_fails; eauto. intros sec' Hs'. rewrite (leads_to_fun _ _ _ _ Hs' Hs). now apply rd_unknown.
  - split; reflexivity.
Qed.
Print Assumptions C69_config_unknown.

(** C69. But in a style with short options only, the error about a missing argument names the option that
    stands in its place, not the one that lacks it. *)
Theorem C69_missing_refuted : forall c x y d d',
  plain c -> case_sensitive c -> has (cl_style c) allow_short = true -> has (cl_style c) allow_dash_for_short = true ->
  has (cl_style c) allow_long = false -> has (cl_style c) allow_long_disguise = false ->
  ~ dash_or_slash x -> ~ dash_or_slash y ->
  lookup c [c_dash; x] = Ok (Some d) -> vs_min (od_sem d) = 1%Z -> lookup c [c_dash; y] = Ok (Some d') ->
  exists e, parse c [[c_dash; x]; [c_dash; y]] = Throw e
    /\ ex_class e = invalid_command_line_syntax missing_parameter
    /\ get_option_name e = Ok [c_dash; y].
Proof.
  intros c x y d d' Hp Hcs Hs Hda Hl Hdi Hx Hy Hxd Hm Hyd.
  assert (Hread : forall z dz rest, ~ dash_or_slash z -> lookup c [c_dash; z] = Ok (Some dz) ->
    parse_short_option c ([c_dash; z] :: rest) = Ok ([raw [c_dash; z] [] [[c_dash; z]]], rest)).
  { intros z dz rest Hz Hzd. unfold parse_short_option. cbn [at_index nth_error bind].
    change (char_eqb c_dash c_dash) with true.
    destruct (char_eqb_spec z c_dash) as [->|Hn]; [destruct Hz; now left|]. cbn [andb negb short_loop].
    destruct Hcs as [Hc1 Hc2]. unfold lookup in Hzd.
    assert (Hf : foldable (cl_desc c) [c_dash; z] (has (cl_style c) long_case_insensitive) (has (cl_style c) short_case_insensitive))
      by (rewrite Hc1, Hc2; apply foldable_sensitive).
    assert (Hg : has (cl_style c) long_case_insensitive = true ->
      has (cl_style c) short_case_insensitive = true /\ Forall plain_longs (cl_desc c)) by congruence.
    destruct (short_lookup_weaker _ _ _ _ _ _ Hf Hg Hzd) as [E|E]; rewrite E; reflexivity. }
  assert (Hps : exists after, style_parsers c = [] ++ parse_short_option c :: after).
  { unfold style_parsers. destruct Hp as [-> ->]. rewrite Hl, Hdi, Hs, Hda. cbn [andb app]. eexists. reflexivity. }
  destruct Hps as [after Hps].
  set (key := od_key d [c_dash; x]).
  exists (add_context key [c_dash; y] (cl_prefix c) (mk_cmdline_syntax missing_parameter [] [] 0)).
  split; [|split; [reflexivity|]].
  - unfold parse, run. cbn [List.length main_loop].
    rewrite (main_step_read c [] (parse_short_option c) after _ _ _ Hps (fun q H => match H with end) (Hread x d _ Hx Hxd)).
    unfold finish_option. cbn [raw po_key po_value po_orig is_empty]. rewrite Hxd. cbn [with_context bind].
    fold key. rewrite Hm. cbn [List.length Z.of_nat Z.add Z.leb Z.compare Pos.of_succ_nat Pos.compare Pos.compare_cont is_empty negb andb Z.sub Z.opp grab_tokens Z.eqb].
    rewrite Hps at 1. cbn [app looks_like_option]. rewrite (Hread y d' _ Hy Hyd). cbn [bind is_empty with_context].
    rewrite Hyd. reflexivity.
  - unfold get_option_name. apply (name_fun _ key [c_dash; y]); [reflexivity|reflexivity|].
    assert (Hz : cl_prefix c = allow_dash_for_short) by (unfold cl_prefix; now rewrite Hl, Hdi, Hs, Hda).
    cbn [add_context ex_style mk_cmdline_syntax make_exn has_option_name ex_class]. rewrite Hz.
    destruct key as [|a k].
    + now apply sn_written.
    + apply (sn_letter _ _ _ [c_dash] y []); [discriminate|now left|constructor|].
      apply (stripped_some [c_dash] y []); auto. repeat constructor.
Qed.
Print Assumptions C69_missing_refuted.

Lemma named_bad text broken ds allow p : snd (parse_config_stream (st_open text broken) ds allow) = Ok p ->
  st_bad (fst (parse_config_stream (st_open text broken) ds allow)) = broken.
Proof.
  destruct (parse_config_stream (st_open text broken) ds allow) as [s r] eqn:E. cbn [fst snd]. intros ->.
  apply options_end in E. destruct E as (_ & _ & ->). reflexivity.
Qed.

Lemma open_delivers text : delivers c_nl (st_open text false) text.
Proof. apply (dv_all c_nl (st_open text false)); [repeat split|reflexivity]. Qed.

(** C70. A config file given by name gives options only if it was opened and read to its end, and then those in
    its text. *)
Theorem C70_result : forall name f ds allow r,
  parse_config_file_named name f ds allow = Ok r <->
  exists text, f = Some (mk_file text false) /\ parse_config_file text ds allow = Ok r.
Proof.
  intros name f ds allow r. unfold parse_config_file_named. cbv zeta. split.
  - destruct f as [[text broken]|]; [|discriminate]. cbn [file_text file_broken]. intros H. apply bind_Ok in H.
    destruct H as (r' & Hr & H). rewrite (named_bad _ _ _ _ _ Hr) in H. destruct broken; [discriminate|]. injection H as ->.
    exists text. split; auto. rewrite <- Hr. symmetry. apply stream_text, open_delivers.
  - intros (text & -> & H). cbn [file_text file_broken].
    assert (Hr : snd (parse_config_stream (st_open text false) ds allow) = Ok r).
    { rewrite <- H. apply stream_text, open_delivers. }
    rewrite Hr. cbn [bind]. now rewrite (named_bad _ _ _ _ _ Hr).
Qed.
Print Assumptions C70_result.

(** C70. Otherwise the error is about the text that could be read, or names the file. *)
Theorem C70_failure : forall name f ds allow e steps,
  parse_config_file_named name f ds allow = Throw e ->
  (exists text broken t, f = Some (mk_file text broken) /\ delivers c_nl (st_open text broken) t
     /\ parse_config_file t ds allow = Throw e)
  \/ (f = None \/ exists text, f = Some (mk_file text true))
     /\ what steps e = Ok ($"can not read options configuration file '" ++ name ++ $"'").
Proof.
  intros name f ds allow e steps. unfold parse_config_file_named. cbv zeta. destruct f as [[text broken]|].
  - cbn [file_text file_broken]. intros H. apply bind_Throw in H. destruct H as [H|(r & Hr & H)].
    + left. destruct (delivers_total _ c_nl char_newline (st_open text broken)) as [t Ht].
      exists text, broken, t. split; auto. split; auto. rewrite <- H. symmetry. now apply stream_text.
    + right. rewrite (named_bad _ _ _ _ _ Hr) in H. destruct broken; [|discriminate]. injection H as <-. split; [eauto|reflexivity].
  - intros [= <-]. right. split; [now left|reflexivity].
Qed.
Print Assumptions C70_failure.

(** C71. Every error of the command line parser is due to a token on the command line, and quotes one; or there
    are more positional arguments than allowed. *)
Theorem C71_rejection_justified : forall c args e,
  cl_style_parser c = None -> parse c args = Throw e ->
  ((exists pre tok rest, args = pre ++ tok :: rest /\ reason c tok rest e) /\ quotes c args e)
  \/ (exists p r, cl_positional c = Some p /\ parse (with_positional c None) args = Ok r
       /\ (max_total_count p < count_positionals r)%Z /\ ex_class e = too_many_positional_options_error).
Proof.
  intros c args e Hc H. destruct (run_throw c Hc args e H) as [(H1 & H2 & _)|(p & r & H1 & H2 & H3 & ->)]; [now left|].
  right. exists p, r. auto.
Qed.
Print Assumptions C71_rejection_justified.

(** C71. The option that lacks a value, or has one too many, is named in the error by its canonical name, in
    every style with long options; kind() tells which of the two it is. *)
Theorem C71_names_the_option : forall c args e k,
  cl_style_parser c = None -> parse c args = Throw e ->
  syntax_kind_of e = Some k -> k = missing_parameter \/ k = extra_parameter ->
  has (cl_style c) allow_long = true ->
  exists pre tok rest typed d key, args = pre ++ tok :: rest /\ names c tok typed /\ lookup c typed = Ok (Some d)
    /\ is_key d typed key
    /\ (k = extra_parameter -> vs_max (od_sem d) = 0%Z) /\ (k = missing_parameter -> (1 <= vs_min (od_sem d))%Z)
    /\ (key <> [] -> forall o, stripped key o -> get_option_name e = Ok (dashdash ++ o)).
Proof.
  intros c args e k Hc H Hk Hkk Hl. destruct (run_throw c Hc args e H) as [(H1 & (t0 & t & _ & Ht & _) & Hn & Hz)|(p & r & H1 & H2 & H3 & ->)].
  2: { discriminate. }
  assert (Hst : ex_style e = allow_long) by (rewrite Hz; unfold cl_prefix; now rewrite Hl).
  assert (Hname : forall key, detail e $"option" = Some key -> key <> [] ->
    forall o, stripped key o -> get_option_name e = Ok (dashdash ++ o)).
  { intros key Hkey Hne o Ho. apply (name_fun e key t); auto. rewrite Hst. apply sn_long; auto; [now left|constructor]. }
  destruct H1 as (pre & tok & rest & -> & Hr).
  destruct Hr as [typed _ _ _ Ec|name alts _ _ Ec|n _ Ec|typed d v key Hnm Hld Hmax _ Ec Hkey Ho|typed d key Hnm Hld Hmin _ Ec Hkey Ho];
    unfold syntax_kind_of in Hk; rewrite Ec in Hk; try discriminate.
  - injection Hk as <-. destruct Hkk as [E|E]; discriminate.
  - injection Hk as <-. exists pre, tok, rest, typed, d, key.
    refine (conj eq_refl (conj Hnm (conj Hld (conj Hkey (conj (fun _ => Hmax) (conj _ (Hname key Ho))))))). discriminate.
  - injection Hk as <-. exists pre, tok, rest, typed, d, key.
    refine (conj eq_refl (conj Hnm (conj Hld (conj Hkey (conj _ (conj (fun _ => Hmin) (Hname key Ho))))))). discriminate.
Qed.
Print Assumptions C71_names_the_option.

(** C72. case_insensitive of a parsed option tells whether its name was looked up ignoring case: the flag of the
    style for long or for short names, according to the name. *)
Theorem C72_case_flag : forall c args r, parse c args = Ok r ->
  Forall (fun o => (long_key (po_key o) -> po_ci o = has (cl_style c) long_case_insensitive)
                   /\ (~ long_key (po_key o) -> po_ci o = has (cl_style c) short_case_insensitive)) r.
Proof.
  intros c args r H. apply run_ok in H. destruct H as (r1 & r2 & r4 & _ & _ & _ & ->).
  apply Forall_forall. intros o Ho. apply in_map_iff in Ho. destruct Ho as (o0 & <- & _).
  unfold set_case_flag, long_key. cbn [po_key po_ci]. destruct (po_key o0) as [|a [|b [|d k]]]; cbn [List.length].
  - split; [intros [H _]; lia|reflexivity].
  - split; [intros [H _]; lia|reflexivity].
  - destruct (char_eqb_spec a c_dash) as [->|Ha]; cbn [negb].
    + split; [|reflexivity]. intros [_ H]. destruct H. eauto.
    + split; [reflexivity|]. intros H. destruct H. split; [lia|]. intros (x & [= E _]). contradiction.
  - split; [reflexivity|]. intros H. destruct H. split; [lia|]. intros (x & E). discriminate.
Qed.
Print Assumptions C72_case_flag.

(** ** Examples *)

Definition short_only : Z := 2 + 4 + 64 + 128 + 256.

Example C69_ex :
  (exists e, parse (sample_cl default_style) [$"--verbose"; $"--output"] = Throw e
     /\ presentable e /\ get_option_name e = Ok $"--output" /\ tokens e = Ok $"--output"
     /\ syntax_kind_of e = Some missing_parameter)
  /\ (plain (sample_cl default_style) /\ ~ In dashdash [$"-v"] /\ (exists r, parse (sample_cl default_style) [$"-v"] = Ok r)
      /\ writes (sample_cl default_style) $"--what=3" $"what" /\ lookup (sample_cl default_style) $"what" = Ok None)
  /\ Forall2 line_is [$"[log]"; $"a = 1"; $"junk"; $"x=y"]
       ([Section_ $"log"; Assign $"a" $"1"] ++ Junk $"junk" :: [Assign $"x" $"y"])
  /\ (exists r, reads conf false [] [Section_ $"log"; Assign $"a" $"1"; Section_ $"other"] (Ok r))
  /\ (leads_to [] [Section_ $"log"; Assign $"a" $"1"; Section_ $"other"] $"other." /\ ~ accepts conf $"other.x")
  /\ all_named conf /\ compatible conf
  /\ (exists e, parse (sample_cl short_only) [$"-o"; $"-v"] = Throw e /\ get_option_name e = Ok $"-v")
  /\ (lookup (sample_cl short_only) $"-o" = Ok (Some o_output) /\ vs_min (od_sem o_output) = 1%Z).
Proof.
  assert (Hdot : forall s, ~ (exists t, s ++ $"g" = t ++ [c_dot])).
  { intros s [t E]. apply app_inj_tail in E. destruct E. discriminate. }
  assert (Hdot2 : forall s, ~ (exists t, s ++ $"r" = t ++ [c_dot])).
  { intros s [t E]. apply app_inj_tail in E. destruct E. discriminate. }
  split.
  { eexists. split; [vm_compute; reflexivity|]. split; [|repeat split].
    apply (C51_thrown_by_parser (List.length [$"--verbose"; $"--output"]) (sample_cl default_style) [$"--verbose"; $"--output"]);
      [discriminate|vm_compute; reflexivity|reflexivity]. }
  split.
  { split; [split; reflexivity|]. split; [intros [H|[]]; discriminate|]. split; [eexists; vm_compute; reflexivity|].
    split; [|vm_compute; reflexivity]. right. split; [split; reflexivity|]. exists $"3".
    apply (SpecCmdline.sp_long (sample_cl default_style) $"what" $"3"); try reflexivity; [discriminate|solve_without|discriminate]. }
  split.
  { repeat constructor.
    - apply (li_section [] $"log" [] []); solve_line.
    - apply (li_assign [] $"a" $" " $" " $"1" [] []); solve_line.
    - apply (li_junk [] $"junk" [] []); solve_line.
    - apply (li_assign [] $"x" [] [] $"y" [] []); solve_line. }
  split.
  { eexists. eapply rd_section; [right; split; [discriminate|]; split; [apply (Hdot $"lo")|reflexivity]|].
    eapply (rd_assign _ _ _ _ _ _ (Ok [])).
    - right. exists $"log.". split; [exists o_log; split; [right; right; now left|exists []; reflexivity]|].
      split; [exists $"a"; reflexivity|discriminate].
    - eapply rd_section; [right; split; [discriminate|]; split; [apply (Hdot2 $"othe")|reflexivity]|]. constructor. }
  split.
  { split.
    - eapply lt_section; [right; split; [discriminate|]; split; [apply (Hdot $"lo")|reflexivity]|].
      apply lt_other; [discriminate|].
      eapply lt_section; [right; split; [discriminate|]; split; [apply (Hdot2 $"othe")|reflexivity]|]. constructor.
    - intros [(d & Hi & q & E)|(p & Hw & [t E] & _)].
      + repeat (destruct Hi as [<-|Hi]; [discriminate E|]). destruct Hi.
      + apply conf_wildcard in Hw. subst p. discriminate E. }
  split; [apply conf_named|]. split; [apply conf_compatible|].
  split; [compute_ex|]. split; vm_compute; reflexivity.
Qed.

Example C70_ex :
  (exists r, parse_config_file_named $"f.cfg" (Some (mk_file $"output = a" false)) conf false = Ok r
     /\ map po_value (pr_options r) = [[$"a"]])
  /\ parse_config_file_named $"f.cfg" None conf false = Throw (plain_exn (reading_file $"f.cfg"))
  /\ parse_config_file_named $"f.cfg" (Some (mk_file ($"output = a" ++ [c_nl] ++ $"junk") true)) conf false
     = Throw (plain_exn (reading_file $"f.cfg"))
  /\ (exists e, parse_config_file_named $"f.cfg" (Some (mk_file ($"junk" ++ [c_nl] ++ $"output") true)) conf false = Throw e
        /\ tokens e = Ok $"junk").
Proof.
  split; [compute_ex|]. split; [reflexivity|]. split; [vm_compute; reflexivity|].
  compute_ex.
Qed.

(** The parser rejects for each of the reasons. *)
Definition class_of {A} (x : outcome A) : option exn_class :=
  match x with Throw e => Some (ex_class e) | _ => None end.

Example C71_ex :
  map (fun args => class_of (parse (sample_cl default_style) args))
    [[$"-v"; $"--what"; $"x"]; [$"--output="]; [$"--verbose=1"]; [$"--output"]; [$"-o"; $"-v"]; [$"-vo"]]
  = [Some unknown_option; Some (invalid_command_line_syntax empty_adjacent_parameter);
     Some (invalid_command_line_syntax extra_parameter); Some (invalid_command_line_syntax missing_parameter);
     Some (invalid_command_line_syntax missing_parameter); Some (invalid_command_line_syntax missing_parameter)]
  /\ class_of (parse versions_cl [$"a"; $"--ver"]) = Some (ambiguous_option [$"verbose"; $"version"])
  /\ class_of (parse (with_positional (sample_cl default_style) (Some (mk_pos [$"input"] []))) [$"a"; $"b"])
     = Some too_many_positional_options_error
  /\ (exists e, parse (sample_cl default_style) [$"-v"; $"-o"; $"-v"] = Throw e /\ get_option_name e = Ok $"--output").
Proof.
  split; [vm_compute; reflexivity|]. split; [vm_compute; reflexivity|]. split; [vm_compute; reflexivity|].
  compute_ex.
Qed.

Example C72_ex :
  exists r, parse (mk_cl (1015 + 1024) true sample None None None) [$"-v"; $"x"; $"--NUMBER=3"; $"-Q"; $"--q"; $"--qq"] = Ok r
    /\ map po_key r = [$"verbose"; []; $"number"; $"-Q"; $"q"; $"qq"]
    /\ map po_ci r = [true; false; true; false; false; true].
Proof. compute_ex. Qed.
