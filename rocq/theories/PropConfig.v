(** C28-C35, C58: config files and the environment. *)

From Coq Require Import List Ascii String NArith ZArith Bool Arith Lia.
From Verif Require Import Base Errors Spec BaseFacts Values OptDesc Cmdline Parsers ConfigFile
  SpecCmdline SpecConfig ConfigFacts Samples.
Import ListNotations.

(** Sample options: two names, and a wildcard. *)
Definition conf : list option_description := [o_output; o_number; o_log].
Lemma conf_named : all_named conf.
Proof. repeat constructor; eexists; (split; [eexists; reflexivity|discriminate]). Qed.
Lemma conf_wildcard p : wildcard conf p -> p = $"log.".
Proof.
  intros (d & [<-|[<-|[<-|[]]]] & q & E); cbn in E; injection E as E _.
  - apply (app_inj_tail $"outpu" p "t"%char c_star) in E. destruct E. discriminate.
  - apply (app_inj_tail $"numbe" p "r"%char c_star) in E. destruct E. discriminate.
  - apply (app_inj_tail $"log." p "*"%char c_star) in E. destruct E. auto.
Qed.
Lemma conf_compatible : compatible conf.
Proof. intros p q Hp Hq _. apply conf_wildcard in Hp, Hq. congruence. Qed.

Ltac solve_blank := repeat constructor; unfold blank_char; auto.
Ltac solve_trimmed :=
  split; [intros c t E; injection E as <- _; unfold blank_char; intuition discriminate
         |let t := fresh "t" in let c := fresh "c" in let E := fresh "E" in
          intros t c E; apply (f_equal (@rev _)) in E; rewrite rev_app_distr in E; cbn in E;
          injection E as <- _; unfold blank_char; intuition discriminate].
Ltac solve_without := unfold without; cbn; intuition discriminate.
Ltac solve_not_bracketed :=
  intros [t E]; first [discriminate E
    | apply (f_equal (@rev _)) in E; rewrite !rev_app_distr in E; cbn in E; discriminate E].

Ltac solve_line :=
  match goal with
  | |- blank _ => solve_blank
  | |- trimmed _ => solve_trimmed
  | |- without _ _ => solve_without
  | |- comment [] => now left
  | |- comment _ => right; eexists; reflexivity
  | |- ~ bracketed _ => solve_not_bracketed
  | |- _ <> _ => discriminate
  end.

(** C58. The meaning of a config file: every line says exactly one thing, *)
Theorem C58_lines_have_one_meaning : forall line,
  exists e, line_is line e /\ forall e', line_is line e' -> e' = e.
Proof.
  intros line. destruct (line_total line) as [e He]. exists e. split; auto.
  intros e' He'. eapply line_fun; eauto.
Qed.
Print Assumptions C58_lines_have_one_meaning.

(** C58. every file consists of exactly one list of lines, *)
Theorem C58_files_have_lines : forall content,
  exists ls, lines_of content ls /\ forall ls', lines_of content ls' -> ls' = ls.
Proof.
  intros content. exists (getline_all c_nl content). split; [apply lines_of_total|].
  intros ls' H. now rewrite (lines_of_getline _ _ H).
Qed.
Print Assumptions C58_files_have_lines.

(** C58. and these determine the result. *)
Theorem C58_meaning : forall ds allow content ls es,
  all_named ds -> compatible ds -> lines_of content ls -> Forall2 line_is ls es ->
  exists r, reads ds allow [] es r
    /\ parse_config_file content ds allow = let* os := r in Ok (mk_parsed os (Some ds) 0).
Proof.
  intros ds allow content ls es H1 H2 H3 H4. exists (config ds allow content).
  split; [eapply config_reads; eauto|apply parse_config_shape].
Qed.
Print Assumptions C58_meaning.

Example C58_ex :
  config conf false ($" output = a b # c" ++ [c_nl] ++ $"[log]" ++ [c_nl; c_nl] ++ $"file=[x]")
  = Ok [config_option $"output" $"a b" false; config_option $"log.file" $"[x]" false]
  /\ line_is $" output = a b # c" (Assign $"output" $"a b")
  /\ line_is $"[log]" (Section_ $"log") /\ line_is [] Nothing
  /\ line_is $"file=[x]" (Assign $"file" $"[x]").
Proof.
  split; [reflexivity|]. split; [|split; [|split]].
  - apply (li_assign $" " $"output" $" " $" " $"a b" $" " $"# c"); solve_line.
  - apply (li_section [] $"log" [] []); solve_line.
  - apply (li_nothing [] []); [constructor|now left].
  - apply (li_assign [] $"file" [] [] $"[x]" [] []); solve_line.
Qed.

(** C28. Round trip. *)
Theorem C28_round_trip : forall ds allow pairs,
  all_named ds -> compatible ds ->
  Forall (fun nv => accepts ds (fst nv) /\ trimmed (fst nv) /\ trimmed (snd nv)
    /\ without c_eq (fst nv) /\ without c_hash (fst nv) /\ without c_nl (fst nv)
    /\ without c_hash (snd nv) /\ without c_nl (snd nv)
    /\ ~ bracketed (fst nv ++ [c_eq] ++ snd nv)) pairs ->
  parse_config_file (unlines (map (fun nv => fst nv ++ [c_eq] ++ snd nv) pairs)) ds allow
  = Ok (mk_parsed (map (fun nv => config_option (fst nv) (snd nv) false) pairs) (Some ds) 0).
Proof.
  intros ds allow pairs H1 H2 H3. rewrite parse_config_shape. now rewrite round_trip_lemma.
Qed.
Print Assumptions C28_round_trip.

Example C28_ex :
  Forall (fun nv => accepts conf (fst nv) /\ trimmed (fst nv) /\ trimmed (snd nv)
    /\ without c_eq (fst nv) /\ without c_hash (fst nv) /\ without c_nl (fst nv)
    /\ without c_hash (snd nv) /\ without c_nl (snd nv)
    /\ ~ bracketed (fst nv ++ [c_eq] ++ snd nv)) [($"output", $"a=b [c]"); ($"log.x", $"1")].
Proof.
  repeat (apply Forall_cons || apply Forall_nil); cbn [fst snd];
    (split; [|split; [solve_line|split; [solve_line|repeat split; solve_line]]]).
  - left. exists o_output. split; [now left|]. eexists. reflexivity.
  - right. exists $"log.". split; [|split; [now exists $"x"|discriminate]].
    exists o_log. split; [cbn; auto|]. eexists. reflexivity.
Qed.

(** C29. A section header is a prefix for the names that follow. *)
Theorem C29_sections_prefix_names : forall ds allow pre l s sec body body' post,
  all_named ds -> compatible ds ->
  no_newlines (pre ++ l :: body ++ post) -> no_newlines body' ->
  Forall no_section pre -> line_is l (Section_ s) -> section_name s sec ->
  Forall2 (prefixed sec) body body' -> starts_section post ->
  config ds allow (unlines (pre ++ l :: body ++ post)) = config ds allow (unlines (pre ++ body' ++ post)).
Proof. exact section_lemma. Qed.
Print Assumptions C29_sections_prefix_names.

Example C29_ex :
  prefixed $"log." $"file = f" $"log.file=f" /\ section_name $"log" $"log."
  /\ section_name $"log." $"log." /\ no_section $"output=a"
  /\ config conf false (unlines [$"output=a"; $"[log]"; $"file = f"; $"[log.]"; $"x=1"])
     = config conf false (unlines [$"output=a"; $"log.file=f"; $"[log.]"; $"x=1"]).
Proof.
  split; [|split; [|split; [|split]]].
  - apply px_assign with (n := $"file") (v := $"f").
    + apply (li_assign [] $"file" $" " $" " $"f" [] []); solve_line.
    + apply (li_assign [] $"log.file" [] [] $"f" [] []); solve_line.
  - right. split; [discriminate|]. split; [|reflexivity]. intros [t E].
    apply (f_equal (@rev _)) in E. rewrite rev_app_distr in E. discriminate E.
  - left. split; [now exists $"log"|reflexivity].
  - intros s H.
    assert (H' : line_is $"output=a" (Assign $"output" $"a")).
    { apply (li_assign [] $"output" [] [] $"a" [] []); solve_line. }
    pose proof (line_fun _ _ _ H H'). discriminate.
  - reflexivity.
Qed.

(** C30. Blank lines, comments and white space do not matter. *)
Theorem C30_same_meaning_same_result : forall ds allow ls ls',
  all_named ds -> compatible ds -> no_newlines ls -> no_newlines ls' -> same_file ls ls' ->
  config ds allow (unlines ls) = config ds allow (unlines ls').
Proof. exact same_file_lemma. Qed.
Print Assumptions C30_same_meaning_same_result.

(** C30. White space around a line and a comment after it do not change what it says
    (white space around names and values: see [line_is]). *)
Theorem C30_padding : forall b1 l b2 cm e,
  blank b1 -> blank b2 -> comment cm -> line_is l e -> line_is (b1 ++ l ++ b2 ++ cm) e.
Proof. exact padding_lemma. Qed.
Print Assumptions C30_padding.

Theorem C30_padded_line : forall ds allow pre l post b1 b2 cm,
  all_named ds -> compatible ds -> no_newlines (pre ++ l :: post) ->
  blank b1 -> blank b2 -> comment cm -> without c_nl b1 -> without c_nl b2 -> without c_nl cm ->
  config ds allow (unlines (pre ++ (b1 ++ l ++ b2 ++ cm) :: post)) = config ds allow (unlines (pre ++ l :: post)).
Proof.
  intros ds allow pre l post b1 b2 cm Hn Hc Hl H1 H2 H3 W1 W2 W3.
  assert (Hs : forall ls, same_file ls ls).
  { induction ls as [|x ls IH]; [constructor|]. destruct (line_total x) as [e He]. econstructor; eauto. }
  apply same_file_lemma; auto.
  - apply Forall_app in Hl. destruct Hl as [Hp Hl]. inversion Hl; subst.
    apply Forall_app. split; auto. constructor; auto. rewrite !without_app. auto.
  - clear Hl. induction pre as [|x pre IH].
    + destruct (line_total l) as [e He]. econstructor; eauto. now apply padding_lemma.
    + destruct (line_total x) as [e He]. cbn [app]. econstructor; eauto.
Qed.
Print Assumptions C30_padded_line.

Theorem C30_blank_line : forall ds allow pre b cm post,
  all_named ds -> compatible ds -> no_newlines (pre ++ post) ->
  blank b -> comment cm -> without c_nl b -> without c_nl cm ->
  config ds allow (unlines (pre ++ (b ++ cm) :: post)) = config ds allow (unlines (pre ++ post)).
Proof.
  intros ds allow pre b cm post Hn Hc Hl H1 H2 W1 W2.
  assert (Hs : forall ls, same_file ls ls).
  { induction ls as [|x ls IH]; [constructor|]. destruct (line_total x) as [e He]. econstructor; eauto. }
  apply same_file_lemma; auto.
  - apply Forall_app in Hl. destruct Hl as [Hp Hl]. apply Forall_app. split; auto. constructor; auto.
    apply without_app. auto.
  - clear Hl. induction pre as [|x pre IH].
    + apply sf_left; auto. now constructor.
    + destruct (line_total x) as [e He]. cbn [app]. econstructor; eauto.
Qed.
Print Assumptions C30_blank_line.

(** C30. Nor does the newline at the end of the file matter. *)
Theorem C30_final_newline : forall ds allow content ls,
  lines_of content ls -> config ds allow content = config ds allow (unlines ls).
Proof. exact config_lines. Qed.
Print Assumptions C30_final_newline.

Example C30_ex :
  same_file [$"a=b"; $"# x"] [$"a = b # c"]
  /\ config conf false (unlines [$"output=b"; $"# x"]) = config conf false (unlines [$"output = b # c"]).
Proof.
  split; [|reflexivity]. apply sf_line with (e := Assign $"a" $"b").
  - apply (li_assign [] $"a" [] [] $"b" [] []); solve_line.
  - apply (li_assign [] $"a" $" " $" " $"b" $" " $"# c"); solve_line.
  - apply sf_left; [|constructor]. apply (li_nothing [] $"# x"); [constructor|]. right. now exists $" x".
Qed.

(** C31. Which names are registered. *)
Theorem C31_name_acceptance : forall ds n v,
  all_named ds -> compatible ds -> trimmed n -> trimmed v -> without c_eq n -> without c_hash n -> without c_nl n ->
  without c_hash v -> without c_nl v -> ~ bracketed (n ++ [c_eq] ++ v) ->
  (accepts ds n -> forall allow,
     config ds allow (unlines [n ++ [c_eq] ++ v]) = Ok [config_option n v false])
  /\ (~ accepts ds n ->
       config ds false (unlines [n ++ [c_eq] ++ v]) = Throw (mk_unknown_option n)
       /\ config ds true (unlines [n ++ [c_eq] ++ v]) = Ok [config_option n v true]).
Proof.
  intros ds n v Hn Hc H1 H2 H3 H4 H5 H6 H7 H8.
  assert (Hl : no_newlines [n ++ [c_eq] ++ v]).
  { repeat constructor. rewrite !without_app. repeat split; auto. intros [E|[]]. discriminate. }
  assert (He : Forall2 line_is [n ++ [c_eq] ++ v] [Assign n v]).
  { repeat constructor. now apply assign_line_is. }
  assert (R : forall allow, reads ds allow [] [Assign n v] (config ds allow (unlines [n ++ [c_eq] ++ v]))).
  { intros allow. eapply config_reads; eauto using unlines_lines. }
  split.
  - intros Ha allow. apply (reads_fun _ _ _ _ _ (R allow)).
    exact (rd_assign ds allow [] n v [] (Ok []) Ha (rd_end _ _ _)).
  - intros Ha. split.
    + apply (reads_fun _ _ _ _ _ (R false)). now apply (rd_unknown ds false []).
    + apply (reads_fun _ _ _ _ _ (R true)).
      exact (rd_unregistered ds true [] n v [] (Ok []) Ha eq_refl (rd_end _ _ _)).
Qed.
Print Assumptions C31_name_acceptance.

(** C31. The bare prefix of a wildcard and alternative long names, which the command line
    accepts, are not accepted. *)
Theorem C31_not_like_command_line_refuted :
  config conf false $"log.=x" = Throw (mk_unknown_option $"log.")
  /\ (exists r, parse (sample_cl default_style) [$"--log.=x"] = Ok r)
  /\ config sample false $"in=x" = Throw (mk_unknown_option $"in")
  /\ (exists r, parse (sample_cl default_style) [$"--in=x"] = Ok r).
Proof.
  split; [reflexivity|]. split; [eexists; reflexivity|]. split; [reflexivity|eexists; reflexivity].
Qed.
Print Assumptions C31_not_like_command_line_refuted.

Example C31_ex :
  accepts conf $"log.a.b" /\ accepts conf $"number" /\ ~ accepts conf $"log." /\ ~ accepts conf $"numb".
Proof.
  assert (Hno : forall n, n <> $"output" -> n <> $"number" -> n <> $"log.*" ->
    (~ prefix_of $"log." n \/ n = $"log.") -> ~ accepts conf n).
  { intros n N1 N2 N3 N4 [(d & Hd & q & E)|(p & Hp & Hpre & Hne)].
    - destruct Hd as [<-|[<-|[<-|[]]]]; cbn in E; injection E as E _;
        first [exact (N1 (eq_sym E)) | exact (N2 (eq_sym E)) | exact (N3 (eq_sym E))].
    - apply conf_wildcard in Hp. subst p. tauto. }
  split; [|split; [|split]].
  - right. exists $"log.". split; [|split; [now exists $"a.b"|discriminate]].
    exists o_log. split; [cbn; auto|]. eexists. reflexivity.
  - left. exists o_number. split; [cbn; auto|]. eexists. reflexivity.
  - apply Hno; try discriminate. now right.
  - apply Hno; try discriminate. left. intros [t E]. discriminate.
Qed.

(** C32. Wildcards that cover each other are detected, and only these. *)
Theorem C32_conflicts_detected : forall ds allow content,
  all_named ds -> ~ compatible ds ->
  exists msg, parse_config_file content ds allow = Throw (plain_exn (po_error msg)).
Proof. intros ds allow content. exact (config_conflict content ds allow). Qed.
Print Assumptions C32_conflicts_detected.

(** C32. The text names two wildcards; the first one covers another one or is covered. *)
Theorem C32_message : forall ds allow content,
  all_named ds -> ~ compatible ds ->
  exists s i q, wildcard ds s /\ wildcard ds i /\ wildcard ds q /\ i <> s /\ q <> s /\ (prefix_of s q \/ prefix_of q s)
    /\ parse_config_file content ds allow = Throw (plain_exn (po_error
         ($"options '" ++ s ++ $"*' and '" ++ i ++ $"*' will both match the same arguments from the configuration file"))).
Proof. intros ds allow content. exact (config_conflict_text content ds allow). Qed.
Print Assumptions C32_message.

Theorem C32_no_conflict : forall ds allow,
  all_named ds -> compatible ds ->
  parse_config_file [] ds allow = Ok (mk_parsed [] (Some ds) 0).
Proof.
  intros ds allow Hn Hc. rewrite parse_config_shape.
  assert (R : reads ds allow [] [] (config ds allow [])).
  { apply (config_reads ds allow [] [] []); auto. split; [constructor|now left]. }
  now inversion R.
Qed.
Print Assumptions C32_no_conflict.

(** C32. Options without a long name are rejected, too. *)
Theorem C32_unnamed_rejected : forall ds allow content,
  ~ all_named ds ->
  parse_config_file content ds allow = Throw (plain_exn (po_error
    $"abbreviated option names are not permitted in options configuration files")).
Proof. intros ds allow content. exact (config_unnamed content ds allow). Qed.
Print Assumptions C32_unnamed_rejected.

(** C32. The message may name an option that is not part of the conflict. *)
Definition wild (s : str) : option_description := mk_od [] [s] [] (od_sem o_log).
Theorem C32_message_refuted :
  parse_config_file [] [wild $"Z*"; wild $"a!b*"; wild $"a*"] false
  = Throw (plain_exn (po_error
      $"options 'a*' and 'Z*' will both match the same arguments from the configuration file")).
Proof. reflexivity. Qed.
Print Assumptions C32_message_refuted.

Example C32_ex :
  all_named [wild $"ab*"; wild $"x*"; wild $"a*"] /\ ~ compatible [wild $"ab*"; wild $"x*"; wild $"a*"].
Proof.
  split.
  - repeat constructor; eexists; (split; [eexists; reflexivity|discriminate]).
  - intros H. assert (E : $"a" = $"ab"); [|discriminate]. apply H.
    + exists (wild $"a*"). split; [cbn; auto|]. eexists. reflexivity.
    + exists (wild $"ab*"). split; [cbn; auto|]. eexists. reflexivity.
    + now exists $"b".
Qed.

(** C33. Undefined behaviour: exactly if an empty section header is reached. *)
Theorem C33_empty_section : forall ds allow content ls u,
  all_named ds -> compatible ds -> lines_of content ls ->
  config ds allow content = Undef u <->
  u = UB_rbegin
  /\ exists ls1 l ls2 os, ls = ls1 ++ l :: ls2 /\ config ds allow (unlines ls1) = Ok os
     /\ line_is l (Section_ []).
Proof.
  intros ds allow content ls u Hn Hc Hl. rewrite (config_lines ds allow content ls Hl). apply proj1 in Hl. split.
  - intros H. destruct (stops_lemma ds allow ls _ Hn Hc Hl H)
      as [[os E]|(ls1 & l & ls2 & os & E & H1 & [[He Eu]|[(s & _ & Eu)|(n & v & sec & _ & _ & Eu)]])]; try discriminate.
    injection Eu as ->. split; auto. exists ls1, l, ls2, os. auto.
  - intros (-> & ls1 & l & ls2 & os & -> & H1 & He).
    now apply (stopping_lemma ds allow ls1 l ls2 os).
Qed.
Print Assumptions C33_empty_section.

Example C33_ex :
  line_is $" [] # c" (Section_ [])
  /\ config conf false (unlines [$"output=x"; $" [] # c"; $"number=1"]) = Undef UB_rbegin.
Proof.
  split; [|reflexivity].
  apply (li_section $" " [] $" " $"# c"); solve_line.
Qed.

(** C34. Syntax errors: exactly if a line that says nothing known is reached. *)
Theorem C34_syntax_errors : forall ds allow content ls,
  all_named ds -> compatible ds -> lines_of content ls ->
  fails_with (config ds allow content) (invalid_config_file_syntax unrecognized_line) <->
  exists ls1 l ls2 os s, ls = ls1 ++ l :: ls2 /\ config ds allow (unlines ls1) = Ok os
     /\ line_is l (Junk s)
     /\ config ds allow content = Throw (mk_config_syntax s unrecognized_line).
Proof.
  intros ds allow content ls Hn Hc Hl. rewrite (config_lines ds allow content ls Hl). apply proj1 in Hl. split.
  - intros (e & H & Hk). destruct (stops_lemma ds allow ls _ Hn Hc Hl H)
      as [[os E]|(ls1 & l & ls2 & os & E & H1 & [[He Eu]|[(s & He & Eu)|(n & v & sec & _ & _ & Eu)]])]; try discriminate.
    + exists ls1, l, ls2, os, s. rewrite <- Eu. auto.
    + injection Eu as ->. discriminate Hk.
  - intros (ls1 & l & ls2 & os & s & _ & _ & _ & E). rewrite E. eexists. split; reflexivity.
Qed.
Print Assumptions C34_syntax_errors.

Theorem C34_junk_rejected : forall ds allow content ls1 l ls2 os s,
  all_named ds -> compatible ds -> lines_of content (ls1 ++ l :: ls2) ->
  config ds allow (unlines ls1) = Ok os -> line_is l (Junk s) ->
  config ds allow content = Throw (mk_config_syntax s unrecognized_line).
Proof.
  intros ds allow content ls1 l ls2 os s H1 H2 H3 H4. rewrite (config_lines ds allow _ _ H3). apply proj1 in H3.
  now apply stopping_lemma with (os1 := os).
Qed.
Print Assumptions C34_junk_rejected.

Example C34_ex :
  line_is $" output x # =" (Junk $"output x")
  /\ config conf false (unlines [$"number=1"; $" output x # ="])
     = Throw (mk_config_syntax $"output x" unrecognized_line).
Proof.
  split; [|reflexivity].
  apply (li_junk $" " $"output x" $" " $"# ="); solve_line.
Qed.

(** C35. The environment parser with a name mapper; *)
Theorem C35_mapper : forall ds vars g,
  Forall (fun nv => without c_eq (fst nv)) vars ->
  parse_environment (environ vars) ds (fun n => Ok (g n))
  = Ok (mk_parsed (map (fun nv => env_option (g (fst nv)) (snd nv))
                     (filter (fun nv => negb (is_empty (g (fst nv)))) vars)) (Some ds) 0).
Proof. exact environment_lemma. Qed.
Print Assumptions C35_mapper.

(** C35. a mapper that throws for some variable ends the parsing with its exception; *)
Theorem C35_mapper_throws : forall ds vars n v rest g e mapper,
  Forall (fun nv => without c_eq (fst nv) /\ mapper (fst nv) = Ok (g (fst nv))) vars -> without c_eq n ->
  mapper n = Throw e ->
  parse_environment (environ (vars ++ (n, v) :: rest)) ds mapper = Throw e.
Proof.
  intros ds vars n v rest g e mapper Hv Hn He. unfold parse_environment.
  assert (E : parse_environment_loop (environ (vars ++ (n, v) :: rest)) mapper = Throw e); [|now rewrite E].
  induction Hv as [|[n' v'] vars [Hw Hg] _ IH]; cbn [fst] in *; [rewrite app_nil_l|rewrite <- app_comm_cons]; unfold environ in *; cbn [map fst snd parse_environment_loop] in *.
  - rewrite env_split_var by exact Hn. cbn [bind fst]. now rewrite He.
  - rewrite env_split_var by exact Hw. cbn [bind fst]. rewrite Hg. cbn [bind].
    now rewrite IH.
Qed.
Print Assumptions C35_mapper_throws.

(** C35. with a prefix. *)
Theorem C35_prefix : forall ds vars prefix,
  Forall (fun nv => without c_eq (fst nv) /\ (prefix_of prefix (fst nv) -> ascii7 (fst nv))) vars ->
  exists os, env_options prefix vars os
    /\ parse_environment_prefix (environ vars) ds prefix = Ok (mk_parsed os (Some ds) 0).
Proof. exact env_prefix_lemma. Qed.
Print Assumptions C35_prefix.

(** C35. A variable without '=' is a failed assertion. *)
Theorem C35_no_equals_sign : forall ds vars s rest g,
  Forall (fun nv => without c_eq (fst nv)) vars -> without c_eq s ->
  parse_environment (environ vars ++ s :: rest) ds (fun n => Ok (g n)) = Undef UB_assert.
Proof.
  intros ds vars s rest g H Hs. unfold parse_environment.
  replace (parse_environment_loop _ _) with (@Undef (list popt) UB_assert); [reflexivity|].
  symmetry. induction H as [|[n v] vars Hn _ IH].
  - cbn [environ map app parse_environment_loop]. unfold env_split. now rewrite (proj2 (find_char_None c_eq s) Hs).
  - cbn [environ map app parse_environment_loop fst snd] in *.
    pose proof (env_split_var n v Hn) as E. cbn [app] in E. rewrite E. cbn [bind fst snd].
    change (map _ vars) with (environ vars). now rewrite IH.
Qed.
Print Assumptions C35_no_equals_sign.

Example C35_ex :
  let vars := [($"APP_Out", $"a=b"); ($"HOME", $"/"); ($"APP_", $"x"); ($"APP_N", [])] in
  parse_environment_prefix (environ vars) [] $"APP_"
  = Ok (mk_parsed [env_option $"out" $"a=b"; env_option $"n" []] (Some []) 0)
  /\ Forall (fun nv => without c_eq (fst nv) /\ (prefix_of $"APP_" (fst nv) -> ascii7 (fst nv))) vars.
Proof.
  split; [reflexivity|]. repeat constructor; cbn; try solve_without; unfold ascii7_char; cbn; lia.
Qed.
