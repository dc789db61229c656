(** C118: what can be said in each kind of source. *)

From Coq Require Import List Ascii String NArith ZArith Bool Arith Lia.
From Verif Require Import Base BaseFacts Errors Spec Values OptDesc SpecLookup Positional Cmdline SpecCmdline Parsers ConfigFile SpecConfig ConfigFacts
  SpecReject SpecGrammar SpecSay SayFacts Samples.
From Verif Require LookupFacts PropGrammar PropConfig.
Import ListNotations.

(** C118. On the command line, every value can be given to every option that has a name to type and can have a value, in any order and
    number. *)
Theorem C118_command_line : forall c kvs,
  plain c -> has (cl_style c) allow_long = true ->
  Forall has_name (cl_desc c) -> Forall (fun d => sensible d /\ fits d) (cl_desc c) -> (2 * Z.of_nat (List.length kvs) < INT_MAX)%Z ->
  Forall (fun kv => takes_value c (fst kv)) kvs ->
  exists args os, parse c args = Ok os /\ settings os kvs /\ Forall (fun o => po_pos o = (-1)%Z /\ po_unreg o = false) os.
Proof.
  intros c kvs Hp Hl Hn Hs Hk H.
  assert (F : Forall fits (cl_desc c)) by (apply (Forall_impl _ (fun d H => proj2 H) Hs)).
  assert (S : Forall sensible (cl_desc c)) by (apply (Forall_impl _ (fun d H => proj1 H) Hs)).
  destruct (say_command_line c Hp Hl F S kvs H) as (args & is & is' & os & I1 & I2 & I3 & _ & I5 & I6 & I7).
  exists args, os. split; [|now split]. apply (PropGrammar.C84_grammar c args); auto; [apply Hp|lia|]. exists is, is'. auto.
Qed.
Print Assumptions C118_command_line.

(** C118. In the environment, every value can be given to every name that the name mapper returns for a variable; and nothing else. *)
Theorem C118_environment : forall ds mapper kvs,
  (exists vars os, Forall (fun nv => without c_eq (fst nv)) vars
     /\ parse_environment (environ vars) ds mapper = Ok (mk_parsed os (Some ds) 0) /\ settings os kvs)
  <-> Forall (fun kv => fst kv <> [] /\ exists n, without c_eq n /\ mapper n = Ok (fst kv)) kvs.
Proof.
  intros ds mapper kvs. unfold parse_environment. split.
  - intros (vars & os & Hv & E & S). destruct (parse_environment_loop (environ vars) mapper) as [os'| | |] eqn:El; try discriminate.
    injection E as ->. destruct (environment_settings mapper vars os Hv El) as (kvs' & S' & H). now rewrite (settings_fun os kvs kvs' S S').
  - intros H. destruct (say_environment mapper kvs H) as (vars & os & Hv & E & S). exists vars, os. rewrite E. now split.
Qed.
Print Assumptions C118_environment.

(** C118. In a config file, exactly these settings can be given: values and names that fit on a line, without '#' and without blanks at their
    ends, names without '=' except in a section, and no line that looks like a section; first those without a section. *)
Theorem C118_file : forall ds allow kvs, all_named ds -> compatible ds ->
  (exists content os, config ds allow content = Ok os /\ settings os kvs)
  <-> Forall (fun kv => allow = true \/ accepts ds (fst kv)) kvs
      /\ exists k1 k2, kvs = k1 ++ k2 /\ Forall sayable k1 /\ Forall sayable_in_section k2.
Proof.
  intros ds allow kvs Hn Hc. split.
  - intros (content & os & E & S). destruct (PropConfig.C58_files_have_lines content) as (ls & Hl & _). destruct (lines_are ls) as [es He].
    pose proof (config_reads ds allow content ls es Hn Hc Hl He) as R. rewrite E in R.
    destruct (read_settings ds allow [] es (Ok os) R os ls eq_refl He (proj1 Hl)) as [_ H].
    destruct (H eq_refl) as (k1 & k2 & S' & A & K1 & K2). rewrite (settings_fun os kvs (k1 ++ k2) S S'). split; [exact A|]. now exists k1, k2.
  - intros (A & k1 & k2 & -> & K1 & K2). destruct (say_file ds allow Hn Hc k1 k2 A K1 K2) as (ls & es & os & L & F & R & S).
    exists (unlines ls), os. split; [|exact S]. eapply reads_fun; [|exact R]. eapply config_reads; eauto using unlines_lines.
Qed.
Print Assumptions C118_file.

(** C118. So a value can be given to a registered option with an ordinary name exactly if it fits on a line and has neither a '#' nor blanks
    at its ends. *)
Theorem C118_value : forall ds allow n v, all_named ds -> compatible ds ->
  accepts ds n -> trimmed n -> without c_eq n -> without c_hash n -> without c_nl n -> hd c_eq n <> c_lbr ->
  (exists content os, config ds allow content = Ok os /\ settings os [(n, v)])
  <-> trimmed v /\ without c_hash v /\ without c_nl v.
Proof.
  intros ds allow n v Hn Hc Ha H1 H2 H3 H4 H5. rewrite C118_file by assumption. split.
  - intros (_ & k1 & k2 & E & K1 & K2). assert (I : In (n, v) (k1 ++ k2)) by (rewrite <- E; now left). apply in_app_or in I.
    rewrite Forall_forall in K1, K2. destruct I as [I|I].
    + destruct (K1 _ I). cbn [fst snd] in *. auto.
    + destruct (K2 _ I) as (s & sec & m & _ & _ & _ & _ & L). destruct L. cbn [fst snd] in *. auto.
  - intros (V1 & V2 & V3). split; [constructor; [now right|constructor]|]. exists [(n, v)], []. split; [reflexivity|].
    split; [|constructor]. constructor; [|constructor]. constructor; cbn [fst snd]; auto.
    intros [t E]. destruct n as [|x n]; cbn in *; [discriminate|]. injection E as -> _. now apply H5.
Qed.
Print Assumptions C118_value.

Lemma reads_split ds allow s es2 : forall es1 sec os, reads ds allow sec (es1 ++ Section_ s :: es2) (Ok os) ->
  exists os1 os2 sec', os = os1 ++ os2 /\ reads ds allow sec es1 (Ok os1) /\ section_name s sec' /\ reads ds allow sec' es2 (Ok os2).
Proof.
  induction es1 as [|e es1 IH]; intros sec os H; cbn [app] in H.
  - inversion H; subst. exists [], os, sec'. repeat split; auto. constructor.
  - inversion H; subst.
    + match goal with K : reads _ _ _ (es1 ++ _) _ |- _ => destruct (IH _ _ K) as (os1 & os2 & sec' & -> & R & S & R') end. exists os1, os2, sec'. repeat split; auto. now constructor.
    + match goal with K : reads _ _ _ (es1 ++ _) _ |- _ => destruct (IH _ _ K) as (os1 & os2 & sec1 & -> & R & S & R') end. exists os1, os2, sec1. repeat split; auto. econstructor; eauto.
    + destruct r as [os'| | |]; try discriminate. match goal with E : _ = Ok os |- _ => cbn in E; injection E as <- end.
      match goal with K : reads _ _ _ (es1 ++ _) _ |- _ => destruct (IH _ _ K) as (os1 & os2 & sec' & -> & R & S & R') end.
      exists (config_option (sec ++ n) v false :: os1), os2, sec'. repeat split; auto.
      exact (rd_assign ds allow sec n v es1 (Ok os1) ltac:(assumption) R).
    + destruct r as [os'| | |]; try discriminate. match goal with E : _ = Ok os |- _ => cbn in E; injection E as <- end.
      match goal with K : reads _ _ _ (es1 ++ _) _ |- _ => destruct (IH _ _ K) as (os1 & os2 & sec' & -> & R & S & R') end.
      exists (config_option (sec ++ n) v true :: os1), os2, sec'. repeat split; auto.
      exact (rd_unregistered ds true sec n v es1 (Ok os1) ltac:(assumption) eq_refl R).
Qed.

(** C118. There is no way back from a section: all names after the first section line contain a '.'. *)
Theorem C118_after_section : forall ds allow content ls1 l s ls2 os, all_named ds -> compatible ds ->
  lines_of content (ls1 ++ l :: ls2) -> line_is l (Section_ s) -> config ds allow content = Ok os ->
  exists os1 os2, os = os1 ++ os2 /\ config ds allow (unlines ls1) = Ok os1 /\ Forall (fun o => In c_dot (po_key o)) os2.
Proof.
  intros ds allow content ls1 l s ls2 os Hn Hc Hl Hs E.
  destruct (lines_are ls1) as [es1 F1]. destruct (lines_are ls2) as [es2 F2].
  assert (F : Forall2 line_is (ls1 ++ l :: ls2) (es1 ++ Section_ s :: es2)) by (apply Forall2_app; auto).
  pose proof (config_reads ds allow content _ _ Hn Hc Hl F) as R. rewrite E in R.
  destruct (reads_split ds allow s es2 es1 [] os R) as (os1 & os2 & sec & -> & R1 & S & R2).
  destruct Hl as [Hnl _]. unfold no_newlines in Hnl. rewrite Forall_app in Hnl. destruct Hnl as [N1 N2]. inversion N2; subst.
  exists os1, os2. split; [reflexivity|]. split.
  - eapply reads_fun; [|exact R1]. eapply config_reads; eauto using unlines_lines.
  - destruct (read_settings ds allow sec es2 (Ok os2) R2 os2 ls2 eq_refl F2 ltac:(assumption)) as [H _].
    destruct (section_on_line l s Hs ltac:(assumption)) as [S1 S2].
    destruct H as (kvs & K & _ & K2); [now exists s|]. clear -K K2. revert kvs K K2.
    induction os2 as [|o os2 IH]; intros [|[k v] kvs] K K2; try discriminate; constructor.
    + unfold settings in K. cbn in K. injection K as -> _ _. inversion K2 as [|? ? (s & sec & n & S & _ & _ & X & _) _]; subst. cbn [fst] in X. rewrite X.
      apply in_or_app. left. destruct S as [[(t & ->) ->]|(_ & _ & ->)]; apply in_or_app; right; now left.
    + unfold settings in K. cbn in K. injection K as _ _ K. inversion K2; subst. eapply IH; eauto.
Qed.
Print Assumptions C118_after_section.

(** C118. So settings that a file can give in one order it need not be able to give in another. *)
Definition sy_one := ($"output", $"x").
Definition sy_two := ($"a=b.c", $"y").

Theorem C118_order_refuted : exists ds kvs, all_named ds /\ compatible ds
  /\ (exists content os, config ds true content = Ok os /\ settings os kvs)
  /\ ~ (exists content os, config ds true content = Ok os /\ settings os (rev kvs)).
Proof.
  exists PropConfig.conf, [sy_one; sy_two]. split; [apply PropConfig.conf_named|]. split; [apply PropConfig.conf_compatible|]. split.
  - exists ($"output=x" ++ [c_nl] ++ $"[a=b]" ++ [c_nl] ++ $"c=y"). eexists. split; [vm_compute; reflexivity|reflexivity].
  - rewrite C118_file by (apply PropConfig.conf_named || apply PropConfig.conf_compatible). intros (_ & k1 & k2 & E & K1 & K2).
    cbn [rev app] in E. destruct k1 as [|kv k1].
    + cbn [app] in E. subst k2. inversion K2 as [|? ? _ K3]; subst. inversion K3 as [|? ? (s & sec & n & S & _ & _ & X & _) _]; subst.
      cbn [fst sy_one] in X. assert (D : In c_dot $"output").
      { rewrite X. apply in_or_app. left. destruct S as [[(t & ->) ->]|(_ & _ & ->)]; apply in_or_app; right; now left. }
      cbn in D. intuition discriminate.
    + cbn [app] in E. injection E as <- _. inversion K1 as [|? ? L _]; subst. apply (ol_name_eq _ _ L). cbn. tauto.
Qed.
Print Assumptions C118_order_refuted.

Example C118_ex :
  let c := sample_cl default_style in
  plain c /\ has (cl_style c) allow_long = true /\ Forall has_name (cl_desc c) /\ Forall (fun d => sensible d /\ fits d) (cl_desc c)
  /\ Forall (fun kv => takes_value c (fst kv)) [($"output", []); ($"output", $"--help"); ($"input", []); ($"level", [])]
  /\ (exists r, parse c [$"--output"; []; $"--output=--help"; $"--input"; []; $"--level"; []] = Ok r
      /\ settings r [($"output", []); ($"output", $"--help"); ($"input", []); ($"level", [])]).
Proof.
  cbv zeta. split; [split; reflexivity|]. split; [reflexivity|]. split; [repeat constructor; discriminate|]. split.
  { repeat constructor; cbn; unfold INT_MAX, UINT_MAX; lia. }
  split.
  - repeat constructor; cbn [fst].
    + exists $"output", o_output. split; [discriminate|]. split; [PropConfig.solve_without|]. split; [reflexivity|]. split; [exact (LookupFacts.is_key_od_key _ _)|]. split; [reflexivity|cbn; unfold UINT_MAX; lia].
    + exists $"output", o_output. split; [discriminate|]. split; [PropConfig.solve_without|]. split; [reflexivity|]. split; [exact (LookupFacts.is_key_od_key _ _)|]. split; [reflexivity|cbn; unfold UINT_MAX; lia].
    + exists $"input", o_input. split; [discriminate|]. split; [PropConfig.solve_without|]. split; [reflexivity|]. split; [exact (LookupFacts.is_key_od_key _ _)|]. split; [reflexivity|cbn; unfold UINT_MAX; lia].
    + exists $"level", o_level. split; [discriminate|]. split; [PropConfig.solve_without|]. split; [reflexivity|]. split; [exact (LookupFacts.is_key_od_key _ _)|]. split; [reflexivity|cbn; unfold UINT_MAX; lia].
  - eexists. split; [vm_compute; reflexivity|reflexivity].
Qed.

Example C118_ex_file :
  accepts PropConfig.conf $"output" /\ trimmed $"output" /\ hd c_eq $"output" <> c_lbr
  /\ trimmed $"a b = [c]" /\ ~ trimmed $" a" /\ sayable sy_one /\ sayable_in_section sy_two /\ ~ sayable sy_two.
Proof.
  split; [left; exists o_output; split; [now left|eexists; reflexivity]|]. split; [PropConfig.solve_trimmed|]. split; [discriminate|].
  split; [PropConfig.solve_trimmed|]. split; [intros [H _]; apply (H " "%char $"a" eq_refl); now left|].
  split; [constructor; cbn [fst snd sy_one]; try PropConfig.solve_trimmed; try PropConfig.solve_without; PropConfig.solve_not_bracketed|].
  split.
  - exists $"a=b", $"a=b.", $"c". split; [right; split; [discriminate|split; [intros [t E]; apply (f_equal (@rev _)) in E; rewrite rev_app_distr in E; discriminate|reflexivity]]|].
    split; [PropConfig.solve_without|]. split; [PropConfig.solve_without|]. split; [reflexivity|].
    constructor; cbn [fst snd sy_two]; try PropConfig.solve_trimmed; try PropConfig.solve_without; PropConfig.solve_not_bracketed.
  - intros L. apply (ol_name_eq _ _ L). cbn. tauto.
Qed.

Definition sy_mapper (n : str) : outcome str := Ok (if str_eqb n $"APP_OUT" then $"output" else []).
Example C118_ex_environment :
  (exists vars os, Forall (fun nv => without c_eq (fst nv)) vars
     /\ parse_environment (environ vars) sample sy_mapper = Ok (mk_parsed os (Some sample) 0) /\ settings os [($"output", $" =#")])
  /\ ~ (exists vars os, Forall (fun nv => without c_eq (fst nv)) vars
     /\ parse_environment (environ vars) sample sy_mapper = Ok (mk_parsed os (Some sample) 0) /\ settings os [($"number", $"1")]).
Proof.
  rewrite !C118_environment. split.
  - constructor; [|constructor]. split; [discriminate|]. exists $"APP_OUT". split; [PropConfig.solve_without|reflexivity].
  - intros H. inversion H as [|? ? (_ & n & _ & E) _]; subst. unfold sy_mapper in E. destruct (str_eqb n $"APP_OUT"); discriminate.
Qed.
