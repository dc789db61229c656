(** C86-C88: what does not change when a program gets a new option. *)

From Coq Require Import List Ascii String NArith ZArith Bool Lia.
From Verif Require Import Base Errors Spec BaseFacts Values OptDesc SpecLookup LookupFacts Positional Cmdline SpecCmdline
  CmdlineFacts SpecReject SpecGrammar GrammarFacts Parsers ConfigFile SpecConfig ConfigFacts VarMap SpecStore StoreFacts
  SpecFrame FrameFacts Samples Witness PropCmdline PropConfig.
Import ListNotations.

(** ** The command line *)

(** C86. A command line that does not mention the new option is parsed as before: with the same result, the same
    exception, or the same undefined behaviour.  The names of the other options must not mean the new one, either. *)
Theorem C86_new_option : forall c ds1 d ds2 args,
  cl_desc c = ds1 ++ ds2 -> cl_style_parser c = None ->
  foldable_option d (has (cl_style c) long_case_insensitive) (has (cl_style c) short_case_insensitive) ->
  (forall d0 typed k, In d0 (cl_desc c) -> is_key d0 typed k -> k = typed \/ spared c d k) ->
  Forall (silent_on c d) args ->
  parse (with_desc c (ds1 ++ d :: ds2)) args = parse c args.
Proof. intros c ds1 d ds2 args H1 H2 H3 H4 H5. unfold parse. now apply run_same. Qed.
Print Assumptions C86_new_option.

(** A new option whose name abbreviates to the name of an old one. *)
Definition o_helpful := mk_od $"-H" [$"helpful"] $"print more help" tflag.

Lemma sample_claimed style tok n v : ~ claimed (sample_cl style) tok n v.
Proof. intros (f & E & _). discriminate. Qed.

Ltac solve_spared :=
  split; [discriminate|]; split;
  [rewrite <- full_b_spec; vm_compute; discriminate
  |first [intros HA; exfalso; revert HA; rewrite <- approx_b_spec; vm_compute; discriminate
         |intros _; exists o_help; split; [now left|]; split; [split; discriminate|]; apply full_b_spec; vm_compute; reflexivity]].

Lemma silent_long n : n <> [] -> without c_eq n -> spared (sample_cl default_style) o_helpful n ->
  spared (sample_cl default_style) o_helpful (dashdash ++ n) -> silent_on (sample_cl default_style) o_helpful (dashdash ++ n).
Proof.
  intros Hn Hw Hs Ht. split.
  - intros s H. destruct H as [m v H|m vs _ H|m m' (H & _) _|H]; auto.
    + destruct (sample_claimed _ _ _ _ H).
    + destruct (long_words_fun _ _ _ _ _ H (lw_bare n Hn Hw)) as [-> _]. exact Hs.
    + discriminate.
  - intros x H. destruct H as [r x _ _ E Hd _|x r _ E _]; [|discriminate]. injection E as <-. now destruct Hd.
Qed.

Lemma silent_word c1 s : c1 <> c_dash -> c1 <> c_slash -> silent_on (sample_cl default_style) o_helpful (c1 :: s).
Proof.
  intros H1 H2. split.
  - intros t H. destruct H as [m v H|m vs _ H|m m' (H & _) _|H].
    + destruct (sample_claimed _ _ _ _ H).
    + remember (c1 :: s) as tok eqn:E. destruct H as [n _ _|n v _ _]; injection E as E _; congruence.
    + discriminate.
    + destruct H as [(n & v & H)|[[r E]|[r E]]]; [destruct (sample_claimed _ _ _ _ H)|congruence|congruence].
  - intros x H. destruct H as [r x _ _ E _ _|x r _ _ E]; congruence.
Qed.

Lemma silent_letter x : x <> c_dash -> spared_letter (sample_cl default_style) o_helpful x ->
  silent_on (sample_cl default_style) o_helpful [c_dash; x].
Proof.
  intros Hx Hs. split.
  - intros s H. destruct H as [m v H|m vs _ H|m m' (H & _) _|H].
    + destruct (sample_claimed _ _ _ _ H).
    + remember [c_dash; x] as tok eqn:E. destruct H as [n _ _|n v _ _]; injection E as E _; congruence.
    + discriminate.
    + apply Hs.
  - intros y H. destruct H as [r y _ _ E _ Hy|y r _ E _]; [|discriminate]. injection E as <-.
    destruct Hy as [<-|[]]. exact Hs.
Qed.

Example C86_ex :
  let c := sample_cl default_style in
  let args := [$"--help"; $"-o"; $"file"; $"--number"; $"12"] in
  parse (with_desc c (sample ++ o_helpful :: [])) args = parse c args
  /\ exists r, parse c args = Ok r.
Proof.
  cbv zeta. split; [|apply ok_ex; vm_compute; reflexivity].
  apply C86_new_option; [now rewrite app_nil_r|reflexivity|split; discriminate| |].
  - intros d0 typed k Hin Hk. apply is_key_unique in Hk. subst k.
    repeat (destruct Hin as [<-|Hin]; [first [left; reflexivity|right; solve_spared]|]). destruct Hin.
  - apply Forall_cons; [apply (silent_long $"help"); [discriminate|solve_without|solve_spared|solve_spared]|].
    apply Forall_cons; [apply silent_letter; [discriminate|split; solve_spared]|].
    apply Forall_cons; [apply silent_word; discriminate|].
    apply Forall_cons; [apply (silent_long $"number"); [discriminate|solve_without|solve_spared|solve_spared]|].
    apply Forall_cons; [apply silent_word; discriminate|constructor].
Qed.

(** C86. The condition on abbreviations is needed: a new option can make an abbreviation ambiguous.  So is the one on
    values: a new option can turn a value of another option into an option. *)
Theorem C86_mentions_refuted :
  let c := sample_cl default_style in
  let verbatim := mk_od [] [$"verbatim"] [] tflag in
  let five := mk_od $"-5" [$"five"] [] tflag in
  (exists r, parse c [$"--verb"] = Ok r)
  /\ (exists e, parse (with_desc c (sample ++ [verbatim])) [$"--verb"] = Throw e)
  /\ (exists r, parse c [$"--output"; $"-5"] = Ok r)
  /\ (exists e, parse (with_desc c (sample ++ [five])) [$"--output"; $"-5"] = Throw e).
Proof. cbv zeta. repeat split; first [apply ok_ex; vm_compute; reflexivity|apply throw_ex; vm_compute; reflexivity]. Qed.
Print Assumptions C86_mentions_refuted.

(** ** Config files *)

(** C87. A file that does not assign to the new option has the same meaning as before: the same options, or the same
    exception. *)
Theorem C87_new_option : forall ds1 d ds2 allow content ls es,
  all_named (ds1 ++ d :: ds2) -> compatible (ds1 ++ d :: ds2) -> lines_of content ls -> Forall2 line_is ls es ->
  (forall n, assigns [] es n -> accepts [d] n -> accepts (ds1 ++ ds2) n) ->
  config (ds1 ++ d :: ds2) allow content = config (ds1 ++ ds2) allow content.
Proof.
  intros ds1 d ds2 allow content ls es Hn Hc Hl He Ha.
  pose proof (config_reads _ allow content ls es Hn Hc Hl He) as R'.
  pose proof (config_reads _ allow content ls es (named_app _ _ _ Hn) (compatible_app _ _ _ Hc) Hl He) as R.
  apply (reads_same _ (ds1 ++ d :: ds2)) in R; [|intros n H; rewrite accepts_app; specialize (Ha n H); tauto].
  eapply reads_fun; eauto.
Qed.
Print Assumptions C87_new_option.

(** C87. In particular a file that was accepted stays accepted, with the same options, whatever it assigns to. *)
Theorem C87_accepted_stays : forall ds1 d ds2 content os,
  all_named (ds1 ++ d :: ds2) -> compatible (ds1 ++ d :: ds2) ->
  config (ds1 ++ ds2) false content = Ok os -> config (ds1 ++ d :: ds2) false content = Ok os.
Proof.
  intros ds1 d ds2 content os Hn Hc H. pose proof (lines_of_total content) as Hl.
  destruct (lines_are (getline_all c_nl content)) as [es He].
  pose proof (config_reads _ false content _ es (named_app _ _ _ Hn) (compatible_app _ _ _ Hc) Hl He) as R.
  rewrite (C87_new_option ds1 d ds2 false content _ es Hn Hc Hl He); auto.
  intros n Hin _. exact (reads_accepted _ _ _ _ R os H n Hin).
Qed.
Print Assumptions C87_accepted_stays.

Definition o_colour := mk_od [] [$"colour"] $"colour" tvalue.
Lemma conf_colour : all_named (conf ++ o_colour :: []) /\ compatible (conf ++ o_colour :: []).
Proof.
  split.
  - repeat constructor; eexists; (split; [eexists; reflexivity|discriminate]).
  - assert (W : forall p, wildcard (conf ++ [o_colour]) p -> p = $"log.").
    { intros p (d & [<-|[<-|[<-|[<-|[]]]]] & q & E); cbn in E; injection E as E _.
      - apply (app_inj_tail $"outpu" p "t"%char c_star) in E. destruct E. discriminate.
      - apply (app_inj_tail $"numbe" p "r"%char c_star) in E. destruct E. discriminate.
      - apply (app_inj_tail $"log." p "*"%char c_star) in E. destruct E. auto.
      - apply (app_inj_tail $"colou" p "r"%char c_star) in E. destruct E. discriminate. }
    intros p q Hp Hq _. apply W in Hp, Hq. congruence.
Qed.

Example C87_ex :
  config (conf ++ o_colour :: []) false ($"output = x" ++ [c_nl] ++ $"[log]" ++ [c_nl] ++ $"colour=y")
  = Ok [config_option $"output" $"x" false; config_option $"log.colour" $"y" false].
Proof. apply C87_accepted_stays; [apply conf_colour|apply conf_colour|reflexivity]. Qed.

(** C87. The conditions are needed: a new wildcard can clash with an old one, whatever is in the file; and where
    unregistered options are allowed, an assignment to the new option is not unregistered any more. *)
Theorem C87_conditions_refuted :
  let wild := mk_od [] [$"lo*"] [] tvalue in
  config conf false [] = Ok []
  /\ (exists e, config (conf ++ [wild]) false [] = Throw e)
  /\ config conf true $"colour=y" = Ok [config_option $"colour" $"y" true]
  /\ config (conf ++ [o_colour]) true $"colour=y" = Ok [config_option $"colour" $"y" false].
Proof. cbv zeta. repeat split; try reflexivity. eexists. reflexivity. Qed.
Print Assumptions C87_conditions_refuted.

(** ** Storing *)

(** C88. Sources that do not mention the new option can be stored as before, and every other option has the same value,
    and is missing if and only if it was missing before.  (For the new option itself see C38 and C40.) *)
Theorem C88_new_option : forall d h h' vm,
  Forall2 (upgraded d) h h' -> Forall (source_silent_on d) h -> stores vm_new h vm ->
  exists vm', stores vm_new h' vm'
    /\ forall name, name <> [] -> ~ is_key d [] name ->
         SpecStore.entry vm' name = SpecStore.entry vm name /\ (missing h' vm' name <-> missing h vm name).
Proof.
  intros d h h' vm Hu Hs H. destruct (stores_alike d h h' vm_new vm_new vm Hu Hs (fun _ _ => eq_refl) eq_refl H) as (vm' & H' & Hm).
  exists vm'. split; auto. intros name Hne Hk. split; [apply Hm; split; auto|]. eapply missing_alike; eauto. split; auto.
Qed.
Print Assumptions C88_new_option.

(** C88. A source that could not be stored still cannot be, with the same exception, and leaves the same values. *)
Theorem C88_failure : forall d h h' vm p p' utf8 r vm1,
  Forall2 (upgraded d) h h' -> Forall (source_silent_on d) h -> stores vm_new h vm ->
  upgraded d (p, utf8) (p', utf8) -> source_silent_on d (p, utf8) -> store p vm utf8 = (vm1, r) ->
  exists vm' vm1', stores vm_new h' vm' /\ store p' vm' utf8 = (vm1', r)
    /\ forall name, name <> [] -> ~ is_key d [] name -> SpecStore.entry vm1' name = SpecStore.entry vm1 name.
Proof.
  intros d h h' vm p p' utf8 r vm1 Hu Hs H Hup Hsp E.
  assert (G : forall h h' vm0 vm0' vm, Forall2 (upgraded d) h h' -> Forall (source_silent_on d) h ->
    alike d (vm_map vm0) (vm_map vm0') -> vm_final vm0' = vm_final vm0 -> stores vm0 h vm ->
    exists vm', stores vm0' h' vm' /\ alike d (vm_map vm) (vm_map vm') /\ vm_final vm' = vm_final vm).
  { clear. induction h as [|[p u] h IH]; intros h' vm vm' vm1 Hu Hs Hm Hf H.
    - inversion Hu; subst. inversion H; subst. exists vm'. split; [constructor|auto].
    - inversion Hu as [|? [p' u'] ? h1 Hu1 Hu2]; subst. inversion Hs; subst. inversion H as [|? ? ? vm2 ? ? E Hst]; subst.
      destruct (store_alike d (p, u) (p', u') vm vm' Hu1 ltac:(auto) Hm Hf) as (E1 & Hm2 & Hf2). cbn [fst snd] in *. rewrite E in *. cbn [fst snd] in *.
      destruct (store p' vm' u') as [vm2' r'] eqn:E'. cbn [fst snd] in *. subst r'.
      destruct (IH h1 vm2 vm2' vm1 Hu2 ltac:(auto) Hm2 Hf2 Hst) as (vm1' & Hst' & Hm1). exists vm1'. split; auto. econstructor; eauto. }
  destruct (G h h' vm_new vm_new vm Hu Hs (fun _ _ => eq_refl) eq_refl H) as (vm' & Hst & Hm & Hf).
  destruct (store_alike d (p, utf8) (p', utf8) vm vm' Hup Hsp Hm Hf) as (E1 & Hm1 & _). cbn [fst snd] in *. rewrite E in *. cbn [fst snd] in *.
  exists vm'. destruct (store p' vm' utf8) as [vm1' r'] eqn:E'. cbn [fst snd] in *. subst r'. exists vm1'. split; auto. split; auto.
  intros name Hne Hk. apply Hm1. split; auto.
Qed.
Print Assumptions C88_failure.

(** The new option with a default. *)
Definition o_width := mk_od [] [$"width"] $"width"
  (typed lex local (mk_typed (TLex 0) None [] (Some (VLex 0 80, $"80")) None false false false false None)).
Definition frame_source : parsed_options :=
  mk_parsed [mk_popt $"output" (-1) [$"f"] [$"--output"; $"f"] false false] (Some sample) 1.

Example C88_ex :
  exists vm vm', stores vm_new [(frame_source, false)] vm
    /\ upgraded o_width (frame_source, false) (with_options frame_source (sample ++ o_width :: []), false)
    /\ source_silent_on o_width (frame_source, false)
    /\ stores vm_new [(with_options frame_source (sample ++ o_width :: []), false)] vm'
    /\ SpecStore.entry vm' $"output" = SpecStore.entry vm $"output" /\ SpecStore.entry vm $"output" <> None
    /\ SpecStore.entry vm $"width" = None /\ SpecStore.entry vm' $"width" <> None.
Proof.
  assert (Hs : stores vm_new [(frame_source, false)] (fst (store frame_source vm_new false))).
  { eapply sts_cons; [apply done_ok; vm_compute; reflexivity|constructor]. }
  assert (Hu : upgraded o_width (frame_source, false) (with_options frame_source (sample ++ o_width :: []), false)).
  { right. exists sample, []. split; [now rewrite app_nil_r|reflexivity]. }
  assert (Hq : source_silent_on o_width (frame_source, false)).
  { intros ds o Ed [<-|[]] _ _. solve_spared. }
  exists (fst (store frame_source vm_new false)).
  destruct (C88_new_option o_width [(frame_source, false)] _ _ (Forall2_cons _ _ Hu (Forall2_nil _)) (Forall_cons _ Hq (Forall_nil _)) Hs) as (vm' & Hs' & Hn).
  exists vm'. do 4 (split; [assumption|]). split; [|split; [apply some_ex; vm_compute; reflexivity|split; [apply none_ex; vm_compute; reflexivity|]]].
  - apply Hn; [discriminate|]. rewrite is_key_od. discriminate.
  - inversion Hs' as [|? ? ? vm2 ? ? E Hr]; subst. inversion Hr; subst. apply (f_equal fst) in E. cbn [fst] in E. subst vm'.
    apply some_ex. vm_compute. reflexivity.
Qed.
