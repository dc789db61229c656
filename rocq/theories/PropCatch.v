(** C117: what must be caught. *)

From Coq Require Import List Ascii String NArith ZArith Bool Lia.
From Verif Require Import Base Errors Spec BaseFacts Values OptDesc Positional Cmdline SpecCmdline Parsers ConfigFile SpecConfig ConfigFacts Streams SpecStreams StreamFacts RejectFacts
  VarMap SpecStore StoreFacts Convert SpecConvert Wide SpecReject SpecErrors SpecProgram SpecCatch CatchFacts SplitUnix Samples.
From Verif Require PropCmdline PropReject PropProgram PropWide PropStore.
Import ListNotations.

(** ** Parsing *)

(** C117. The parser of a command line throws nothing but these errors; unregistered options and positional arguments are errors only if they
    are not allowed. *)
Theorem C117_command_line : forall c args, cl_style_parser c = None -> only (command_line_errors c) (parser_run (List.length args) c args).
Proof.
  intros c args Hc e E. unfold parser_run in E. apply bind_Throw in E. destruct E as [E|(r & _ & E)]; [|discriminate].
  destruct (PropReject.C71_rejection_justified c args e Hc E) as [[(pre & tok & rest & _ & R) _]|(p & r & Hp & _ & _ & ->)].
  - destruct R as [typed _ _ A ->|name alts _ _ ->|n _ ->|typed d v key _ _ _ _ -> _ _|typed d key _ _ _ _ -> _ _]; unfold command_line_errors.
    + auto.
    + right. left. now exists alts.
    + auto.
    + auto 6.
    + auto.
  - unfold command_line_errors. rewrite Hp. do 5 right. split; [reflexivity|discriminate].
Qed.
Print Assumptions C117_command_line.

(** C117. With the style given as a number, there is also the error about the style. *)
Theorem C117_style : forall args ds style ext e, parse_command_line (List.length args) args ds style ext = Throw e ->
  (exists msg, ex_class e = invalid_command_line_style msg /\ style <> 0%Z /\ ~ consistent_style style)
  \/ command_line_errors (mk_cl style false ds None ext None) (ex_class e).
Proof.
  intros args ds style ext e E. unfold parse_command_line in E. apply bind_Throw in E. destruct E as [E|(s & _ & E)].
  - left. destruct (Z.eq_dec style 0) as [->|Hz].
    { destruct (PropCmdline.C09_consistent_accepted 0) as (_ & H & _). congruence. }
    assert (Hn : ~ consistent_style style).
    { intros H. destruct (PropCmdline.C09_consistent_accepted style) as (H' & _). rewrite (H' Hz H) in E. discriminate. }
    destruct (PropCmdline.C09_inconsistent_rejected style Hz Hn) as [msg Hm]. rewrite Hm in E. injection E as <-. exists msg. now split.
  - right. pose proof (C117_command_line (mk_cl s false ds None ext None) args eq_refl e E) as H. exact H.
Qed.
Print Assumptions C117_style.

(** C117. The parser of config files throws nothing but these; *)
Theorem C117_file : forall content ds allow, only (file_errors allow) (parse_config_file content ds allow).
Proof. apply only_config. Qed.
Print Assumptions C117_file.

(** C117. and nothing but the errors in the file, if the options all have names, which are compatible. *)
Theorem C117_file_only : forall content ds allow, all_named ds -> compatible ds ->
  only (fun x => (x = unknown_option /\ allow = false) \/ x = invalid_config_file_syntax unrecognized_line) (parse_config_file content ds allow).
Proof.
  intros content ds allow Hn Hc. destruct (build_spec ds Hn) as [(_ & al & P & E & _)|((p & q & H1 & H2 & H3 & H4) & _)].
  - unfold parse_config_file. cbv zeta. destruct (cf_allowed ds []) as [al'| | |]; try discriminate. cbn [bind] in *.
    destruct (cf_add_options [] al') as [P'| | |]; try discriminate. cbn [bind]. apply only_bind; [apply only_copy|intros; apply only_Ok].
  - exfalso. apply H4. now apply Hc.
Qed.
Print Assumptions C117_file_only.

(** C117. For a file given by its name, there is also the error that names it. *)
Theorem C117_named_file : forall name f ds allow,
  only (fun x => file_errors allow x \/ x = reading_file name) (parse_config_file_named name f ds allow).
Proof.
  intros name [f|] ds allow; unfold parse_config_file_named; cbv zeta; [|apply only_Throw; now right].
  apply only_bind.
  - intros e E. left.
    assert (T : parse_config_file_named name (Some f) ds allow = Throw e) by (unfold parse_config_file_named; cbv zeta; rewrite E; reflexivity).
    destruct f as [text broken]. cbn [file_text file_broken] in E.
    destruct (delivers_total _ c_nl char_newline (st_open text broken)) as [t Ht].
    apply (only_config t ds allow e). rewrite <- E. symmetry. now apply stream_text.
  - intros r _. destruct (st_bad _); [apply only_Throw; now right|apply only_Ok].
Qed.
Print Assumptions C117_named_file.

(** C117. The parser of the environment throws only what the function that maps names throws. *)
Theorem C117_environment : forall env ds mapper e, parse_environment env ds mapper = Throw e -> exists n, mapper n = Throw e.
Proof.
  intros env ds mapper e E. unfold parse_environment in E. apply bind_Throw in E. destruct E as [E|(r & _ & E)]; [|discriminate].
  now apply environment_thrown in E.
Qed.
Print Assumptions C117_environment.

(** ** Storing and notifying *)

(** C117. Storing options parsed from strings of [char], with values for [char], throws nothing but the errors in names and values. *)
Theorem C117_store : forall p vm,
  (forall ds d, pr_desc p = Some ds -> In d ds -> exists t, library_semantic t (od_sem d)) ->
  only store_errors (snd (store p vm false)).
Proof.
  intros p vm H. apply only_store; [apply lookup_store|]. intros ds d Hd Hi v xs. destruct (H ds d Hd Hi) as [t Ht].
  exact (only_semantic t _ Ht v xs).
Qed.
Print Assumptions C117_store.

(** C117. With strings of [wchar_t] in the source or in the values, conversions can fail as well; and a string of [char] in a value made of
    wide text is a bad cast. *)
Theorem C117_store_wide : forall p vm utf8 narrow,
  (forall ds d, pr_desc p = Some ds -> In d ds -> library_value narrow (od_sem d)) ->
  only (fun x => store_errors x \/ conversion_error x \/ (x = bad_any_cast /\ narrow)) (snd (store p vm utf8)).
Proof.
  intros p vm utf8 narrow H. apply only_store.
  - intros x Hx. left. now apply lookup_store.
  - intros ds d Hd Hi v xs. exact (only_library narrow _ (H ds d Hd Hi) v xs utf8).
Qed.
Print Assumptions C117_store_wide.

(** C117. Notifying throws the error about a required option without a value, or what a notifier throws. *)
Theorem C117_notify : forall vm e,
  (forall name v s, In (name, v) (vm_map vm) -> vv_sem v = Some s -> exists t, library_semantic t s) ->
  snd (notify vm) = Throw e ->
  ex_class e = required_option \/ exists name v s, In (name, v) (vm_map vm) /\ vv_sem v = Some s /\ notifier_throws s e.
Proof.
  intros vm e H E. destruct (notify_thrown vm e E) as [R|(name & v & s & Hi & Hs & Hn)]; [now left|]. right. exists name, v, s.
  split; [exact Hi|]. split; [exact Hs|]. destruct (H name v s Hi Hs) as [t Ht]. exact (notified t s _ e Ht Hn).
Qed.
Print Assumptions C117_notify.

(** ** Programs *)

Lemma read_desc ds i p : (forall c args, i = Arguments c args -> cl_desc c = ds) -> read_input ds i = Ok p -> pr_desc p = Some ds.
Proof.
  intros Hc Er. destruct i as [c args|allow content|mapper env]; cbn [read_input] in Er.
  - rewrite <- (Hc c args eq_refl). unfold parser_run in Er. destruct (run _ _ _); cbn in Er; try discriminate. now injection Er as <-.
  - unfold parse_config_file in Er. cbv zeta in Er. destruct (cf_allowed _ _); cbn [bind] in Er; try discriminate.
    destruct (cf_add_options _ _); cbn [bind] in Er; try discriminate.
    match type of Er with bind ?x _ = _ => destruct x; cbn [bind] in Er; try discriminate end. now injection Er as <-.
  - unfold parse_environment in Er. destruct (parse_environment_loop _ _); cbn in Er; try discriminate. now injection Er as <-.
Qed.

Lemma load_thrown ds : Forall (fun d => exists t, library_semantic t (od_sem d)) ds ->
  forall inputs vm e, (forall c args, In (Arguments c args) inputs -> cl_style_parser c = None /\ cl_desc c = ds) ->
  snd (load ds inputs vm) = Throw e -> program_options_error (ex_class e)
  \/ exists mapper env n, In (Environment mapper env) inputs /\ mapper n = Throw e.
Proof.
  intros Hl. rewrite Forall_forall in Hl. induction inputs as [|i inputs IH]; intros vm e Hc; cbn [load]; [discriminate|].
  assert (IH' : forall vm', snd (load ds inputs vm') = Throw e -> program_options_error (ex_class e)
    \/ exists mapper env n, In (Environment mapper env) (i :: inputs) /\ mapper n = Throw e).
  { intros vm' E. destruct (IH vm' e) as [H|(m & env & n & H1 & H2)]; auto.
    - intros c args Hi. apply (Hc c args). now right.
    - right. exists m, env, n. split; [now right|exact H2]. }
  destruct (read_input ds i) as [p|e'|u|] eqn:Er; cbn [snd]; try discriminate.
  - assert (Hd : pr_desc p = Some ds).
    { apply (read_desc ds i); [|exact Er]. intros c args ->. apply (Hc c args). now left. }
    assert (Hs : only store_errors (snd (store p vm false))).
    { apply C117_store. intros ds' d E Hi. rewrite Hd in E. injection E as <-. now apply Hl. }
    destruct (store p vm false) as [vm' [a|e'|u|]]; cbn [snd] in *; try discriminate; [apply IH'|].
    intros [= ->]. left. apply store_program. now apply Hs.
  - intros [= ->]. destruct i as [c args|allow content|mapper env]; cbn [read_input] in Er.
    + left. destruct (Hc c args (or_introl eq_refl)) as [H _].
      destruct (C117_command_line c args H e Er) as [[-> _]|[[alts ->]|[->|[->|[->|[-> _]]]]]]; exact I.
    + left. destruct (C117_file content ds allow e Er) as [[-> _]|[->|[msg ->]]]; exact I.
    + right. destruct (C117_environment env ds mapper e Er) as [n Hn]. exists mapper, env, n. split; [now left|exact Hn].
Qed.

Lemma load_calls ds : forall inputs vm vm', (forall c args, In (Arguments c args) inputs -> cl_style_parser c = None /\ cl_desc c = ds) ->
  PropProgram.from_options ds (vm_map vm) -> load ds inputs vm = (vm', Ok tt) ->
  (exists h, calls vm h vm') /\ PropProgram.from_options ds (vm_map vm').
Proof.
  induction inputs as [|i inputs IH]; intros vm vm' Hc Hm; cbn [load].
  - intros [= <-]. split; [exists []; constructor|exact Hm].
  - destruct (read_input ds i) as [p|e'|u|] eqn:Er; try discriminate.
    assert (Hd : pr_desc p = Some ds) by (apply (read_desc ds i); [|exact Er]; intros c args ->; apply (Hc c args); now left).
    destruct p as [os desc prefix]. cbn [pr_desc] in Hd. subst desc.
    pose proof (PropProgram.store_from_options ds os prefix vm Hm) as F.
    destruct (store (mk_parsed os (Some ds) prefix) vm false) as [vm1 [[]|e'|u|]] eqn:Es; try discriminate. intros E. cbn [fst] in F.
    destruct (IH vm1 vm') as [[h Hh] H]; auto.
    { intros c args Hi. apply (Hc c args). now right. }
    split; [|exact H]. exists ((mk_parsed os (Some ds) prefix, false) :: h). econstructor; eauto.
Qed.

(** C117. A program that reads strings of [char], with values of the library for [char], throws errors derived from
    [program_options::error], and what the functions of the user throw; nothing else. *)
Theorem C117_program : forall ds inputs e,
  Forall (fun d => exists t, library_semantic t (od_sem d)) ds ->
  (forall c args, In (Arguments c args) inputs -> cl_style_parser c = None /\ cl_desc c = ds) ->
  snd (main_program ds inputs) = Throw e ->
  program_options_error (ex_class e) \/ thrown_by_user ds inputs e.
Proof.
  intros ds inputs e Hl Hc E. unfold main_program in E. destruct (load ds inputs vm_new) as [vm r] eqn:El.
  assert (Hr : forall e', r = Throw e' -> program_options_error (ex_class e') \/ thrown_by_user ds inputs e').
  { intros e' ->. destruct (load_thrown ds Hl inputs vm_new e' Hc) as [H|H]; [now rewrite El|now left|right; now right]. }
  destruct r as [a|e'|u|]; cbn [snd] in E; try discriminate; [|injection E as <-; now apply Hr].
  assert (S : forall name v s, In (name, v) (vm_map vm) -> vv_sem v = Some s -> exists d, In d ds /\ s = od_sem d).
  { destruct a. destruct (load_calls ds inputs vm_new vm Hc) as [[h Hh] F]; [discriminate|exact El|].
    destruct (calls_sorted _ _ _ Hh) as [Hs _]; [constructor|constructor|].
    intros name v s Hi. apply (F name v s). now apply sm_find_In_pair. }
  rewrite Forall_forall in Hl.
  destruct (C117_notify vm e) as [->|(name & v & s & Hi & Hs & Hn)]; auto.
  - intros name v s Hi Hs. destruct (S name v s Hi Hs) as (d & Hd & ->). now apply Hl.
  - left. exact I.
  - right. left. destruct (S name v s Hi Hs) as (d & Hd & ->). now exists d.
Qed.
Print Assumptions C117_program.

(** ** It is not enough to catch [program_options::error] *)

Definition ct_lex (n : nat) (w : wstr) : option Z := Some 0%Z.
Definition ct_from (s : str) : outcome wstr := Throw conversion_failed.
Definition ct_to (w : wstr) : outcome str := Throw conversion_failed.
Definition ct_wide (t : vty) : value_semantic := wtyped ct_to ct_from ct_lex 1 (fun _ => 0%Z) (value_of_type t None).
Definition ct_options : list option_description := [mk_od [] [$"title"] [] (ct_wide (TLex 1)); mk_od [] [$"names"] [] (ct_wide (TVec TString))].

Lemma ct_library : forall d, In d ct_options -> library_value True (od_sem d).
Proof.
  assert (F : forall x, only conversion_error (ct_from x)) by (intros x e [= <-]; now eexists).
  intros d [<-|[<-|[]]]; apply lv_wide; auto.
Qed.

(** C117. A wide value that the local encoding cannot express is a [std::logic_error] from store(); *)
Theorem C117_conversion_refuted : exists p vm e, (forall ds d, pr_desc p = Some ds -> In d ds -> library_value True (od_sem d))
  /\ snd (store p vm false) = Throw e /\ conversion_error (ex_class e) /\ ~ program_options_error (ex_class e).
Proof.
  exists (mk_parsed [mk_popt $"title" (-1) [$"x"] [] false false] (Some ct_options) 0), vm_new, conversion_failed.
  split; [intros ds d [= <-]; apply ct_library|]. split; [reflexivity|]. split; [now eexists|intros []].
Qed.
Print Assumptions C117_conversion_refuted.

(** C117. a list of narrow strings made of wide text is a bad cast; *)
Theorem C117_cast_refuted : exists p vm e, (forall ds d, pr_desc p = Some ds -> In d ds -> library_value True (od_sem d))
  /\ snd (store p vm true) = Throw e /\ ex_class e = bad_any_cast /\ ~ program_options_error (ex_class e).
Proof.
  exists (mk_parsed [mk_popt $"names" (-1) [$"x"] [] false false] (Some ct_options) 0), vm_new, (plain_exn bad_any_cast).
  split; [intros ds d [= <-]; apply ct_library|]. split; [vm_compute; reflexivity|]. split; [reflexivity|intros []].
Qed.
Print Assumptions C117_cast_refuted.

(** C117. and a command line with a bad escape, split as on Unix, is an error of Boost.Tokenizer. *)
Theorem C117_split_refuted : exists text e, split_unix text = Throw e /\ ~ program_options_error (ex_class e).
Proof. exists ($"a" ++ [c_bs]). eexists. split; [vm_compute; reflexivity|intros []]. Qed.
Print Assumptions C117_split_refuted.

(** ** Every error does occur *)

Definition ct_store (name : str) (vs : list str) : parsed_options :=
  mk_parsed [mk_popt name (-1) vs [] false false] (Some (mk_od [] [$"fast"] [] (typed lex local (value_of_type TBool None)) :: sample)) 0.
Definition ct_again (name : str) (vs : list str) : parsed_options :=
  mk_parsed [mk_popt name (-1) vs [] false false; mk_popt name (-1) vs [] false false] (Some sample) 0.

Example C117_ex_store :
  map (fun p => PropReject.class_of (snd (store p vm_new false)))
    [ct_store $"what" []; ct_store $"number" [$"1"; $"2"]; ct_store $"number" []; ct_store $"number" [$"x"]; ct_store $"fast" [$"x"];
     ct_store $"output" [$"1"; $"2"]; ct_again $"number" [$"1"]; ct_store $"number" [$"1"]]
  = [Some unknown_option; Some (validation_error multiple_values_not_allowed); Some (validation_error at_least_one_value_required);
     Some invalid_option_value; Some invalid_bool_value; Some multiple_values; Some multiple_occurrences; None].
Proof. vm_compute. reflexivity. Qed.

Example C117_ex_file :
  map (fun t => PropReject.class_of (parse_config_file t [o_help; o_number] false)) [$"x=1"; $"help"; $"number=1"]
  = [Some unknown_option; Some (invalid_config_file_syntax unrecognized_line); None]
  /\ PropReject.class_of (parse_config_file $"" [mk_od $"-x" [] [] tflag] false)
     = Some (po_error $"abbreviated option names are not permitted in options configuration files")
  /\ all_named [o_help; o_number] /\ compatible [o_help; o_number].
Proof.
  split; [vm_compute; reflexivity|]. split; [vm_compute; reflexivity|]. split.
  - repeat constructor; eexists; (split; [eexists; reflexivity|discriminate]).
  - intros p q (d & [<-|[<-|[]]] & (l & E)); exfalso; injection E as E _; apply (f_equal (@rev _)) in E; rewrite rev_app_distr in E; discriminate.
Qed.

Definition ct_notifier (v : value) : option exn := Some (plain_exn (user_exception 7)).
Definition ct_program : list option_description :=
  [o_number; mk_od [] [$"call"] [] (typed lex local (mk_typed (TLex 0) None [] None None false false false false (Some (3, ct_notifier))))].

Example C117_ex_program :
  Forall (fun d => exists t, library_semantic t (od_sem d)) ct_program
  /\ PropReject.class_of (snd (main_program ct_program [File false $"number=x"])) = Some invalid_option_value
  /\ PropReject.class_of (snd (main_program ct_program [File false $"call=1"])) = Some (user_exception 7).
Proof.
  split; [|split; vm_compute; reflexivity].
  repeat constructor; exists (TLex 0); left; do 3 eexists; (split; [reflexivity|]); (split; [reflexivity|]);
    (split; [repeat split; discriminate|discriminate]).
Qed.
