(** C73: which value a variable of the program ends up with. *)

From Coq Require Import List Ascii String NArith ZArith Bool Arith Lia Sorting.Sorted.
From Verif Require Import Base Errors Spec BaseFacts Values OptDesc SpecLookup LookupFacts Positional Cmdline
  Parsers ConfigFile VarMap SpecCmdline RunFacts ParseFacts SpecStore StoreFacts SemFacts SpecEnd EndFacts Samples.
From Verif Require SpecConfig ConfigFacts PropCmdline PropConfig PropStore.
Import ListNotations.

(** C73. Sources with the same description are stored and [notify] is called.  The variable
    of a non-composing option gets, once, the value of the first source that mentions the
    option; if none does, the default value; if it has none, the variable is left alone. *)
Theorem C73_precedence : forall h vm ev ds d name lexical_cast utf8_to_local tv addr,
  stores vm_new h vm -> notify vm = (ev, Ok tt) ->
  h <> [] -> Forall (fun pu => pr_desc (fst pu) = Some ds) h ->
  name <> [] -> exactly_one (fun d' => is_key d' [] name) ds d -> find ds name false false false = Ok d ->
  od_sem d = typed lexical_cast utf8_to_local tv -> tv_composing tv = false -> tv_store_to tv = Some addr ->
  owned ds d addr -> called ds h d name ->
  (forall before p utf8 after, h = before ++ (p, utf8) :: after -> never_mentioned before name -> mentions p name ->
     exists x, parsed_all (od_sem d) utf8 None (occurrences (pr_options p) name) (Some x) /\ written addr ev = [x])
  /\ (never_mentioned h name ->
     written addr ev = match tv_default tv with Some (x, _) => [x] | None => [] end).
Proof.
  intros h vm ev ds d name lc ul tv addr H Hn Hh Hds Hne Hone Hf Hsem Hco Hto Hown Hc.
  pose proof (writes_of_notify lc ul ds d name tv addr Hne Hone Hsem Hto Hown h vm ev H Hn Hds Hc Hf) as Hw.
  split.
  - intros before p utf8 after -> Hb Hm.
    assert (Hr : resolves p name d).
    { exists ds. split; auto. rewrite Forall_forall in Hds. apply (Hds (p, utf8)). apply in_or_app. right. now left. }
    destruct (PropStore.C36_first_source_wins before p utf8 after vm name d H Hne Hb Hm Hr) as (a & Hp & He).
    { now rewrite Hsem. }
    rewrite He in Hw. destruct Hw as (x & Ex & Hw). cbn [vv_value] in Ex. subst a. eauto.
  - intros Hnm. pose proof (PropStore.C38_same_description h vm ds d name H Hne Hh Hds Hone Hnm) as He.
    rewrite Hsem in He. cbn [typed vs_default] in He. destruct (tv_default tv) as [[x txt]|]; cbn [option_map fst] in He; rewrite He in Hw.
    + destruct Hw as (y & Ey & Hw). cbn [vv_value] in Ey. congruence.
    + exact Hw.
Qed.
Print Assumptions C73_precedence.

(** ** The usual program *)

Lemma named_occurrences keys values origs res name :
  named_options keys values origs res ->
  occurrences res name = map snd (filter (fun kv => str_eqb (fst kv) name) (combine keys values)).
Proof.
  intros (Hk & Hv & _ & Hu). subst keys values. induction res as [|o res IH]; [reflexivity|].
  inversion Hu as [|? ? [_ Ho] Hu']; subst. specialize (IH Hu'). unfold occurrences in *. cbn [filter map combine fst snd].
  rewrite Ho. cbn [negb]. rewrite andb_true_r. destruct (str_eqb (po_key o) name); cbn [map snd]; now rewrite IH.
Qed.

Lemma pairs_occurrences kvs name :
  map snd (filter (fun kv => str_eqb (fst kv) name) (combine (map fst kvs) (map (fun kv : str * str => [snd kv]) kvs)))
  = map (fun v : str => [v]) (map snd (filter (fun kv => str_eqb (fst kv) name) kvs)).
Proof.
  induction kvs as [|[k v] kvs IH]; [reflexivity|]. cbn [map combine filter fst snd].
  destruct (str_eqb k name); cbn [map snd]; now rewrite IH.
Qed.

Lemma config_occurrences nvs name :
  occurrences (map (fun nv => SpecConfig.config_option (fst nv) (snd nv) false) nvs) name
  = map (fun v : str => [v]) (map snd (filter (fun kv => str_eqb (fst kv) name) nvs)).
Proof.
  induction nvs as [|[k v] nvs IH]; [reflexivity|]. unfold occurrences in *. cbn [map filter fst snd SpecConfig.config_option po_key po_unreg negb].
  rewrite andb_true_r. destruct (str_eqb k name); cbn [map snd po_value SpecConfig.config_option]; now rewrite IH.
Qed.

Lemma values_for_In name kvs v : In v (values_for name kvs) <-> In (name, v) kvs.
Proof.
  unfold values_for. rewrite in_map_iff. split.
  - intros ([k v'] & <- & H). apply filter_In in H. destruct H as [H E]. cbn [fst snd] in *.
    destruct (str_eqb_spec k name) as [->|]; [auto|discriminate].
  - intros H. exists (name, v). split; auto. apply filter_In. split; auto. cbn. apply str_eqb_refl.
Qed.

Lemma file_reads ds sec es nvs : file_says ds sec es nvs ->
  SpecConfig.reads ds false sec es (Ok (map (fun nv => SpecConfig.config_option (fst nv) (snd nv) false) nvs)).
Proof.
  induction 1 as [sec|sec es nvs _ IH|sec s sec' es nvs Hs _ IH|sec n v es nvs Ha _ IH].
  - constructor.
  - now constructor.
  - econstructor; eauto.
  - exact (SpecConfig.rd_assign ds false sec n v es _ Ha IH).
Qed.

(** What is stored. *)
Lemma program_history fuel ds style args content ev kvs nvs ls es :
  program fuel ds style args content ev -> (List.length args <= fuel)%nat ->
  command_line_says ds style args kvs ->
  SpecConfig.all_named ds -> SpecConfig.compatible ds ->
  SpecConfig.lines_of content ls -> Forall2 SpecConfig.line_is ls es -> file_says ds [] es nvs ->
  exists p1 p2 vm, stores vm_new [(p1, false); (p2, false)] vm /\ notify vm = (ev, Ok tt)
  /\ pr_desc p1 = Some ds /\ pr_desc p2 = Some ds
  /\ (forall name, occurrences (pr_options p1) name = map (fun v : str => [v]) (values_for name kvs))
  /\ (forall name, occurrences (pr_options p2) name = map (fun v : str => [v]) (values_for name nvs)).
Proof.
  intros (p1 & p2 & vm1 & vm2 & E1 & S1 & E2 & S2 & Hn) Hfu (s & Es & Hk) Ha Hco Hl He Hs.
  exists p1, p2, vm2. split; [econstructor; eauto; econstructor; eauto; constructor|]. split; auto.
  unfold parse_command_line in E1. rewrite Es in E1. cbn [bind] in E1. unfold parser_run in E1.
  set (c := mk_cl s false ds None None None) in *. destruct (ParseFacts.round_trip_lemma c args kvs) as (res & Hres & Hno); [now split|auto|].
  assert (Hr : run fuel c args = Ok res).
  { unfold parse in Hres. rewrite <- Hres. now apply PropCmdline.C11_run_terminates. }
  rewrite Hr in E1. cbn [bind] in E1. injection E1 as <-.
  rewrite ConfigFacts.parse_config_shape in E2.
  rewrite (ConfigFacts.reads_fun _ _ _ _ _ (ConfigFacts.config_reads ds false content ls es Ha Hco Hl He) _ (file_reads ds [] es nvs Hs)) in E2.
  cbn [bind] in E2. injection E2 as <-. cbn [pr_desc pr_options].
  split; [reflexivity|]. split; [reflexivity|]. split; intros name.
  - rewrite (named_occurrences _ _ _ _ name Hno). apply pairs_occurrences.
  - apply config_occurrences.
Qed.

(** One occurrence with one value. *)
Lemma scalar_once lc ul tv vs x :
  scalar (tv_type tv) -> parsed_all (typed lc ul tv) false None (map (fun v : str => [v]) vs) (Some x) ->
  exists v, vs = [v] /\ converts lc (tv_type tv) v x.
Proof.
  intros Hs Hp. destruct vs as [|v vs]; cbn [map] in Hp; [inversion Hp|].
  pose proof (proj2 (scalar_all lc ul tv false Hs _ _ _ Hp) _ _ eq_refl) as Ho.
  destruct vs as [|v' vs]; [|inversion Ho as [|? ? [E _] _]; discriminate].
  exists v. split; auto. inversion Hp as [|? ? a ? ? H1 H2]; subst. inversion H2; subst.
  cbn [typed vs_parse codecvt_parse] in H1. rewrite (tv_xparse_no_implicit lc) in H1 by (left; discriminate).
  apply (validate_converts lc ul) in H1. destruct H1 as (y & [= <-] & Hy). exact Hy.
Qed.

Lemma no_values name kvs : (forall v, ~ In (name, v) kvs) -> values_for name kvs = [].
Proof.
  intros H. destruct (values_for name kvs) as [|v vs] eqn:E; auto. exfalso. apply (H v). apply values_for_In. rewrite E. now left.
Qed.

(** C73. The variable of a scalar option: the command line decides, then the config file, then the default. *)
Theorem C73_program : forall fuel ds style args content ev kvs ls es nvs d name lexical_cast utf8_to_local tv addr,
  program fuel ds style args content ev -> List.length args <= fuel ->
  command_line_says ds style args kvs ->
  SpecConfig.all_named ds -> SpecConfig.compatible ds ->
  SpecConfig.lines_of content ls -> Forall2 SpecConfig.line_is ls es -> file_says ds [] es nvs ->
  name <> [] -> exactly_one (fun d' => is_key d' [] name) ds d -> find ds name false false false = Ok d ->
  (forall kv, In kv (kvs ++ nvs) -> find ds (fst kv) false false false = Ok d -> fst kv = name) ->
  od_sem d = typed lexical_cast utf8_to_local tv -> scalar (tv_type tv) -> tv_composing tv = false ->
  tv_store_to tv = Some addr -> owned ds d addr ->
  (forall v, In (name, v) kvs -> exists x, converts lexical_cast (tv_type tv) v x /\ written addr ev = [x])
  /\ ((forall v, ~ In (name, v) kvs) ->
      forall v, In (name, v) nvs -> exists x, converts lexical_cast (tv_type tv) v x /\ written addr ev = [x])
  /\ ((forall v, ~ In (name, v) (kvs ++ nvs)) ->
      written addr ev = match tv_default tv with Some (x, _) => [x] | None => [] end).
Proof.
  intros fuel ds style args content ev kvs ls es nvs d name lc ul tv addr Hprog Hfu Hcl Ha Hcp Hl He Hs Hne Hone Hf Hcall Hsem Hsc Hco Hto Hown.
  destruct (program_history _ _ _ _ _ _ _ _ _ _ Hprog Hfu Hcl Ha Hcp Hl He Hs) as (p1 & p2 & vm & Hst & Hn & D1 & D2 & O1 & O2).
  assert (M : forall p kvs0, (forall n, occurrences (pr_options p) n = map (fun v : str => [v]) (values_for n kvs0)) ->
    forall n, mentions p n <-> exists v, In (n, v) kvs0).
  { intros p kvs0 HO n. unfold mentions. rewrite HO. split.
    - destruct (values_for n kvs0) as [|v vs] eqn:E; [contradiction|]. intros _. exists v. apply values_for_In. rewrite E. now left.
    - intros [v Hv] E. apply values_for_In in Hv. destruct (values_for n kvs0); [destruct Hv|discriminate]. }
  pose proof (M p1 kvs O1) as M1. pose proof (M p2 nvs O2) as M2.
  destruct (C73_precedence [(p1, false); (p2, false)] vm ev ds d name lc ul tv addr) as [W1 W2]; try assumption; try discriminate.
  { constructor; [exact D1|constructor; [exact D2|constructor]]. }
  { intros p u n [[= <- <-]|[[= <- <-]|[]]] Hm Hfn.
    - apply M1 in Hm. destruct Hm as [v Hv]. apply (Hcall (n, v)); [apply in_or_app; now left|exact Hfn].
    - apply M2 in Hm. destruct Hm as [v Hv]. apply (Hcall (n, v)); [apply in_or_app; now right|exact Hfn]. }
  split; [|split].
  - intros v Hv. destruct (W1 [] p1 false [(p2, false)] eq_refl) as (x & Hp & Hw); [constructor|apply M1; eauto|].
    exists x. split; auto. rewrite Hsem, O1 in Hp. destruct (scalar_once _ _ _ _ _ Hsc Hp) as (v' & E & Hx).
    apply values_for_In in Hv. rewrite E in Hv. destruct Hv as [<-|[]]. exact Hx.
  - intros Hno v Hv. destruct (W1 [(p1, false)] p2 false [] eq_refl) as (x & Hp & Hw).
    { constructor; [|constructor]. cbn [fst]. rewrite M1. intros [w Hw]. exact (Hno w Hw). }
    { apply M2. eauto. }
    exists x. split; auto. rewrite Hsem, O2 in Hp. destruct (scalar_once _ _ _ _ _ Hsc Hp) as (v' & E & Hx).
    apply values_for_In in Hv. rewrite E in Hv. destruct Hv as [<-|[]]. exact Hx.
  - intros Hno. apply W2. constructor; [|constructor; [|constructor]]; cbn [fst].
    + rewrite M1. intros [v Hv]. apply (Hno v). apply in_or_app. now left.
    + rewrite M2. intros [v Hv]. apply (Hno v). apply in_or_app. now right.
Qed.
Print Assumptions C73_program.

(** C73. The variable of a composing vector: the values of the command line, then those of the config file. *)
Theorem C73_program_composing : forall fuel ds style args content ev kvs ls es nvs d name lexical_cast utf8_to_local tv t addr,
  program fuel ds style args content ev -> List.length args <= fuel ->
  command_line_says ds style args kvs ->
  SpecConfig.all_named ds -> SpecConfig.compatible ds ->
  SpecConfig.lines_of content ls -> Forall2 SpecConfig.line_is ls es -> file_says ds [] es nvs ->
  name <> [] -> exactly_one (fun d' => is_key d' [] name) ds d -> find ds name false false false = Ok d ->
  (forall kv, In kv (kvs ++ nvs) -> find ds (fst kv) false false false = Ok d -> fst kv = name) ->
  od_sem d = typed lexical_cast utf8_to_local tv -> tv_type tv = TVec t -> tv_composing tv = true -> tv_implicit tv = None ->
  tv_store_to tv = Some addr -> owned ds d addr -> (exists v, In (name, v) (kvs ++ nvs)) ->
  exists ys, Forall2 (converts lexical_cast t) (values_for name (kvs ++ nvs)) ys /\ written addr ev = [VVec t ys].
Proof.
  intros fuel ds style args content ev kvs ls es nvs d name lc ul tv t addr Hprog Hfu Hcl Ha Hcp Hl He Hs Hne Hone Hf Hcall Hsem Ht Hco Hi Hto Hown [v Hv].
  destruct (program_history _ _ _ _ _ _ _ _ _ _ Hprog Hfu Hcl Ha Hcp Hl He Hs) as (p1 & p2 & vm & Hst & Hn & D1 & D2 & O1 & O2).
  assert (Hds : Forall (fun pu => pr_desc (fst pu) = Some ds) [(p1, false); (p2, false)]).
  { constructor; [exact D1|constructor; [exact D2|constructor]]. }
  assert (Hc : called ds [(p1, false); (p2, false)] d name).
  { intros p u n Hin Hm Hfn. unfold mentions in Hm.
    assert (exists w, In (n, w) (kvs ++ nvs)) as [w Hw].
    { destruct Hin as [[= <- <-]|[[= <- <-]|[]]].
      - rewrite O1 in Hm. destruct (values_for n kvs) as [|w ws] eqn:E; [contradiction|]. exists w. apply in_or_app. left.
        apply values_for_In. rewrite E. now left.
      - rewrite O2 in Hm. destruct (values_for n nvs) as [|w ws] eqn:E; [contradiction|]. exists w. apply in_or_app. right.
        apply values_for_In. rewrite E. now left. }
    apply (Hcall (n, w)); auto. }
  pose proof (writes_of_notify lc ul ds d name tv addr Hne Hone Hsem Hto Hown _ vm ev Hst Hn Hds Hc Hf) as Hw.
  destruct (PropStore.C37_vector_concatenates lc ul tv t _ vm name Hst Hne Ht Hco Hi) as (tokss & ys & Htok & Hys & w & Ew & Ewv & _).
  - intros p u d' Hin (ds' & E1 & E2). rewrite Forall_forall in Hds. pose proof (Hds _ Hin) as E3. cbn [fst] in E3. congruence.
  - intros Hnm. inversion Hnm as [|? ? N1 N2]; subst. inversion N2 as [|? ? N3 _]; subst. cbn [fst] in *.
    unfold mentions in N1, N3. apply in_app_or in Hv. destruct Hv as [Hv|Hv]; apply values_for_In in Hv.
    + apply N1. rewrite O1. destruct (values_for name kvs); [destruct Hv|discriminate].
    + apply N3. rewrite O2. destruct (values_for name nvs); [destruct Hv|discriminate].
  - rewrite Ew in Hw. destruct Hw as (x & Ex & Hw). exists ys. split; [|congruence].
    assert (Et : List.concat tokss = List.concat (PropStore.all_occurrences [(p1, false); (p2, false)] name)).
    { inversion Htok as [|? t1 ? tt1 T1 T2]; subst. inversion T2 as [|? t2 ? tt2 T3 T4]; subst. inversion T4; subst.
      unfold decoded in T1, T3. cbn [fst snd] in T1, T3. subst. unfold PropStore.all_occurrences. cbn [map List.concat fst].
      now rewrite !app_nil_r, concat_app. }
    rewrite Et in Hys.
    replace (values_for name (kvs ++ nvs)) with (List.concat (PropStore.all_occurrences [(p1, false); (p2, false)] name)); auto.
    unfold PropStore.all_occurrences. cbn [map List.concat fst]. rewrite app_nil_r, O1, O2. unfold values_for.
    rewrite <- map_app, <- map_app, <- filter_app. generalize (map snd (filter (fun kv => str_eqb (fst kv) name) (kvs ++ nvs))).
    intros l. induction l as [|x0 l IH]; [reflexivity|]. cbn. now rewrite IH.
Qed.
Print Assumptions C73_program_composing.

(** An int with a variable and a default, and ints that compose. *)
Definition tlimit : typed_value :=
  mk_typed (TLex 0) (Some 1) [] (Some (VLex 0 10, $"10")) None false false false false None.
Definition tpath : typed_value :=
  mk_typed (TVec TString) (Some 2) [] None None true false false false None.
Definition o_limit := mk_od $"-l" [$"limit"] $"limit" (typed lex local tlimit).
Definition o_path := mk_od $"-p" [$"run.path"] $"path" (typed lex local tpath).
Definition o_fast := mk_od [] [$"fast"] $"fast" (typed lex local (bool_switch (Some 3))).
Definition prog_ds : list option_description := [o_limit; o_path; o_fast].
Definition prog_args : list str := [$"--run.path=a"; $"--lim=7"; $"-pb"].
Definition prog_file : list str := [$"limit = 8"; []; $"[run]"; $"path=c # more"].

Definition ok_parsed (r : outcome parsed_options) : parsed_options :=
  match r with Ok p => p | _ => mk_parsed [] None 0 end.

Lemma prog_runs args content ev :
  let p1 := ok_parsed (parse_command_line 9 args prog_ds 0 None) in
  let p2 := ok_parsed (parse_config_file content prog_ds false) in
  let vm := fst (PropStore.run_all vm_new [(p1, false); (p2, false)]) in
  parse_command_line 9 args prog_ds 0 None = Ok p1 -> parse_config_file content prog_ds false = Ok p2 ->
  snd (PropStore.run_all vm_new [(p1, false); (p2, false)]) = Ok tt -> notify vm = (ev, Ok tt) ->
  program 9 prog_ds 0 args content ev.
Proof.
  intros p1 p2 vm E1 E2 Hs Hn. apply PropStore.run_all_stores in Hs. inversion Hs as [|? ? ? vm1 ? ? S1 S2]; subst.
  inversion S2 as [|? ? ? vm2 ? ? S3 S4]; subst. inversion S4; subst.
  exists p1, p2, vm1, (fst (PropStore.run_all vm_new [(p1, false); (p2, false)])). repeat (split; [assumption|]). assumption.
Qed.

Lemma prog_named : SpecConfig.all_named prog_ds.
Proof.
  repeat constructor; eexists; (split; [eexists; reflexivity|discriminate]).
Qed.
Lemma prog_compatible : SpecConfig.compatible prog_ds.
Proof.
  intros p q (d & Hd & r & E). exfalso. destruct Hd as [<-|[<-|[<-|[]]]]; cbn in E; injection E as E _;
    change [c_star] with ($"*" : str) in E; apply (f_equal (@rev _)) in E; rewrite rev_app_distr in E; discriminate.
Qed.

Lemma prog_key d name : name <> [] -> In d prog_ds -> is_key d [] name <-> od_longs d = [name].
Proof.
  intros Hne Hd. split.
  - intros [(f & r & E & _ & ->)|[(f & r & E & _ & ->)|[E _]]]; [|contradiction|];
      destruct Hd as [<-|[<-|[<-|[]]]]; cbn in E; try discriminate; injection E as <- <-; reflexivity.
  - intros E. left. exists name, []. split; auto. split; auto.
    destruct Hd as [<-|[<-|[<-|[]]]]; cbn in E; injection E as <-; cbn; intuition discriminate.
Qed.

Lemma prog_owned d addr : In d prog_ds -> match addr with 1 => d = o_limit | 2 => d = o_path | _ => False end -> owned prog_ds d addr.
Proof.
  intros Hd Ha d' Hd' Hn a ev r H.
  assert (W : forall tv a', tv_store_to tv = Some a' -> a' <> addr -> vs_notify (typed lex local tv) a = (ev, r) -> written addr ev = []).
  { intros tv a' E1 E2 E3. cbn [typed vs_notify] in E3. unfold tv_notify in E3. rewrite E1 in E3.
    apply Nat.eqb_neq in E2. destruct (any_cast (tv_type tv) a); [|now injection E3 as <- _].
    destruct (tv_notifier tv) as [[f body]|]; injection E3 as <- _; cbn [app written flat_map]; now rewrite E2. }
  destruct addr as [|[|[|]]]; try contradiction; subst d;
    destruct Hd' as [<-|[<-|[<-|[]]]]; try congruence; (eapply W; [|idtac|exact H]; [reflexivity|discriminate]).
Qed.

Example C73_ex :
  let c := mk_cl default_style false prog_ds None None None in
  let kvs := [($"run.path", $"a"); ($"limit", $"7"); ($"run.path", $"b")] in
  let nvs := [($"limit", $"8"); ($"run.path", $"c")] in
  let ev := [EvStore 3 (VBool false); EvStore 1 (VLex 0 7); EvStore 2 (VVec TString [VString $"a"; VString $"b"; VString $"c"])] in
  program 9 prog_ds 0 prog_args (SpecConfig.unlines prog_file) ev
  /\ command_line_says prog_ds 0 prog_args kvs
  /\ SpecConfig.all_named prog_ds /\ SpecConfig.compatible prog_ds
  /\ SpecConfig.lines_of (SpecConfig.unlines prog_file) prog_file
  /\ (exists es, Forall2 SpecConfig.line_is prog_file es /\ file_says prog_ds [] es nvs)
  /\ exactly_one (fun d' => is_key d' [] $"limit") prog_ds o_limit
  /\ find prog_ds $"limit" false false false = Ok o_limit
  /\ (forall kv, In kv (kvs ++ nvs) -> find prog_ds (fst kv) false false false = Ok o_limit -> fst kv = $"limit")
  /\ owned prog_ds o_limit 1 /\ owned prog_ds o_path 2
  /\ written 1 ev = [VLex 0 7] /\ afterwards 1 (VLex 0 99) ev = VLex 0 7.
Proof.
  split; [apply prog_runs; [reflexivity|reflexivity|reflexivity|]; reflexivity|].
  assert (T : forall typed key d, lookup (mk_cl default_style false prog_ds None None None) typed = Ok (Some d) ->
    vs_min (od_sem d) = 1%Z -> vs_max (od_sem d) = 1%Z -> is_key d typed key -> key <> [] ->
    unambiguous (mk_cl default_style false prog_ds None None None) key ->
    takes_one (mk_cl default_style false prog_ds None None None) typed key).
  { intros typed key d H1 H2 H3 H4 H5 H6. exists d. split; [exact H1|]. rewrite H2, H3.
    split; [discriminate|]. split; [discriminate|]. auto. }
  split.
  { exists default_style. split; [reflexivity|]. intros c. constructor; [|constructor; [|constructor; [|constructor]]].
    - exists $"run.path". split.
      + apply (sp_long c $"run.path" $"a"); try reflexivity; try discriminate. unfold without; cbn; intuition discriminate.
      + apply (T _ _ o_path); try reflexivity; try discriminate; [|now eexists].
        left. exists $"run.path", []. split; [reflexivity|]. split; [cbn; intuition discriminate|reflexivity].
    - exists $"lim". split.
      + apply (sp_long c $"lim" $"7"); try reflexivity; try discriminate. unfold without; cbn; intuition discriminate.
      + apply (T _ _ o_limit); try reflexivity; try discriminate; [|now eexists].
        left. exists $"limit", []. split; [reflexivity|]. split; [cbn; intuition discriminate|reflexivity].
    - exists $"-p". split.
      + apply (sp_short c "p"%char $"b"); try reflexivity; try discriminate.
        split; [reflexivity|]. split; [|discriminate]. split; [discriminate|]. repeat constructor; discriminate.
      + apply (T _ _ o_path); try reflexivity; try discriminate; [|now eexists].
        left. exists $"run.path", []. split; [reflexivity|]. split; [cbn; intuition discriminate|reflexivity]. }
  split; [exact prog_named|]. split; [exact prog_compatible|].
  split.
  { split; [|now left]. repeat constructor; PropConfig.solve_without. }
  split.
  { exists [SpecConfig.Assign $"limit" $"8"; SpecConfig.Nothing; SpecConfig.Section_ $"run"; SpecConfig.Assign $"path" $"c"]. split.
    - constructor; [|constructor; [|constructor; [|constructor; [|constructor]]]].
      + apply (SpecConfig.li_assign [] $"limit" $" " $" " $"8" [] []); PropConfig.solve_line.
      + apply (SpecConfig.li_nothing [] []); PropConfig.solve_line.
      + apply (SpecConfig.li_section [] $"run" [] []); PropConfig.solve_line.
      + apply (SpecConfig.li_assign [] $"path" [] [] $"c" $" " $"# more"); PropConfig.solve_line.
    - apply (fs_assign prog_ds [] $"limit" $"8").
      { left. exists o_limit. split; [now left|]. eexists. reflexivity. }
      apply fs_nothing. apply (fs_section prog_ds [] $"run" $"run.").
      { right. split; [discriminate|]. split; [|reflexivity]. intros [t E].
        apply (f_equal (@rev _)) in E. rewrite rev_app_distr in E. discriminate. }
      apply (fs_assign prog_ds $"run." $"path" $"c"); [|constructor].
      left. exists o_path. split; [right; now left|]. eexists. reflexivity. }
  split.
  { exists [], [o_path; o_fast]. split; [reflexivity|]. split.
    - apply prog_key; [discriminate|now left|reflexivity].
    - constructor; [|constructor; [|constructor]]; (rewrite prog_key; [discriminate|discriminate|cbn; auto]). }
  split; [reflexivity|]. split.
  { intros kv Hin. cbn [app In] in Hin.
    destruct Hin as [<-|[<-|[<-|[<-|[<-|[]]]]]]; cbn [fst]; intros Hf; try reflexivity; exfalso;
      (assert (E : find prog_ds $"run.path" false false false = Ok o_path) by reflexivity);
      rewrite E in Hf; apply (f_equal (fun r => match r with Ok d => od_short d | _ => [] end)) in Hf; discriminate. }
  split; [apply prog_owned; cbn; auto|]. split; [apply prog_owned; cbn; auto|]. split; reflexivity.
Qed.

(** C74. [store] succeeds if and only if, for every option by itself, the option is found and all its occurrences
    can be parsed, one after another; options that an earlier source has decided are not looked at. *)
Theorem C74_store_succeeds : forall p ds vm utf8,
  pr_desc p = Some ds ->
  ((exists vm', store p vm utf8 = (vm', Ok tt))
   <-> (forall name, name <> [] -> mentions p name -> ~ In name (vm_final vm) ->
        exists d a, find ds name false false false = Ok d
          /\ parsed_all (od_sem d) utf8 (given (entry vm name)) (occurrences (pr_options p) name) a)).
Proof. exact store_succeeds_lemma. Qed.
Print Assumptions C74_store_succeeds.

(** C74. Sources that say the same about every option, whatever the order in which they mention different options,
    give the same entries and the same effects of [notify]. *)
Theorem C74_order_irrelevant : forall h h' vm,
  Forall2 (fun pu pu' => says_the_same (fst pu) (fst pu') /\ snd pu = snd pu') h h' -> stores vm_new h vm ->
  exists vm', stores vm_new h' vm' /\ (forall name, entry vm name = entry vm' name) /\ notify vm = notify vm'.
Proof.
  intros h h' vm Hf H. destruct (stores_same h h' Hf vm_new vm_new vm (same_values_refl _) eq_refl H) as (vm' & H' & Hv & Hr).
  exists vm'. split; auto. split; [apply Hv|].
  destruct (stores_sorted _ _ _ H) as [S1 _]; [constructor|constructor|].
  destruct (stores_sorted _ _ _ H') as [S2 _]; [constructor|constructor|].
  unfold notify. now rewrite Hr, (same_map vm vm' S1 S2 Hv).
Qed.
Print Assumptions C74_order_irrelevant.

Lemma cl_parsed fuel ds style args kvs :
  command_line_says ds style args kvs -> List.length args <= fuel ->
  exists p s, parse_command_line fuel args ds style None = Ok p /\ set_style style = Ok s
  /\ pr_desc p = Some ds /\ pr_prefix p = cl_prefix (mk_cl s false ds None None None)
  /\ (forall name, occurrences (pr_options p) name = map (fun v : str => [v]) (values_for name kvs)).
Proof.
  intros (s & Es & Hk) Hfu.
  set (c := mk_cl s false ds None None None) in *. destruct (ParseFacts.round_trip_lemma c args kvs) as (res & Hres & Hno); [now split|auto|].
  assert (Hr : run fuel c args = Ok res).
  { unfold parse in Hres. rewrite <- Hres. now apply PropCmdline.C11_run_terminates. }
  unfold parse_command_line. rewrite Es. cbn [bind]. unfold parser_run. fold c. rewrite Hr. cbn [bind].
  eexists. exists s. split; [reflexivity|]. split; auto. split; auto. split; auto.
  intros name. cbn [pr_options]. rewrite (named_occurrences _ _ _ _ name Hno). apply pairs_occurrences.
Qed.

Lemma file_parsed ds content ls es nvs :
  SpecConfig.all_named ds -> SpecConfig.compatible ds ->
  SpecConfig.lines_of content ls -> Forall2 SpecConfig.line_is ls es -> file_says ds [] es nvs ->
  exists p, parse_config_file content ds false = Ok p /\ pr_desc p = Some ds /\ pr_prefix p = 0%Z
  /\ (forall name, occurrences (pr_options p) name = map (fun v : str => [v]) (values_for name nvs)).
Proof.
  intros Ha Hco Hl He Hs. rewrite ConfigFacts.parse_config_shape.
  rewrite (ConfigFacts.reads_fun _ _ _ _ _ (ConfigFacts.config_reads ds false content ls es Ha Hco Hl He) _ (file_reads ds [] es nvs Hs)).
  cbn [bind]. eexists. split; [reflexivity|]. split; auto. split; auto. intros name. apply config_occurrences.
Qed.

(** C74. Tokens that spell different options can be reordered on the command line, and lines that assign to
    different options in the config file (sections included), without any effect on the program. *)
Theorem C74_program : forall fuel ds style args args' content content' ev kvs kvs' ls ls' es es' nvs nvs',
  List.length args <= fuel -> List.length args' <= fuel ->
  command_line_says ds style args kvs -> command_line_says ds style args' kvs' ->
  SpecConfig.all_named ds -> SpecConfig.compatible ds ->
  SpecConfig.lines_of content ls -> Forall2 SpecConfig.line_is ls es -> file_says ds [] es nvs ->
  SpecConfig.lines_of content' ls' -> Forall2 SpecConfig.line_is ls' es' -> file_says ds [] es' nvs' ->
  (forall name, values_for name kvs = values_for name kvs') -> (forall name, values_for name nvs = values_for name nvs') ->
  program fuel ds style args content ev -> program fuel ds style args' content' ev.
Proof.
  intros fuel ds style args args' content content' ev kvs kvs' ls ls' es es' nvs nvs' F1 F2 C1 C2 Ha Hco L1 E1 S1 L2 E2 S2 V1 V2.
  intros (p1 & p2 & vm1 & vm2 & P1 & T1 & P2 & T2 & Hn).
  destruct (cl_parsed fuel ds style args kvs C1 F1) as (q1 & s & Q1 & Es & D1 & X1 & O1).
  destruct (cl_parsed fuel ds style args' kvs' C2 F2) as (q1' & s' & Q1' & Es' & D1' & X1' & O1').
  destruct (file_parsed ds content ls es nvs Ha Hco L1 E1 S1) as (q2 & Q2 & D2 & X2 & O2).
  destruct (file_parsed ds content' ls' es' nvs' Ha Hco L2 E2 S2) as (q2' & Q2' & D2' & X2' & O2').
  assert (p1 = q1) by congruence. assert (p2 = q2) by congruence. assert (s' = s) by congruence. subst p1 p2 s'.
  destruct (C74_order_irrelevant [(q1, false); (q2, false)] [(q1', false); (q2', false)] vm2) as (vm' & Hst & _ & Hn').
  - constructor; [|constructor; [|constructor]]; cbn [fst snd]; (split; [|reflexivity]);
      (split; [congruence|]; split; [congruence|]); intros name _.
    + now rewrite O1, O1', V1.
    + now rewrite O2, O2', V2.
  - econstructor; [exact T1|]. econstructor; [exact T2|]. constructor.
  - inversion Hst as [|? ? ? vma ? ? A1 A2]; subst. inversion A2 as [|? ? ? vmb ? ? A3 A4]; subst. inversion A4; subst.
    exists q1', q2', vma, vm'. repeat (split; [assumption|]). congruence.
Qed.
Print Assumptions C74_program.

(** C75. Sources that mention different options can be stored in either order: the entries are the same, and
    unless a required option is missing so are the effects of [notify]. *)
Theorem C75_disjoint_sources_commute : forall h1 p1 u1 p2 u2 h2 vm,
  pr_desc p1 = pr_desc p2 -> disjoint p1 p2 ->
  stores vm_new (h1 ++ (p1, u1) :: (p2, u2) :: h2) vm ->
  exists vm', stores vm_new (h1 ++ (p2, u2) :: (p1, u1) :: h2) vm'
  /\ (forall name, entry vm name = entry vm' name)
  /\ ((forall name, ~ missing (h1 ++ (p1, u1) :: (p2, u2) :: h2) vm name) -> notify vm = notify vm').
Proof.
  intros h1 p1 u1 p2 u2 h2 vm Ed Hd H. pose proof H as H0. apply stores_app in H. destruct H as (vma & H1 & H2).
  inversion H2 as [|? ? ? vmb ? ? S1 H3]; subst. inversion H3 as [|? ? ? vmc ? ? S2 H4]; subst.
  destruct (swap_lemma p1 u1 p2 u2 vma vmb vmc Ed Hd S1 S2) as (vmb' & vmc' & S1' & S2' & Hv).
  destruct (stores_same_values h2 vmc vmc' vm Hv H4) as (vm' & H4' & Hv').
  exists vm'. assert (H' : stores vm_new (h1 ++ (p2, u2) :: (p1, u1) :: h2) vm').
  { apply stores_app. exists vma. split; auto. econstructor; [exact S1'|]. econstructor; [exact S2'|]. exact H4'. }
  split; auto. split; [apply Hv'|]. intros Hm.
  destruct (stores_sorted _ _ _ H0) as [R1 _]; [constructor|constructor|].
  destruct (stores_sorted _ _ _ H') as [R2 _]; [constructor|constructor|].
  rewrite (nothing_missing_lemma _ _ H0 Hm), (nothing_missing_lemma _ _ H').
  - now rewrite (same_map vm vm' R1 R2 Hv').
  - intros name (Hne & Hex & Hno). apply (Hm name). split; auto. split.
    + clear - Hex. unfold declarations in *. rewrite map_app, concat_app in *. cbn [map List.concat fst] in *.
      rewrite !Exists_app in *. tauto.
    + intros (v & x & E1 & E2). apply Hno. exists v, x. split; auto. rewrite <- (proj1 Hv'). exact E1.
Qed.
Print Assumptions C75_disjoint_sources_commute.

(** C75. If both mention the option, the order matters (C36). *)
Theorem C75_overlapping_refuted :
  exists p1 p2 vm vm', pr_desc p1 = pr_desc p2 /\ stores vm_new [(p1, false); (p2, false)] vm
    /\ stores vm_new [(p2, false); (p1, false)] vm'
    /\ entry vm $"number" <> None /\ entry vm $"number" <> entry vm' $"number".
Proof.
  exists PropStore.src2, PropStore.src3, (fst (PropStore.run_all vm_new [(PropStore.src2, false); (PropStore.src3, false)])),
    (fst (PropStore.run_all vm_new [(PropStore.src3, false); (PropStore.src2, false)])).
  split; [reflexivity|]. split; [PropStore.run_stores|]. split; [PropStore.run_stores|].
  split; intros H; apply (f_equal (option_map vv_value)) in H; vm_compute in H; discriminate.
Qed.
Print Assumptions C75_overlapping_refuted.

Example C74_ex :
  let a := PropStore.source [PropStore.given_as $"include" [$"1"]; PropStore.given_as $"number" [$"5"]; PropStore.given_as $"include" [$"2"]] in
  let b := PropStore.source [PropStore.given_as $"number" [$"5"]; PropStore.given_as $"include" [$"1"]; PropStore.given_as $"include" [$"2"]] in
  let vm := fst (PropStore.run_all vm_new [(a, false)]) in
  says_the_same a b /\ stores vm_new [(a, false)] vm
  /\ option_map vv_value (entry vm $"include") = Some (Some (VVec (TLex 0) [VLex 0 1; VLex 0 2])).
Proof.
  split; [|split; [PropStore.run_stores|PropStore.calc]].
  split; [reflexivity|]. split; [reflexivity|]. intros name _. unfold occurrences. cbn [pr_options PropStore.source filter map].
  cbn [PropStore.given_as po_key po_unreg po_value negb]. rewrite !andb_true_r.
  destruct (str_eqb_spec $"include" name) as [<-|]; [reflexivity|].
  destruct (str_eqb $"number" name); reflexivity.
Qed.

Example C75_ex :
  let src := PropStore.source [PropStore.given_as $"number" [$"5"]] in
  let vm := fst (PropStore.run_all vm_new ([] ++ (PropStore.src1, false) :: (src, false) :: [])) in
  disjoint PropStore.src1 src /\ stores vm_new ([] ++ (PropStore.src1, false) :: (src, false) :: []) vm
  /\ (forall name, ~ missing ([] ++ (PropStore.src1, false) :: (src, false) :: []) vm name).
Proof.
  intros src vm. split; [|split; [PropStore.run_stores|]].
  - intros name _ [H1 H2]. unfold mentions, occurrences in *. cbn [pr_options PropStore.source PropStore.src1 src filter map] in *.
    cbn [PropStore.given_as po_key po_unreg po_value negb] in *. rewrite !andb_true_r in *.
    destruct (str_eqb_spec $"number" name) as [<-|]; [|now apply H2]. now apply H1.
  - intros name (Hne & Hex & Hno). apply Exists_exists in Hex. destruct Hex as (zd & Hin & Hk & Hreq).
    cbn [declarations app map List.concat PropStore.src1 PropStore.source src pr_desc pr_prefix fst] in Hin.
    assert (E : name = $"name").
    { unfold PropStore.known in Hin. cbn [map app In] in Hin.
      repeat (destruct Hin as [<-|Hin]; [cbn [snd] in *; try discriminate Hreq|]); try contradiction;
        (destruct Hk as [(f & r & E & _ & ->)|[(f & r & _ & _ & ->)|[E _]]]; [|contradiction|discriminate E]);
        cbn in E; injection E as <- _; reflexivity. }
    assert (F : option_map vv_value (entry vm $"name") = Some (Some (VString $"x"))) by PropStore.calc.
    subst name. apply Hno. destruct (entry vm $"name") as [v|] eqn:Ev; [|discriminate F].
    exists v, (VString $"x"). split; [exact Ev|]. now injection F.
Qed.
