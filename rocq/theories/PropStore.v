(** C36-C44, C46-C48, C59: storing values, notification, value semantics. *)

From Coq Require Import List Ascii String NArith ZArith Bool Arith Lia Sorting.Sorted.
From Verif Require Import Base Errors Spec BaseFacts Values OptDesc SpecLookup LookupFacts Positional Cmdline
  Parsers VarMap SpecCmdline CongruenceFacts SoundFacts SpecStore StoreFacts SemFacts Samples.
Import ListNotations.

(** Options for the examples: an int; ints that compose; a string with a default, a variable
    and a notifier that refuses the empty string; a required string; a switch. *)
Definition refuses_empty (v : value) : option exn :=
  match v with VString [] => Some (mk_validation vk_invalid_option) | _ => None end.
Definition tmode : typed_value :=
  mk_typed TString (Some 1) [] (Some (VString $"fast", $"fast")) None false false false false
    (Some (2, refuses_empty)).
Definition tname : typed_value :=
  mk_typed TString None [] None None false false false true None.
Definition o_include := mk_od $"-I" [$"include"] $"ints" (typed lex local tints).
Definition o_mode := mk_od [] [$"mode"] $"mode" (typed lex local tmode).
Definition o_name := mk_od [] [$"name"] $"name" (typed lex local tname).
Definition o_quiet := mk_od $"-q" [$"quiet"] $"quiet" (typed lex local (bool_switch (Some 3))).
Definition known : list option_description := [o_number; o_include; o_mode; o_name; o_quiet; o_level].
Definition given_as (key : str) (vals : list str) : popt := mk_popt key (-1) vals [key] false false.
Definition source (os : list popt) : parsed_options := mk_parsed os (Some known) allow_long.

Definition src1 := source [given_as $"include" [$"1"; $"2"]; given_as $"name" [$"x"]].
Definition src2 := source [given_as $"number" [$"5"]; given_as $"include" [$"3"]].
Definition src3 := source [given_as $"number" [$"6"]; given_as $"include" [$"4"; $"5"]].

(** Running the sources of an example. *)
Fixpoint run_all (vm : variables_map) (h : history) : variables_map * outcome unit :=
  match h with
  | [] => (vm, Ok tt)
  | (p, u) :: h' =>
      match snd (store p vm u) with
      | Ok _ => run_all (fst (store p vm u)) h'
      | r => (fst (store p vm u), r)
      end
  end.
Lemma run_all_stores vm h : snd (run_all vm h) = Ok tt -> stores vm h (fst (run_all vm h)).
Proof.
  revert vm. induction h as [|[p u] h IH]; intros vm H; cbn [run_all] in *; [constructor|].
  destruct (store p vm u) as [vm1 [[]|e|x|]] eqn:E; try discriminate. cbn [fst snd] in *.
  eapply sts_cons; [exact E|]. now apply IH.
Qed.
Lemma pair_is {A B} (x : A * B) r : snd x = r -> x = (fst x, r).
Proof. destruct x. cbn. congruence. Qed.
Ltac run_stores := apply run_all_stores; vm_compute; reflexivity.
Ltac run_store := apply pair_is; vm_compute; reflexivity.
Ltac calc := vm_compute; reflexivity.
Ltac unmentioned := repeat (apply Forall_cons; [cbn; unfold mentions; intros H; apply H; reflexivity|]); apply Forall_nil.

(** C36. The first source that mentions a non-composing option decides its value: all its
    occurrences there are parsed in order, starting from nothing; what the sources before
    and after it say does not matter. *)
Theorem C36_first_source_wins : forall before p utf8 after vm name d,
  stores vm_new (before ++ (p, utf8) :: after) vm -> name <> [] ->
  never_mentioned before name -> mentions p name -> resolves p name d -> vs_composing (od_sem d) = false ->
  exists a, parsed_all (od_sem d) utf8 None (occurrences (pr_options p) name) a
    /\ entry vm name = Some (mk_vv a false (Some (od_sem d))).
Proof. exact first_wins_lemma. Qed.
Print Assumptions C36_first_source_wins.

Example C36_ex :
  let vm := fst (run_all vm_new [(src1, false); (src2, false); (src3, false)]) in
  stores vm_new ([(src1, false)] ++ (src2, false) :: [(src3, false)]) vm
  /\ never_mentioned [(src1, false)] $"number" /\ mentions src2 $"number" /\ mentions src3 $"number"
  /\ resolves src2 $"number" o_number
  /\ option_map vv_value (entry vm $"number") = Some (Some (VLex 0 5)).
Proof.
  split; [run_stores|]. split; [unmentioned|]. split; [discriminate|]. split; [discriminate|].
  split; [exists known; split; reflexivity|]. calc.
Qed.

(** C37. If the option is composing in every source that mentions it, its value is that of
    all its occurrences in all sources, parsed one after the other. *)
Theorem C37_composing_accumulates : forall h vm name,
  stores vm_new h vm -> name <> [] ->
  (forall p u d, In (p, u) h -> mentions p name -> resolves p name d -> vs_composing (od_sem d) = true) ->
  accumulated name None h (given (entry vm name)).
Proof. intros h vm name H Hne Hc. now apply (accumulates vm_new h vm name H Hne (fun x => x) Hc). Qed.
Print Assumptions C37_composing_accumulates.

(** The occurrences of [name] in all sources of the history. *)
Definition all_occurrences (h : history) (name : str) : list (list str) :=
  List.concat (map (fun pu => occurrences (pr_options (fst pu)) name) h).

Lemma parsed_all_app s u a l1 l2 b :
  parsed_all s u a (l1 ++ l2) b <-> exists m, parsed_all s u a l1 m /\ parsed_all s u m l2 b.
Proof.
  split.
  - revert a. induction l1 as [|x l1 IH]; intros a H; [exists a; split; [constructor|auto]|].
    inversion H as [|? ? a' ? ? H1 H2]; subst. destruct (IH _ H2) as (m & M1 & M2). exists m. split; auto.
    econstructor; eauto.
  - intros (m & H1 & H2). induction H1; auto. cbn [app]. econstructor; eauto.
Qed.

Lemma vector_history lc ul tv t h name : tv_type tv = TVec t -> tv_implicit tv = None ->
  (forall p u d, In (p, u) h -> resolves p name d -> od_sem d = typed lc ul tv) ->
  forall a b, accumulated name a h b -> forall vs, vec_content t a vs ->
  exists tokss ys, Forall2 (fun pu toks => decoded ul (snd pu) (List.concat (occurrences (pr_options (fst pu)) name)) toks) h tokss
    /\ Forall2 (converts lc t) (List.concat tokss) ys /\ vec_content t b (vs ++ ys)
    /\ (b = None -> a = None /\ never_mentioned h name).
Proof.
  intros Ht Hi Hs a b Ha. induction Ha as [|a p u d a' h b Hr Hp _ IH|a p u h b Hn _ IH]; intros vs Hv.
  - exists [], []. split; [constructor|]. split; [constructor|]. rewrite app_nil_r. split; [exact Hv|]. intros ->. split; [reflexivity|constructor].
  - rewrite (Hs p u d (or_introl eq_refl) Hr) in Hp.
    destruct (vector_all lc ul tv t u Ht _ a vs a' (or_introl Hi) Hv Hp) as (occs' & ys & Hd & Hc & Hv').
    destruct (IH (fun q v dd Hin => Hs q v dd (or_intror Hin)) (vs ++ ys) Hv') as (tokss & ys2 & H1 & H2 & H3 & H4).
    exists (List.concat occs' :: tokss), (ys ++ ys2). split; [|split; [|split]].
    + constructor; [|exact H1]. cbn [fst snd]. clear - Hd. unfold decoded_all in Hd. unfold decoded in *. destruct u.
      * induction Hd as [|x y xs ys E _ IH]; [constructor|]. cbn [List.concat]. now apply Forall2_app.
      * induction Hd as [|x y xs ys E _ IH]; [reflexivity|]. cbn [List.concat]. congruence.
    + cbn [List.concat]. now apply Forall2_app.
    + now rewrite app_assoc.
    + intros Eb. destruct (H4 Eb) as [-> Hnm]. clear - Hp Hnm Hv Ht Hi.
      assert (K : a = None /\ occurrences (pr_options p) name = []).
      { remember None as z eqn:Ez in Hp. revert vs Hv. induction Hp as [x|x xs a1 occs y H1 H2 IH]; intros vs Hv; [auto|].
        exfalso. cbn [typed vs_parse] in H1. apply codecvt_Ok in H1. destruct H1 as (zs & _ & H1).
        rewrite tv_xparse_no_implicit, Ht in H1 by auto. apply (vector_Ok lc ul t _ vs) in H1; [|exact Hv].
        destruct H1 as (ws & _ & ->). destruct (IH Ez (vs ++ ws)) as [K _]; [now left|]. discriminate K. }
      destruct K as [-> K]. split; [reflexivity|]. constructor; [|exact Hnm]. unfold mentions. cbn [fst]. intros M. now apply M.
  - destruct (IH (fun q v dd Hin => Hs q v dd (or_intror Hin)) vs Hv) as (tokss & ys2 & H1 & H2 & H3 & H4).
    assert (E : occurrences (pr_options p) name = []).
    { unfold mentions in Hn. destruct (occurrences (pr_options p) name); auto. contradiction Hn. discriminate. }
    exists ([] :: tokss), ys2. split; [|split; [|split]]; auto.
    + constructor; [|exact H1]. cbn [fst snd]. rewrite E. unfold decoded. destruct u; [constructor|reflexivity].
    + intros Eb. destruct (H4 Eb) as [-> Hnm]. split; [reflexivity|]. constructor; auto.
Qed.

(** C37. For a vector option declared the same way everywhere that is the concatenation
    of the converted tokens (after the conversion to the local encoding of those that are UTF-8). *)
Theorem C37_vector_concatenates : forall lexical_cast utf8_to_local tv t h vm name,
  stores vm_new h vm -> name <> [] -> tv_type tv = TVec t -> tv_composing tv = true -> tv_implicit tv = None ->
  (forall p u d, In (p, u) h -> resolves p name d -> od_sem d = typed lexical_cast utf8_to_local tv) ->
  ~ never_mentioned h name ->
  exists tokss ys,
    Forall2 (fun pu toks => decoded utf8_to_local (snd pu) (List.concat (occurrences (pr_options (fst pu)) name)) toks) h tokss
    /\ Forall2 (converts lexical_cast t) (List.concat tokss) ys
    /\ exists v, entry vm name = Some v /\ vv_value v = Some (VVec t ys) /\ vv_defaulted v = false.
Proof.
  intros lc ul tv t h vm name H Hne Ht Hco Hi Hs Hm.
  destruct (mentioned_given _ _ _ name H Hne) as (v & Ev & Hd); [right; split; [intros []|auto]|].
  assert (Ha : accumulated name None h (given (entry vm name))).
  { apply C37_composing_accumulates; auto. intros p u d Hin _ Hr. rewrite (Hs p u d Hin Hr). exact Hco. }
  destruct (vector_history lc ul tv t h name Ht Hi Hs _ _ Ha []) as (tokss & ys & H1 & H2 & H3 & H4); [right; auto|].
  exists tokss, ys. split; [exact H1|]. split; [exact H2|]. exists v. rewrite Ev in H3, H4. unfold given in H3, H4. rewrite Hd in H3, H4.
  split; [exact Ev|]. split; [|exact Hd]. destruct H3 as [H3|[H3 _]]; [exact H3|]. destruct (H4 H3) as [_ K]. contradiction.
Qed.
Print Assumptions C37_vector_concatenates.

Example C37_ex :
  let h := [(src1, false); (src2, false); (src3, false)] in
  let vm := fst (run_all vm_new h) in
  stores vm_new h vm /\ tv_composing tints = true
  /\ List.concat (all_occurrences h $"include") = [$"1"; $"2"; $"3"; $"4"; $"5"]
  /\ option_map vv_value (entry vm $"include")
     = Some (Some (VVec (TLex 0) [VLex 0 1; VLex 0 2; VLex 0 3; VLex 0 4; VLex 0 5])).
Proof. split; [run_stores|]. split; [reflexivity|]. split; calc. Qed.

(** C38. An option that no source mentions has the first default that the descriptions
    stored so far declare for it (and is marked as defaulted), or is absent if there is none; *)
Theorem C38_unmentioned_has_default : forall h vm name,
  stores vm_new h vm -> name <> [] -> never_mentioned h name ->
  default_entry (described h) name (entry vm name).
Proof.
  intros h vm name H Hne Hm. destruct (stores_unmentioned _ _ _ _ H Hne Hm) as [_ [(v & E & _)|[_ Hd]]]; auto.
  discriminate.
Qed.
Print Assumptions C38_unmentioned_has_default.

(** C38. with one description, and the option declared once in it, simply its default; *)
Theorem C38_same_description : forall h vm ds d name,
  stores vm_new h vm -> name <> [] -> h <> [] -> Forall (fun pu => pr_desc (fst pu) = Some ds) h ->
  exactly_one (fun d' => is_key d' [] name) ds d -> never_mentioned h name ->
  entry vm name = match vs_default (od_sem d) with
                  | Some def => Some (mk_vv def true (Some (od_sem d)))
                  | None => None
                  end.
Proof.
  intros h vm ds d name H Hne Hh Hds (l1 & l2 & -> & Hd & Hl) Hm.
  pose proof (C38_unmentioned_has_default h vm name H Hne Hm) as He.
  apply Forall_app in Hl. destruct Hl as [Hl1 Hl2].
  assert (Hdesc : exists ds', described h = (l1 ++ d :: l2) ++ ds' /\ Forall (fun d' => is_key d' [] name -> d' = d) ds').
  { destruct h as [|pu h]; [contradiction|]. inversion Hds as [|? ? Hp Hr]; subst.
    unfold described. cbn [map List.concat]. rewrite Hp. eexists. split; [reflexivity|].
    clear - Hr Hl1 Hl2. induction h as [|pu' h IH]; [constructor|]. inversion Hr as [|? ? Hp Hr']; subst.
    cbn [map List.concat]. rewrite Hp. apply Forall_app. split; auto. apply Forall_app. split.
    - eapply Forall_impl; [|exact Hl1]. cbn. tauto.
    - constructor; auto. eapply Forall_impl; [|exact Hl2]. cbn. tauto. }
  destruct Hdesc as (ds' & Ed & Hd'). rewrite Ed in He.
  assert (Hno : vs_default (od_sem d) = None -> entry vm name = None).
  { intros Hn. inversion He as [m1 d0 m2 def E Hk Hdf Hf Hx|Hf Hx]; auto. exfalso.
    assert (Hin : In d0 ((l1 ++ d :: l2) ++ ds')) by (rewrite E; apply in_or_app; right; now left).
    assert (d0 = d).
    { rewrite !in_app_iff in Hin. cbn in Hin. rewrite Forall_forall in Hl1, Hl2, Hd'. destruct Hin as [[Hi|[Hi|Hi]]|Hi]; auto.
      - contradiction (Hl1 d0 Hi).
      - contradiction (Hl2 d0 Hi). }
    congruence. }
  destruct (vs_default (od_sem d)) as [def|] eqn:Edf; auto.
  inversion He as [m1 d0 m2 def0 E Hk Hdf Hf Hx|Hf Hx].
  - assert (Hin : In d0 ((l1 ++ d :: l2) ++ ds')) by (rewrite E; apply in_or_app; right; now left).
    assert (d0 = d).
    { rewrite !in_app_iff in Hin. cbn in Hin. rewrite Forall_forall in Hl1, Hl2, Hd'. destruct Hin as [[Hi|[Hi|Hi]]|Hi]; auto.
      - contradiction (Hl1 d0 Hi).
      - contradiction (Hl2 d0 Hi). }
    subst d0. rewrite Edf in Hdf. injection Hdf as <-. reflexivity.
  - exfalso. rewrite Forall_forall in Hf. rewrite (Hf d) in Edf; auto; [discriminate|].
    rewrite !in_app_iff. cbn. auto.
Qed.
Print Assumptions C38_same_description.

(** C38. an option that some source mentions has a value that is not a default. *)
Theorem C38_mentioned_not_defaulted : forall h vm name,
  stores vm_new h vm -> name <> [] -> ~ never_mentioned h name ->
  exists v, entry vm name = Some v /\ vv_defaulted v = false.
Proof.
  intros h vm name H Hne Hm. apply (mentioned_given _ _ _ name H Hne). right. split; [intros []|auto].
Qed.
Print Assumptions C38_mentioned_not_defaulted.

Definition src_mode := source [given_as $"mode" [$"slow"]].
Example C38_ex :
  let h := [(src1, false); (src2, false)] in
  let vm1 := fst (run_all vm_new h) in
  let vm2 := fst (run_all vm1 [(src_mode, false)]) in
  stores vm_new h vm1 /\ never_mentioned h $"mode"
  /\ option_map vv_value (entry vm1 $"mode") = Some (Some (VString $"fast"))
  /\ option_map vv_defaulted (entry vm1 $"mode") = Some true
  /\ option_map vv_value (entry vm1 $"level") = None
  /\ stores vm1 [(src_mode, false)] vm2
  /\ option_map vv_value (entry vm2 $"mode") = Some (Some (VString $"slow"))
  /\ option_map vv_defaulted (entry vm2 $"mode") = Some false.
Proof.
  split; [run_stores|]. split; [unmentioned|]. split; [calc|]. split; [calc|].
  split; [calc|]. split; [run_stores|]. split; calc.
Qed.
Example C38_ex_once : exactly_one (fun d' => is_key d' [] $"mode") known o_mode.
Proof.
  exists [o_number; o_include], [o_name; o_quiet; o_level]. split; [reflexivity|]. split.
  - apply is_key_od. reflexivity.
  - repeat (apply Forall_cons; [intros H; apply is_key_od in H; discriminate|]). apply Forall_nil.
Qed.

(** C39. Unregistered and unnamed options in a source have no effect at all; *)
Theorem C39_unnamed_ignored : forall os desc prefix vm utf8,
  store (mk_parsed os desc prefix) vm utf8
  = store (mk_parsed (filter (fun o => negb (is_empty (po_key o)) && negb (po_unreg o)) os) desc prefix) vm utf8.
Proof.
  intros os desc prefix vm utf8. unfold store. cbn [pr_desc pr_options pr_prefix].
  destruct desc as [ds|]; auto. now rewrite store_options_filter.
Qed.
Print Assumptions C39_unnamed_ignored.

(** C39. whatever [store] returns or throws, the entry of an option that the source does
    not mention stays the same, if the description does not declare it or it had a value
    before. *)
Theorem C39_unrelated_entries : forall p vm utf8 vm' r name,
  store p vm utf8 = (vm', r) -> name <> [] -> ~ mentions p name ->
  (forall ds d, pr_desc p = Some ds -> In d ds -> ~ is_key d [] name) \/ entry vm name <> None ->
  entry vm' name = entry vm name.
Proof. exact store_frame. Qed.
Print Assumptions C39_unrelated_entries.

Example C39_ex :
  let vm := fst (run_all vm_new [(src1, false)]) in
  let vm' := fst (store src2 vm false) in
  ~ mentions src2 $"name"
  /\ option_map vv_value (entry vm $"name") = Some (Some (VString $"x"))
  /\ option_map vv_value (entry vm' $"name") = Some (Some (VString $"x"))
  /\ filter (fun o => negb (is_empty (po_key o)) && negb (po_unreg o))
       [given_as $"number" [$"1"]; mk_popt [] 0 [$"x"] [$"x"] false false; mk_popt $"what" (-1) [] [$"--what"] true false]
     = [given_as $"number" [$"1"]].
Proof.
  split; [intros H; apply H; reflexivity|]. split; [calc|]. split; calc.
Qed.

(** C40. If an option that some stored description requires has no value, [notify] throws
    [required_option] for the first such option in the order of keys, and has no effect
    before; the option is named by the longest of the names it would be displayed with. *)
Theorem C40_required_missing : forall h vm,
  stores vm_new h vm -> (exists name, missing h vm name) ->
  exists name disp, missing h vm name
    /\ (forall other, missing h vm other -> other = name \/ str_lt name other)
    /\ reported h name disp /\ notify vm = ([], Throw (mk_required_option disp)).
Proof. exact missing_lemma. Qed.
Print Assumptions C40_required_missing.

(** C40. If none is missing, nothing but a notification can make [notify] fail. *)
Theorem C40_required_present : forall h vm ev r,
  stores vm_new h vm -> (forall name, ~ missing h vm name) -> notify vm = (ev, r) -> r <> Ok tt ->
  exists name v s done, entry vm name = Some v /\ vv_sem v = Some s /\ vs_notify s (vv_value v) = (done, r).
Proof.
  intros h vm ev r H Hno Hn Hr. rewrite (nothing_missing_lemma h vm H Hno) in Hn.
  destruct (stores_sorted _ _ _ H) as [Hs _]; [constructor|constructor|].
  apply run_notify_spec in Hn. destruct Hn as [[Hn _]|(m1 & k & v & m2 & s & evs & last & Em & _ & Ev & En & _)]; [contradiction|].
  exists k, v, s, last. split; auto. apply sm_find_In_pair; auto. rewrite Em. apply in_or_app. right. now left.
Qed.
Print Assumptions C40_required_present.

Ltac plain Es El :=
  match goal with |- shown _ ?d ?t =>
    replace t with (hd (od_short d) (od_longs d)) by (rewrite Es, El; reflexivity) end.

(** C40. An option from a command line is displayed the way it can be written there. *)
Theorem C40_shown : forall fuel c args p d,
  parser_run fuel c args = Ok p -> shown (cl_style c) d (display (pr_prefix p, d)).
Proof.
  intros fuel c args p d H. unfold parser_run in H. apply bind_Ok in H. destruct H as (os & _ & [= <-]). cbn [pr_prefix].
  assert (B : forall i, (0 <= i)%Z -> has (cl_style c) (2 ^ i) = true <-> bit (cl_style c) i).
  { intros i Hi. unfold bit. rewrite has_testbit by auto. tauto. }
  assert (N : forall i, (0 <= i)%Z -> has (cl_style c) (2 ^ i) = false <-> ~ bit (cl_style c) i).
  { intros i Hi. rewrite <- B by auto. destruct (has (cl_style c) (2 ^ i)); split; congruence. }
  pose proof (B 0%Z ltac:(lia)) as B0. pose proof (B 1%Z ltac:(lia)) as B1. pose proof (B 2%Z ltac:(lia)) as B2.
  pose proof (B 3%Z ltac:(lia)) as B3. pose proof (B 12%Z ltac:(lia)) as B12.
  pose proof (N 0%Z ltac:(lia)) as N0. pose proof (N 1%Z ltac:(lia)) as N1. pose proof (N 2%Z ltac:(lia)) as N2.
  pose proof (N 3%Z ltac:(lia)) as N3. pose proof (N 12%Z ltac:(lia)) as N12. clear B N.
  unfold display. cbn [fst snd]. unfold cl_prefix, canonical_display_name.
  change allow_long with (2 ^ 0)%Z. change allow_long_disguise with (2 ^ 12)%Z. change allow_short with (2 ^ 1)%Z.
  change allow_dash_for_short with (2 ^ 2)%Z. change allow_slash_for_short with (2 ^ 3)%Z.
  destruct (has (cl_style c) (2 ^ 0)); [pose proof (proj1 B0 eq_refl)|pose proof (proj1 N0 eq_refl)]; clear B0 N0.
  { destruct (od_longs d) eqn:El; [|now apply (sh_long _ _ l l0)]. cbn.
    destruct (od_short d) as [|b [|x [|]]] eqn:Es; rewrite <- Es; apply sh_no_long; auto. }
  destruct (has (cl_style c) (2 ^ 12)); [pose proof (proj1 B12 eq_refl)|pose proof (proj1 N12 eq_refl)]; clear B12 N12.
  { destruct (od_longs d) eqn:El; [|now apply (sh_disguised _ _ l l0)]. cbn.
    destruct (od_short d) as [|b [|x [|]]] eqn:Es; rewrite <- Es; apply sh_no_long; auto. }
  destruct (has (cl_style c) (2 ^ 1)); [pose proof (proj1 B1 eq_refl)|pose proof (proj1 N1 eq_refl)]; clear B1 N1; cbn [andb].
  - destruct (has (cl_style c) (2 ^ 2)); [pose proof (proj1 B2 eq_refl)|pose proof (proj1 N2 eq_refl)]; clear B2 N2.
    { destruct (od_short d) as [|b [|x [|]]] eqn:Es; cbn.
      - destruct (od_longs d) eqn:El; plain Es El; (apply sh_no_short; auto; rewrite Es; discriminate).
      - destruct (od_longs d) eqn:El; plain Es El; (apply sh_no_short; auto; rewrite Es; discriminate).
      - destruct (od_longs d) eqn:El; now apply (sh_dash _ _ b x).
      - destruct (od_longs d) eqn:El; plain Es El; (apply sh_no_short; auto; rewrite Es; discriminate). }
    destruct (has (cl_style c) (2 ^ 3)); [pose proof (proj1 B3 eq_refl)|pose proof (proj1 N3 eq_refl)]; clear B3 N3.
    { destruct (od_short d) as [|b [|x [|]]] eqn:Es; cbn.
      - destruct (od_longs d) eqn:El; plain Es El; (apply sh_no_short; auto; rewrite Es; discriminate).
      - destruct (od_longs d) eqn:El; plain Es El; (apply sh_no_short; auto; rewrite Es; discriminate).
      - destruct (od_longs d) eqn:El; now apply (sh_slash _ _ b x).
      - destruct (od_longs d) eqn:El; plain Es El; (apply sh_no_short; auto; rewrite Es; discriminate). }
    cbn. destruct (od_short d) as [|b [|x [|]]] eqn:Es; destruct (od_longs d) eqn:El; plain Es El; apply sh_none; auto.
  - cbn. destruct (od_short d) as [|b [|x [|]]] eqn:Es; destruct (od_longs d) eqn:El; plain Es El; apply sh_none; auto.
Qed.
Print Assumptions C40_shown.

Example C40_ex :
  let vm := fst (run_all vm_new [(src2, false)]) in
  stores vm_new [(src2, false)] vm /\ missing [(src2, false)] vm $"name"
  /\ notify vm = ([], Throw (mk_required_option $"--name")).
Proof.
  split; [run_stores|]. split; [|calc]. split; [discriminate|]. split.
  - apply Exists_exists. exists (allow_long, o_name). split.
    + apply in_or_app. left. apply in_map_iff. exists o_name. split; auto. cbn. auto 6.
    + split; [|reflexivity]. apply is_key_od. reflexivity.
  - intros (v & x & E & _). apply (f_equal (option_map vv_value)) in E. vm_compute in E. discriminate.
Qed.

(** C41. If [notify] succeeds, its effects are those of the entries of the map in
    increasing order of their keys, each exactly once with the stored value; *)
Theorem C41_success : forall h vm ev,
  calls vm_new h vm -> notify vm = (ev, Ok tt) ->
  exists m evs, entries_in_order vm m /\ Forall2 notifies m evs /\ ev = List.concat evs.
Proof.
  intros h vm ev H Hn. destruct (calls_sorted _ _ _ H) as [Hs _]; [constructor|constructor|].
  unfold notify in Hn. destruct (check_required (vm_required vm) (vm_map vm)) as [[]|e|u|]; try discriminate.
  apply run_notify_spec in Hn. destruct Hn as [(_ & evs & Hf & ->)|(m1 & k & v & m2 & s & evs & last & _ & _ & _ & _ & Hr & _)];
    [|congruence].
  exists (vm_map vm), evs. split; [now apply entries_lemma|]. auto.
Qed.
Print Assumptions C41_success.

(** C41. if the notification of an entry throws, its effects are those of the entries with
    smaller keys, and what that entry did before. *)
Theorem C41_failure : forall h vm ev e,
  stores vm_new h vm -> (forall name, ~ missing h vm name) -> notify vm = (ev, Throw e) ->
  exists m1 k v m2 s evs last, entries_in_order vm (m1 ++ (k, v) :: m2) /\ Forall2 notifies m1 evs
    /\ vv_sem v = Some s /\ vs_notify s (vv_value v) = (last, Throw e) /\ ev = List.concat evs ++ last.
Proof.
  intros h vm ev e H Hno Hn. rewrite (nothing_missing_lemma h vm H Hno) in Hn.
  destruct (stores_sorted _ _ _ H) as [Hs _]; [constructor|constructor|].
  apply run_notify_spec in Hn. destruct Hn as [[Hn _]|(m1 & k & v & m2 & s & evs & last & Em & Hf & Ev & En & _ & ->)]; [discriminate|].
  exists m1, k, v, m2, s, evs, last. rewrite <- Em. split; [now apply entries_lemma|]. auto.
Qed.
Print Assumptions C41_failure.

(** C41. An option of the library first assigns its variable, then calls its notifier. *)
Theorem C41_typed_effects : forall lexical_cast utf8_to_local tv x,
  value_ty x = tv_type tv ->
  vs_notify (typed lexical_cast utf8_to_local tv) (Some x)
  = (match tv_store_to tv with Some addr => [EvStore addr x] | None => [] end
     ++ match tv_notifier tv with Some (f, _) => [EvCall f x] | None => [] end,
     match tv_notifier tv with
     | Some (_, body) => match body x with Some e => Throw e | None => Ok tt end
     | None => Ok tt
     end).
Proof.
  intros lc ul tv x Hx. cbn [typed vs_notify]. unfold tv_notify. rewrite <- Hx, any_cast_ty.
  destruct (tv_store_to tv); destruct (tv_notifier tv) as [[f body]|]; cbn [app]; auto.
Qed.
Print Assumptions C41_typed_effects.

Example C41_ex :
  let vm := fst (run_all vm_new [(src1, false)]) in
  let src := source [given_as $"mode" [[]]; given_as $"name" [$"x"]] in
  let vm2 := fst (run_all vm_new [(src, false)]) in
  stores vm_new [(src1, false)] vm
  /\ notify vm = ([EvStore 1 (VString $"fast"); EvCall 2 (VString $"fast"); EvStore 3 (VBool false)], Ok tt)
  /\ stores vm_new [(src, false)] vm2
  /\ notify vm2 = ([EvStore 1 (VString []); EvCall 2 (VString [])], Throw (mk_validation vk_invalid_option)).
Proof. split; [run_stores|]. split; [calc|]. split; [run_stores|]. calc. Qed.

(** C42. If [store] throws, the final options and the required names are unchanged; the
    options before the failing one are stored; the failing one has what the semantics left
    in it, without its default, if it has got that far. *)
Theorem C42_failed_store : forall p vm utf8 vm' e,
  store p vm utf8 = (vm', Throw e) ->
  vm_final vm' = vm_final vm /\ vm_required vm' = vm_required vm
  /\ exists ds os1 o os2 e0, pr_desc p = Some ds /\ pr_options p = os1 ++ o :: os2
     /\ po_key o <> [] /\ po_unreg o = false
     /\ e = add_context (po_key o) (hd [] (po_orig o)) (pr_prefix p) e0
     /\ (forall name, name <> [] -> name <> po_key o ->
           (occurrences os1 name = [] \/ In name (vm_final vm)) /\ entry vm' name = entry vm name
           \/ exists d a, find ds name false false false = Ok d
                /\ parsed_all (od_sem d) utf8 (given (entry vm name)) (occurrences os1 name) a
                /\ entry vm' name = Some (mk_vv a false (Some (od_sem d))))
     /\ (find ds (po_key o) false false false = Throw e0
         \/ exists d a b v, find ds (po_key o) false false false = Ok d
              /\ parsed_all (od_sem d) utf8 (given (entry vm (po_key o))) (occurrences os1 (po_key o)) a
              /\ vs_parse (od_sem d) a (po_value o) utf8 = (b, Throw e0)
              /\ entry vm' (po_key o) = Some v /\ vv_value v = b /\ vv_defaulted v = false).
Proof.
  intros p vm utf8 vm' e H. unfold store in H. destruct (pr_desc p) as [ds|] eqn:Eds; [|discriminate].
  destruct (store_options ds (pr_prefix p) (vm_final vm) utf8 (pr_options p) (vm_map vm) []) as [[m nf] r] eqn:Eo.
  destruct r as [[]|e'|u|]; try discriminate.
  { destruct (store_defaults ds (pr_prefix p) m (vm_required vm)). discriminate. }
  injection H as <- ->. split; [reflexivity|]. split; [reflexivity|].
  apply store_options_throws in Eo.
  destruct Eo as (os1 & o & os2 & m1 & nf1 & e0 & E1 & Ho & Hk & Hu & Hf & -> & Hcase).
  exists ds, os1, o, os2, e0. split; [reflexivity|]. split; [auto|]. split; [auto|]. split; [auto|]. split; [auto|].
  unfold entry. cbn [vm_map]. split.
  - intros name Hne Hd. pose proof (store_options_entry _ _ _ _ name _ Hne _ _ _ _ Ho) as Hs.
    assert (Em : sm_find name m = sm_find name m1).
    { destruct Hcase as [[_ ->]|(d & a & _ & _ & Hm)]; auto. rewrite Hm. destruct (str_eqb_spec name (po_key o)); [contradiction|auto]. }
    rewrite Em. destruct Hs as [(H1 & H2 & _)|(_ & _ & d & a & H1 & H2 & H3 & _)]; [left; auto|right; eauto 6].
  - destruct Hcase as [[Hc _]|(d & b & Hd & Hp & Hm)]; [left; auto|right].
    pose proof (store_options_entry _ _ _ _ (po_key o) _ Hk _ _ _ _ Ho) as Hs.
    specialize (Hm (po_key o)). rewrite str_eqb_refl in Hm.
    destruct Hs as [([H1|H1] & H2 & _)|(_ & _ & d' & a & H1 & H2 & H3 & _)]; [|contradiction|].
    + exists d, (given (sm_find (po_key o) m1)), b. eexists. split; [auto|]. rewrite H1, H2. split; [constructor|].
      rewrite <- H2. split; [exact Hp|]. split; [exact Hm|]. auto.
    + rewrite Hd in H1. injection H1 as <-. exists d, a, b. eexists. split; [auto|]. split; [exact H2|].
      rewrite H3 in Hp. cbn in Hp. split; [exact Hp|]. split; [exact Hm|]. auto.
Qed.
Print Assumptions C42_failed_store.

(** C42. Storing a corrected source after a failure can throw although a fresh map accepts
    it: there is no strong exception guarantee. *)
Definition bad_source := source [given_as $"number" [$"5"]; given_as $"level" [$"x"]].
Definition good_source := source [given_as $"number" [$"5"]; given_as $"level" [$"1"]].
Theorem C42_strong_guarantee_refuted :
  exists vm1 vm2 e vm3 e2,
    store bad_source vm_new false = (vm1, Throw e)
    /\ fails_with (snd (store good_source vm1 false)) multiple_occurrences
    /\ store good_source vm_new false = (vm2, Ok tt)
    /\ store (source [given_as $"mode" [$"a"; $"b"]]) vm2 false = (vm3, Throw e2)
    /\ option_map vv_value (entry vm2 $"mode") = Some (Some (VString $"fast"))
    /\ option_map vv_value (entry vm3 $"mode") = Some None.
Proof.
  exists (fst (store bad_source vm_new false)), (fst (store good_source vm_new false)).
  eexists. exists (fst (store (source [given_as $"mode" [$"a"; $"b"]]) (fst (store good_source vm_new false)) false)).
  eexists. split; [run_store|]. split; [eexists; split; [calc|reflexivity]|]. split; [run_store|].
  split; [run_store|]. split; calc.
Qed.
Print Assumptions C42_strong_guarantee_refuted.

(** C43. In a chain of maps the first explicit value counts; *)
Theorem C43_first_explicit : forall pre vm post name,
  explicit (vm_get vm name) -> Forall (fun vm' => ~ explicit (vm_get vm' name)) pre ->
  match pre ++ vm :: post with
  | vm0 :: next => chain_get vm0 next name = vm_get vm name
  | [] => False
  end.
Proof.
  intros pre vm post name He Hf. pose proof (chain_explicit name _ He pre vm post eq_refl Hf) as H.
  destruct (pre ++ vm :: post) eqn:E; auto. now destruct pre.
Qed.
Print Assumptions C43_first_explicit.

(** C43. if there is none, the first default; *)
Theorem C43_first_default : forall pre vm post name,
  vv_value (vm_get vm name) <> None ->
  Forall (fun vm' => vv_value (vm_get vm' name) = None) pre ->
  Forall (fun vm' => ~ explicit (vm_get vm' name)) (vm :: post) ->
  match pre ++ vm :: post with
  | vm0 :: next => chain_get vm0 next name = vm_get vm name
  | [] => False
  end.
Proof.
  intros pre vm post name He Hf Hp. pose proof (chain_default name _ He pre vm post eq_refl Hf Hp) as H.
  destruct (pre ++ vm :: post) eqn:E; auto. now destruct pre.
Qed.
Print Assumptions C43_first_default.

(** C43. if there is none either, an empty value. *)
Theorem C43_empty : forall vm next name,
  Forall (fun vm' => vv_value (vm_get vm' name) = None) (vm :: next) ->
  vv_value (chain_get vm next name) = None.
Proof. intros vm next name. apply chain_empty. Qed.
Print Assumptions C43_empty.

Example C43_ex :
  let vm1 := fst (run_all vm_new [(src1, false)]) in
  let vm2 := fst (run_all vm_new [(src_mode, false)]) in
  explicit (vm_get vm2 $"mode") /\ ~ explicit (vm_get vm1 $"mode")
  /\ vv_value (chain_get vm1 [vm2] $"mode") = Some (VString $"slow")
  /\ vv_value (chain_get vm1 [vm2] $"quiet") = Some (VBool false)
  /\ vv_value (chain_get vm1 [vm2] $"level") = None.
Proof.
  split; [split; [intros H; vm_compute in H; discriminate|calc]|].
  split; [intros [_ H]; vm_compute in H; discriminate|]. split; [calc|]. split; calc.
Qed.

(** C44. In a source that could be stored, an option of a scalar type occurs once, except
    for further occurrences without a value if the option has an implicit value; *)
Theorem C44_occurs_once : forall p vm utf8 vm' name d lexical_cast utf8_to_local tv first others,
  store p vm utf8 = (vm', Ok tt) -> name <> [] -> ~ In name (vm_final vm) -> resolves p name d ->
  od_sem d = typed lexical_cast utf8_to_local tv -> scalar (tv_type tv) ->
  occurrences (pr_options p) name = first :: others ->
  Forall (fun xs => xs = [] /\ tv_implicit tv <> None) others.
Proof.
  intros p vm utf8 vm' name d lc ul tv first others H Hne Hf (ds & Eds & Hd) Hs Ht Ho.
  destruct (store_entry _ _ _ _ name H Hne) as (ds' & Eds' & [([Ho'|Ho'] & _)|(_ & _ & d' & a & Hd' & Hp & _)]);
    [congruence|contradiction|].
  rewrite Eds in Eds'. injection Eds' as <-. rewrite Hd in Hd'. injection Hd' as <-.
  rewrite Hs, Ho in Hp. destruct (scalar_all _ _ _ _ Ht _ _ _ Hp) as [_ Hx]. eauto.
Qed.
Print Assumptions C44_occurs_once.

Theorem C44_untyped_occurs_once : forall p vm utf8 vm' name d utf8_to_local zero first others,
  store p vm utf8 = (vm', Ok tt) -> name <> [] -> ~ In name (vm_final vm) -> resolves p name d ->
  od_sem d = untyped utf8_to_local zero -> occurrences (pr_options p) name = first :: others -> others = [].
Proof.
  intros p vm utf8 vm' name d ul z first others H Hne Hf (ds & Eds & Hd) Hs Ho.
  destruct (store_entry _ _ _ _ name H Hne) as (ds' & Eds' & [([Ho'|Ho'] & _)|(_ & _ & d' & a & Hd' & Hp & _)]);
    [congruence|contradiction|].
  rewrite Eds in Eds'. injection Eds' as <-. rewrite Hd in Hd'. injection Hd' as <-.
  rewrite Hs, Ho in Hp. inversion Hp as [|? ? a' ? ? H1 H2]; subst.
  apply untyped_Ok in H1. destruct H1 as (_ & s & ->).
  destruct others as [|xs others]; auto. inversion H2 as [|? ? a'' ? ? H3 _]; subst.
  apply untyped_Ok in H3. destruct H3. discriminate.
Qed.
Print Assumptions C44_untyped_occurs_once.

(** C44. another occurrence with a value throws [multiple_occurrences] and leaves the value; *)
Theorem C44_second_throws : forall lexical_cast utf8_to_local tv x xs ys utf8,
  scalar (tv_type tv) -> decoded utf8_to_local utf8 xs ys -> xs <> [] \/ tv_implicit tv = None ->
  vs_parse (typed lexical_cast utf8_to_local tv) (Some x) xs utf8 = (Some x, Throw mk_multiple_occurrences).
Proof. intros. eapply typed_second; eauto. Qed.
Print Assumptions C44_second_throws.

Theorem C44_untyped_second_throws : forall utf8_to_local zero x xs ys utf8,
  decoded utf8_to_local utf8 xs ys ->
  vs_parse (untyped utf8_to_local zero) (Some x) xs utf8 = (Some x, Throw mk_multiple_occurrences).
Proof. intros. eapply untyped_second; eauto. Qed.
Print Assumptions C44_untyped_second_throws.

(** C44. but an occurrence without a value never throws if there is an implicit value: it
    replaces whatever is there, for every type. *)
Theorem C44_implicit_replaces : forall lexical_cast utf8_to_local tv a iv txt utf8,
  tv_implicit tv = Some (iv, txt) ->
  vs_parse (typed lexical_cast utf8_to_local tv) a [] utf8 = (Some iv, Ok tt).
Proof. intros. eapply typed_implicit; eauto. Qed.
Print Assumptions C44_implicit_replaces.

Example C44_ex :
  fails_with (snd (store (source [given_as $"number" [$"1"]; given_as $"number" [$"2"]]) vm_new false)) multiple_occurrences
  /\ exists vm, store (source [given_as $"level" [$"1"]; given_as $"level" []]) vm_new false = (vm, Ok tt)
     /\ occurrences [given_as $"level" [$"1"]; given_as $"level" []] $"level" = [[$"1"]; []]
     /\ option_map vv_value (entry vm $"level") = Some (Some (VLex 0 7)).
Proof. split; [eexists; split; [calc|reflexivity]|]. eexists. split; [run_store|]. split; calc. Qed.

(** C46. What a bool option makes of its tokens (after the conversion to the local encoding of UTF-8). *)
Theorem C46_bool : forall lexical_cast utf8_to_local tv utf8 toks xs,
  tv_type tv = TBool -> tv_implicit tv = None -> decoded utf8_to_local utf8 toks xs ->
  match vs_parse (typed lexical_cast utf8_to_local tv) None toks utf8, xs with
  | r, [] => r = (Some (VBool true), Ok tt)
  | r, [tok] =>
      (ascii7 tok /\ spells true_words tok -> r = (Some (VBool true), Ok tt))
      /\ (ascii7 tok /\ spells false_words tok -> r = (Some (VBool false), Ok tt))
      /\ (ascii7 tok /\ ~ spells (true_words ++ false_words) tok ->
          exists l, lowered tok l /\ r = (None, Throw (mk_invalid_bool_value l)))
      /\ (~ ascii7 tok -> r = (None, Undef UB_ctype))
  | r, _ :: _ :: _ => r = (None, Throw (mk_validation multiple_values_not_allowed))
  end.
Proof.
  intros lc ul tv utf8 toks xs Ht Hi Hd. cbn [typed vs_parse]. rewrite (codecvt_decoded _ _ _ _ _ _ Hd).
  rewrite tv_xparse_no_implicit by auto. rewrite Ht.
  destruct xs as [|tok [|tok2 xs]]; cbn [Values.validate]; unfold validate_bool;
    cbn [check_first_occurrence any_empty get_single_string bind]; auto.
  split; [intros [H1 H2]; now rewrite bool_of_string_true|].
  split; [intros [H1 H2]; now rewrite bool_of_string_false|].
  split; [intros [H1 H2]; rewrite bool_of_string_other by auto; exists (map lower_ascii tok); split; [now apply lowered_map|auto]|].
  intros H. now rewrite bool_of_string_non_ascii.
Qed.
Print Assumptions C46_bool.

Example C46_ex :
  spells true_words $"YeS" /\ spells false_words $"oFF" /\ ~ spells (true_words ++ false_words) $"2"
  /\ fst (vs_parse (typed lex local (value_of_type TBool None)) None [$"YeS"] false) = Some (VBool true).
Proof.
  split; [apply spells_map; cbn; auto 6|]. split; [apply spells_map; cbn; auto 6|].
  split; [rewrite spells_map; cbn; intuition discriminate|]. reflexivity.
Qed.

(** C47. A vector option appends the values of its tokens (after the conversion to the local encoding of UTF-8); *)
Theorem C47_vector_appends : forall lexical_cast utf8_to_local tv t a vs utf8 toks xs ys,
  tv_type tv = TVec t -> decoded utf8_to_local utf8 toks xs -> toks <> [] \/ tv_implicit tv = None ->
  a = Some (VVec t vs) \/ (a = None /\ vs = []) -> Forall2 (converts lexical_cast t) xs ys ->
  vs_parse (typed lexical_cast utf8_to_local tv) a toks utf8 = (Some (VVec t (vs ++ ys)), Ok tt).
Proof.
  intros lc ul tv t a vs utf8 toks xs ys Ht Hd Hi Ha Hc. cbn [typed vs_parse]. rewrite (codecvt_decoded _ _ _ _ _ _ Hd).
  rewrite tv_xparse_no_implicit.
  - rewrite Ht. now apply vector_appends.
  - destruct Hi as [Hi|Hi]; [left; eapply decoded_not_nil; eauto|now right].
Qed.
Print Assumptions C47_vector_appends.

(** C47. if one of them is rejected, exactly the values before it have been appended; *)
Theorem C47_vector_stops : forall lexical_cast utf8_to_local tv t a vs utf8 toks good ys bad e rest,
  tv_type tv = TVec t -> a = Some (VVec t vs) \/ (a = None /\ vs = []) ->
  decoded utf8_to_local utf8 toks (good ++ bad :: rest) ->
  Forall2 (converts lexical_cast t) good ys -> rejects lexical_cast t bad e ->
  vs_parse (typed lexical_cast utf8_to_local tv) a toks utf8
  = (Some (VVec t (vs ++ ys)), Throw e).
Proof.
  intros lc ul tv t a vs utf8 toks good ys bad e rest Ht Ha Hd Hc Hr. cbn [typed vs_parse]. rewrite (codecvt_decoded _ _ _ _ _ _ Hd).
  rewrite tv_xparse_no_implicit by (left; now destruct good). rewrite Ht. now apply vector_stops.
Qed.
Print Assumptions C47_vector_stops.

(** C47. but if one of them cannot be converted to the local encoding, nothing is appended. *)
Theorem C47_undecodable : forall lexical_cast utf8_to_local tv a good zs bad e rest,
  Forall2 (fun x y => utf8_to_local x = Ok y) good zs -> utf8_to_local bad = Throw e ->
  vs_parse (typed lexical_cast utf8_to_local tv) a (good ++ bad :: rest) true = (a, Throw e).
Proof.
  intros lc ul tv a good zs bad e rest Hg Hb. cbn [typed vs_parse]. unfold codecvt_parse.
  assert (E : mapM ul (good ++ bad :: rest) = Throw e); [|now rewrite E].
  induction Hg as [|x y xs ys E _ IH]; cbn [app mapM]; [now rewrite Hb|]. rewrite E. cbn [bind]. now rewrite IH.
Qed.
Print Assumptions C47_undecodable.

(** C47. every token is either converted or rejected, unless it is a boolean that is not
    ASCII, for which the behaviour is undefined. *)
Theorem C47_tokens_decided : forall lexical_cast t tok,
  ((exists x, converts lexical_cast t tok x) \/ (exists e, rejects lexical_cast t tok e) \/ ~ ascii7 tok)
  /\ (forall x y, converts lexical_cast t tok x -> converts lexical_cast t tok y -> x = y)
  /\ (forall x e, converts lexical_cast t tok x -> ~ rejects lexical_cast t tok e).
Proof.
  intros lc t tok. split; [|split].
  - destruct (convert_cases lc local t tok) as [H|[H|[H _]]]; auto.
  - intros x y Hx Hy. apply converts_validate in Hx, Hy. rewrite Hx in Hy. now injection Hy.
  - intros x e Hx He. apply converts_validate in Hx. apply rejects_validate in He. destruct He as [a He].
    rewrite Hx in He. discriminate.
Qed.
Print Assumptions C47_tokens_decided.

Example C47_ex :
  Forall2 (converts lex (TLex 0)) [$"1"; $"20"] [VLex 0 1; VLex 0 20]
  /\ rejects lex (TLex 0) $"x" (mk_invalid_option_value $"x")
  /\ vs_parse (typed lex local tints) (Some (VVec (TLex 0) [VLex 0 9])) [$"1"; $"20"; $"x"; $"4"] false
     = (Some (VVec (TLex 0) [VLex 0 9; VLex 0 1; VLex 0 20]), Throw (mk_invalid_option_value $"x")).
Proof.
  split; [repeat constructor|]. split; [apply rj_lex; reflexivity|]. reflexivity.
Qed.

(** C48. A [bool_switch]: false, as a default, if it is not mentioned; *)
Theorem C48_absent : forall lexical_cast utf8_to_local target h vm ds d name,
  stores vm_new h vm -> name <> [] -> h <> [] -> Forall (fun pu => pr_desc (fst pu) = Some ds) h ->
  exactly_one (fun d' => is_key d' [] name) ds d ->
  od_sem d = typed lexical_cast utf8_to_local (bool_switch target) -> never_mentioned h name ->
  entry vm name = Some (mk_vv (Some (VBool false)) true (Some (od_sem d))).
Proof.
  intros lc ul target h vm ds d name H Hne Hh Hds Hone Hs Hm.
  rewrite (C38_same_description h vm ds d name) by auto. now rewrite Hs.
Qed.
Print Assumptions C48_absent.

(** C48. on a command line (no positional argument being named after it) it never has a
    value; if it occurs once and the result can be
    stored in a new map, it is true; if it occurs again, it cannot. *)
Theorem C48_command_line : forall lexical_cast utf8_to_local target c args res prefix utf8 vm r d name,
  cl_style_parser c = None -> Forall has_name (cl_desc c) -> Forall sensible (cl_desc c) ->
  case_fine c -> (Z.of_nat (List.length args) <= INT_MAX)%Z -> parse c args = Ok res ->
  Forall (fun o => po_pos o = (-1)%Z) (filter (fun o => str_eqb (po_key o) name) res) ->
  name <> [] -> od_sem d = typed lexical_cast utf8_to_local (bool_switch target) ->
  lookup c name = Ok (Some d) -> find (cl_desc c) name false false false = Ok d ->
  store (mk_parsed res (Some (cl_desc c)) prefix) vm_new utf8 = (vm, r) ->
  Forall (fun vals => vals = []) (occurrences res name)
  /\ (List.length (occurrences res name) = 1 -> r = Ok tt ->
      entry vm name = Some (mk_vv (Some (VBool true)) false (Some (od_sem d))))
  /\ (List.length (occurrences res name) > 1 -> r <> Ok tt).
Proof.
  intros lc ul target c args res prefix utf8 vm r d name H1 H2 H3 H4 H5 H6 Hpos Hne Hs Hl Hf Hst.
  assert (Hv : Forall (fun vals => vals = []) (occurrences res name)).
  { unfold occurrences. apply Forall_forall. intros vals Hin. apply in_map_iff in Hin.
    destruct Hin as (o & <- & Hin). apply filter_In in Hin. destruct Hin as [Hin Hk].
    apply andb_true_iff in Hk. destruct Hk as [Hk Hu]. apply negb_true_iff in Hu.
    assert (Hp : po_pos o = (-1)%Z).
    { rewrite Forall_forall in Hpos. apply Hpos. apply filter_In. auto. }
    apply str_eqb_eq in Hk.
    pose proof (sound_lemma c args res H1 H2 H3 H4 H5 H6) as Hsd. rewrite Forall_forall in Hsd.
    destruct (Hsd o Hin) as [(_ & _ & tok & typed & d' & _ & _ & _ & _ & Hl' & Hc)|[(_ & _ & Hu' & _)|(Hp' & _)]];
      [|congruence|lia].
    rewrite Hk, Hl in Hl'. injection Hl' as <-. rewrite Hs in Hc. cbn in Hc.
    destruct (po_value o); auto. cbn [List.length] in Hc. lia. }
  split; [auto|]. split.
  - intros Hlen ->.
    destruct (store_entry _ _ _ _ name Hst Hne) as (ds' & Eds' & [([Ho'|Ho'] & _)|(_ & _ & d' & a & Hd' & Hp & He & _)]).
    + cbn [pr_options] in Ho'. rewrite Ho' in Hlen. discriminate.
    + contradiction.
    + cbn in Eds'. injection Eds' as <-. rewrite Hf in Hd'. injection Hd' as <-. cbn [pr_options] in Hp.
      destruct (occurrences res name) as [|vals [|]]; try discriminate. inversion Hv as [|? ? E _]; subst.
      inversion Hp as [|? ? a' ? ? Hp1 Hp2]; subst. inversion Hp2; subst. rewrite He. repeat f_equal.
      rewrite Hs in Hp1. cbn [typed vs_parse] in Hp1. apply codecvt_Ok in Hp1. destruct Hp1 as (zs & Hz & Hp1).
      apply decoded_nil in Hz. subst zs. cbn in Hp1. now injection Hp1 as <-.
  - intros Hlen ->. destruct (occurrences res name) as [|v1 [|v2 occs]] eqn:Eo; cbn in Hlen; try lia.
    assert (Hx : Forall (fun xs : list str => xs = [] /\ tv_implicit (bool_switch target) <> None) (v2 :: occs)).
    { eapply C44_occurs_once; [exact Hst|exact Hne|intros []| |exact Hs|exact I|exact Eo].
      exists (cl_desc c). split; [reflexivity|exact Hf]. }
    inversion Hx as [|? ? [_ Hy] _]; subst. now apply Hy.
Qed.
Print Assumptions C48_command_line.

Definition switch_cl : cmdline := mk_cl default_style false [o_quiet; o_number] None None None.
Example C48_ex : exists res vm,
  parse switch_cl [$"-q"; $"-n"; $"3"] = Ok res
  /\ occurrences res $"quiet" = [[]]
  /\ store (mk_parsed res (Some (cl_desc switch_cl)) 0) vm_new false = (vm, Ok tt)
  /\ lookup switch_cl $"quiet" = Ok (Some o_quiet)
  /\ find (cl_desc switch_cl) $"quiet" false false false = Ok o_quiet
  /\ Forall has_name (cl_desc switch_cl) /\ Forall sensible (cl_desc switch_cl).
Proof.
  eexists. eexists. split; [calc|]. split; [calc|]. split; [run_store|]. split; [reflexivity|].
  split; [reflexivity|]. split.
  - repeat constructor; discriminate.
  - repeat constructor; discriminate.
Qed.

(** C59. With the semantics of the library, [notify] never dereferences a null pointer,
    whatever types a name stands for in the sources and whichever of the [store] calls
    failed before; *)
Theorem C59_notify_defined : forall h vm u,
  calls vm_new h vm -> library_only h -> snd (notify vm) <> Undef u.
Proof. exact notify_defined. Qed.
Print Assumptions C59_notify_defined.

(** C59. if each name stands for one type in all sources, [store] is defined, except for a
    source without description (an assertion) and for booleans that are not ASCII. *)
Theorem C59_store_defined : forall ty h p utf8 vm vm' u,
  calls vm_new h vm -> consistent ty (h ++ [(p, utf8)]) -> store p vm utf8 = (vm', Undef u) ->
  pr_desc p = None \/ u = UB_ctype.
Proof.
  intros ty h p utf8 vm vm' u H Hc Hs.
  assert (Hm : typed_map ty (vm_map vm)).
  { eapply calls_typed; [exact H| |intros name v E; discriminate].
    intros q v ds name d Hi. apply (Hc q v). apply in_or_app. now left. }
  eapply store_typed; [|exact Hm|exact Hs|reflexivity]. intros ds name d.
  apply (Hc p utf8). apply in_or_app. right. now left.
Qed.
Print Assumptions C59_store_defined.

(** C59. With two types under one name, [store] may run into an assertion (and dereference
    a null pointer if those are disabled). *)
Definition o_number_string := mk_od [] [$"number"] $"a string" (typed lex local (mk_typed TString (Some 4) [] None None true false false false None)).
Definition o_number_ints := mk_od [] [$"number"] $"ints" (typed lex local tints).
Theorem C59_mixed_types_refuted :
  exists vm vm2,
    store (mk_parsed [given_as $"number" [$"x"]] (Some [o_number_string]) 0) vm_new false = (vm, Ok tt)
    /\ store (mk_parsed [given_as $"number" [$"1"]] (Some [o_number_ints]) 0) vm false = (vm2, Undef UB_assert).
Proof. eexists. eexists. split; run_store. Qed.
Print Assumptions C59_mixed_types_refuted.

Lemma known_library d : In d known -> exists t, library_semantic t (od_sem d).
Proof.
  intros [<-|[<-|[<-|[<-|[<-|[<-|[]]]]]]]; eexists; left; exists lex, local;
    (eexists; split; [reflexivity|]; split; [reflexivity|]; split; [split; exact I || reflexivity|discriminate]).
Qed.

Example C59_ex :
  let vm1 := fst (store bad_source vm_new false) in
  let vm2 := fst (store good_source vm1 false) in
  let vm3 := fst (store src1 vm2 false) in
  calls vm_new [(bad_source, false); (good_source, false); (src1, false)] vm3
  /\ library_only [(bad_source, false); (good_source, false); (src1, false)].
Proof.
  split.
  - eapply cls_cons; [run_store|right; eexists; reflexivity|].
    eapply cls_cons; [run_store|right; eexists; reflexivity|].
    eapply cls_cons; [run_store|left; reflexivity|]. apply cls_nil.
  - intros p u ds d [E|[E|[E|[]]]] Hds Hd; injection E as <- <-; injection Hds as <-; now apply known_library.
Qed.

Example C59_ex_consistent :
  let p := mk_parsed [given_as $"number" [$"x"]; given_as $"level" []] (Some [o_number; o_level]) 0 in
  consistent (fun _ => TLex 0) ([] ++ [(p, false)]).
Proof.
  intros p q u ds name d [E|[]] Hds Hd. injection E as <- <-. injection Hds as <-.
  assert (Hin : In d [o_number; o_level]).
  { destruct Hd as [Hd|[Hd _]]; auto. unfold find in Hd. apply bind_Ok in Hd.
    destruct Hd as ([x|] & Hd & E); [|discriminate]. injection E as <-. now apply find_found_In in Hd. }
  left. exists lex, local.
  destruct Hin as [<-|[<-|[]]]; eexists; (split; [reflexivity|]; split; [reflexivity|]; split; [split; exact I || reflexivity|discriminate]).
Qed.
