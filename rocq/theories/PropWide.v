(** C61: where values come from.  C62-C65: wide character interfaces. *)

From Coq Require Import List Ascii String NArith ZArith Bool Arith Lia.
From Verif Require Import Base Errors Spec BaseFacts Values OptDesc SpecLookup LookupFacts Positional Cmdline SpecCmdline
  CmdlineFacts RunFacts Parsers ConfigFile VarMap SpecStore StoreFacts SemFacts Winmain SpecSplit SplitFacts
  Convert SpecConvert ConvertFacts Wide SpecWide WideFacts WideFacts2 WideFacts3 Samples PropCmdline PropStore PropSplit PropConvert.
From Verif Require Import Witness.
Import ListNotations.

(** C61. The values of the parsed options, read from the first to the last, come from the tokens in their order; a
    token supplies at most one, which is the whole token or the non-empty text attached to an option name in it. *)
Theorem C61_values_from_tokens : forall c args res,
  plain c -> parse c args = Ok res -> supplies c args (values_in_order res).
Proof. exact supply_lemma. Qed.
Print Assumptions C61_values_from_tokens.

Example C61_ex :
  let c := sample_cl default_style in
  exists r, plain c /\ parse c [$"x"; $"--number=3"; $"-vofile"; $"--in"; $"a"; $"b"; $"-h"] = Ok r
    /\ values_in_order r = [$"x"; $"3"; $"file"; $"a"; $"b"].
Proof. eexists. split; [split; reflexivity|]. split; reflexivity. Qed.

(** C62. Parsing a wide command line has the same outcome as parsing its UTF-8 form, and the values and tokens of the
    result are the wide forms of the narrow ones, provided that no byte outside ASCII is taken for a short option. *)
Theorem C62_wide_parse : forall c fuel wargs args,
  plain c -> ascii_shorts c -> Forall2 utf8_text wargs args ->
  (exists p ws, parser_run fuel c args = Ok p /\ wparser_run fuel c wargs = Ok (mk_wparsed ws p)
     /\ Forall2 wide_of ws (pr_options p))
  \/ (exists e, parser_run fuel c args = Throw e /\ wparser_run fuel c wargs = Throw e)
  \/ (exists u, parser_run fuel c args = Undef u /\ wparser_run fuel c wargs = Undef u)
  \/ (parser_run fuel c args = NoFuel /\ wparser_run fuel c wargs = NoFuel).
Proof. exact wide_run_lemma. Qed.
Print Assumptions C62_wide_parse.

(** C62. So no wide token is lost, altered or reordered, *)
Theorem C62_tokens_kept : forall c wargs p,
  plain c -> ascii_shorts c -> ~ bit (cl_style c) 12 -> Forall wide_text wargs ->
  wparser_run (List.length wargs) c wargs = Ok p ->
  List.concat (map wo_orig (wp_options p)) = wargs
  \/ exists pre post, wargs = pre ++ widen dashdash :: post
       /\ List.concat (map wo_orig (wp_options p)) = pre ++ post.
Proof.
  intros c wargs p Hp Hs Hd Hw H. destruct (wide_forms _ Hw) as [args Ha].
  destruct (C62_wide_parse c (List.length wargs) wargs args Hp Hs Ha) as [(q & ws & E1 & E2 & F)|[(e & _ & E)|[(u & _ & E)|[_ E]]]]; try congruence.
  rewrite H in E2. injection E2 as ->. cbn [wp_options]. unfold parser_run in E1. apply bind_Ok in E1. destruct E1 as (res & Er & [= <-]).
  cbn [pr_options] in F. assert (El : List.length wargs = List.length args) by (clear -Ha; induction Ha; cbn; auto).
  rewrite El in Er. apply C12_token_conservation in Er; auto.
  assert (Ft : Forall2 utf8_text (List.concat (map wo_orig ws)) (tokens_of res)).
  { clear -F. unfold tokens_of. induction F as [|w o ws os (_ & _ & _ & _ & Ho) _ IH]; cbn; auto. now apply Forall2_app. }
  assert (Inj : forall a b l, Forall2 utf8_text a l -> Forall2 utf8_text b l -> a = b).
  { clear. intros a b l H. revert b. induction H; intros b H'; inversion H'; subst; auto. f_equal; auto. eapply utf8_text_inj; eauto. }
  destruct Er as [Er|(pre & post & Ea & Er)].
  - left. rewrite Er in Ft. eapply Inj; eauto.
  - right. rewrite Ea in Ha. apply Forall2_app_inv_r in Ha. destruct Ha as (wpre & wrest & H1 & H2 & ->).
    inversion H2 as [|wd ? wpost ? Hdd H3]. subst. exists wpre, wpost. split.
    + f_equal. f_equal. eapply utf8_text_inj; [exact Hdd|]. apply widen_text. repeat constructor.
    + rewrite Er in Ft. eapply Inj; [exact Ft|]. now apply Forall2_app.
Qed.
Print Assumptions C62_tokens_kept.

(** C62. and the unrecognised wide tokens are the wide forms of the unrecognised narrow ones. *)
Theorem C62_unrecognized : forall ws os mode,
  Forall2 wide_of ws os -> Forall2 utf8_text (wcollect_unrecognized ws mode) (collect_unrecognized os mode).
Proof.
  intros ws os mode H. induction H as [|w o ws os (_ & Hp & Hu & _ & Ho) _ IH]; cbn [wcollect_unrecognized collect_unrecognized]; auto.
  rewrite Hp, Hu. apply Forall2_app; auto. destruct (_ || _); auto.
Qed.
Print Assumptions C62_unrecognized.

Lemma sample_ascii_shorts : ascii_shorts (sample_cl default_style).
Proof.
  right. split; [reflexivity|]. intros x Hx d.
  assert (E : lookup (sample_cl default_style) [c_dash; x] = Ok None).
  { revert Hx. destruct x as [[] [] [] [] [] [] [] []]; intros Hx; try (destruct Hx; reflexivity); vm_compute; reflexivity. }
  rewrite E. discriminate.
Qed.

(** C62. A Cyrillic value and a Cyrillic positional argument, *)
Definition zhe : N := 1078.
Example C62_ex :
  let c := sample_cl default_style in
  let wargs := [widen $"--output=" ++ [zhe; zhe]; [zhe]; widen $"-v"] in
  plain c /\ ascii_shorts c /\ Forall wide_text wargs
  /\ exists p, wparser_run 3 c wargs = Ok p
     /\ map wo_value (wp_options p) = [[[zhe; zhe]]; [[zhe]]; []]
     /\ List.concat (map wo_orig (wp_options p)) = wargs.
Proof.
  split; [split; reflexivity|]. split; [exact sample_ascii_shorts|]. split; [repeat constructor|].
  compute_ex.
Qed.

(** C62. The proviso matters: if unregistered options are allowed, the first byte of a Cyrillic letter after a dash is
    taken for a short option, and converting the rest back fails although the narrow parse succeeds. *)
Theorem C62_split_character_refuted :
  exists wargs args p, Forall2 utf8_text wargs args
    /\ parser_run 1 (sample_cl_unreg default_style) args = Ok p
    /\ wparser_run 1 (sample_cl_unreg default_style) wargs = Throw conversion_failed.
Proof.
  assert (E : exists p, parser_run 1 (sample_cl_unreg default_style) [map ascii_of_N [45; 208; 182]%N] = Ok p) by compute_ex.
  destruct E as [p E]. exists [[45; zhe]%N], [map ascii_of_N [45; 208; 182]%N], p.
  split; [|split; [exact E|vm_compute; reflexivity]]. clear p E.
  repeat constructor. change (map ascii_of_N [45; 208; 182]%N) with ([c_dash] ++ map ascii_of_N [208; 182]%N ++ []).
  constructor; [exact (utf8_1 45 eq_refl)|]. constructor; [|constructor]. exact (utf8_2 zhe ltac:(vm_compute; split; [discriminate|reflexivity])).
Qed.
Print Assumptions C62_split_character_refuted.

(** C63. Parsing a wide config file has the same outcome as parsing its UTF-8 form, and the values of the result are
    the wide forms of the narrow ones; no proviso is needed. *)
Theorem C63_wide_config : forall wcontent content ds allow,
  utf8_text wcontent content ->
  (exists p ws, parse_config_file content ds allow = Ok p /\ wparse_config_file wcontent ds allow = Ok (mk_wparsed ws p)
     /\ Forall2 wide_of ws (pr_options p))
  \/ (exists e, parse_config_file content ds allow = Throw e /\ wparse_config_file wcontent ds allow = Throw e)
  \/ (exists u, parse_config_file content ds allow = Undef u /\ wparse_config_file wcontent ds allow = Undef u)
  \/ (parse_config_file content ds allow = NoFuel /\ wparse_config_file wcontent ds allow = NoFuel).
Proof. exact wide_config_lemma. Qed.
Print Assumptions C63_wide_config.

Example C63_ex :
  let w := widen $"# x
number = 3 # " ++ [zhe] ++ widen $"
output = " ++ [zhe; zhe] ++ widen $" z " in
  exists s p, utf8_text w s /\ wparse_config_file w sample false = Ok p
  /\ map wo_key (wp_options p) = [$"number"; $"output"]
  /\ map wo_value (wp_options p) = [[widen $"3"]; [[zhe; zhe] ++ widen $" z"]].
Proof.
  intros w. destruct (utf8_text_exists w) as [s Hs]; [repeat constructor|]. 
  assert (E : exists p, wparse_config_file w sample false = Ok p
    /\ map wo_key (wp_options p) = [$"number"; $"output"]
    /\ map wo_value (wp_options p) = [[widen $"3"]; [[zhe; zhe] ++ widen $" z"]]) by compute_ex.
  destruct E as [p E]. exists s, p. split; [exact Hs|exact E].
Qed.

(** ** C64 *)

Section WideValues.
Variable to_local : wstr -> outcome str.
Variable from_local : str -> outcome wstr.
Variable wlexical_cast : nat -> wstr -> option Z.
Variable wide_string : nat.
Variable wide_code : wstr -> Z.
Notation wsem := (wtyped to_local from_local wlexical_cast wide_string wide_code).

(** C64. A vector of wide values that may be composed contains the conversions of all wide values of all sources, in
    order; *)
Theorem C64_vector : forall tv t ps vm name,
  Forall wide_source ps -> wstores vm_new ps vm -> name <> [] ->
  tv_type tv = TVec t -> no_string t -> tv_composing tv = true -> tv_implicit tv = None ->
  (forall p d, In p ps -> wresolves p name d -> od_sem d = wsem tv) ->
  let occs := List.concat (map (fun p => woccurrences (wp_options p) name) ps) in
  occs <> [] ->
  exists ys v, Forall2 (wconverts wlexical_cast t) (List.concat occs) ys
    /\ entry vm name = Some v /\ vv_value v = Some (VVec t ys) /\ vv_defaulted v = false.
Proof.
  intros tv t ps vm name Hsrc H Hne Ht Hns Hco Hi Hsem occs Hocc.
  apply wstores_stores in H.
  assert (Hocc2 : Forall2 (fun xs ws => mapM from_utf8 xs = Ok ws) (all_occurrences (narrow_history ps) name) occs).
  { unfold occs, all_occurrences, narrow_history. clear -Hsrc. induction Hsrc as [|p ps Hp _ IH]; cbn; auto.
    apply Forall2_app; auto. now apply wide_source_occurrences. }
  assert (Hm : ~ never_mentioned (narrow_history ps) name).
  { intros Hn. apply Hocc. assert (E : all_occurrences (narrow_history ps) name = []).
    { clear -Hn. unfold all_occurrences. induction Hn as [|pu h Hp _ IH]; cbn; auto. rewrite IH, app_nil_r.
      unfold mentions in Hp. destruct (occurrences (pr_options (fst pu)) name); auto. destruct Hp. discriminate. }
    rewrite E in Hocc2. now inversion Hocc2. }
  destruct (mentioned_given _ _ _ name H Hne) as (v & Ev & Hd); [right; split; [intros []|auto]|].
  assert (Hin : forall p u, In (p, u) (narrow_history ps) -> u = true /\ exists wp, In wp ps /\ p = wp_utf8 wp).
  { intros p u Hx. unfold narrow_history in Hx. apply in_map_iff in Hx. destruct Hx as (wp & [= <- <-] & Hx). eauto. }
  assert (Hs : forall p u d, In (p, u) (narrow_history ps) -> resolves p name d -> od_sem d = wsem tv).
  { intros p u d Hx Hr. destruct (Hin p u Hx) as (_ & wp & Hwp & ->). apply (Hsem wp); auto. }
  assert (Ha : accumulated name None (narrow_history ps) (given (entry vm name))).
  { apply C37_composing_accumulates; auto. intros p u d Hx _ Hr. rewrite (Hs p u d Hx Hr). exact Hco. }
  assert (Hp : parsed_all (wsem tv) true None (all_occurrences (narrow_history ps) name) (given (entry vm name))).
  { assert (Hu : forall p u, In (p, u) (narrow_history ps) -> u = true) by (intros p u Hx; now destruct (Hin p u Hx)).
    clear - Ha Hs Hu. remember (narrow_history ps) as h. clear Heqh.
    induction Ha as [|a p u d a' h b Hr Hp _ IH|a p u h b Hn _ IH].
    - constructor.
    - unfold all_occurrences. cbn [map List.concat fst]. apply parsed_all_app. exists a'. split.
      + rewrite (Hs p u d) in Hp by (auto; now left). rewrite (Hu p u) in Hp by now left. exact Hp.
      + apply IH; [intros q v dd Hi; apply (Hs q v dd); now right|intros q v Hi; apply (Hu q v); now right].
    - unfold all_occurrences. cbn [map List.concat fst].
      assert (E : occurrences (pr_options p) name = []).
      { unfold mentions in Hn. destruct (occurrences (pr_options p) name); auto. contradiction Hn. discriminate. }
      rewrite E. apply IH; [intros q v dd Hi; apply (Hs q v dd); now right|intros q v Hi; apply (Hu q v); now right]. }
  apply (parsed_all_sim _ _ _ _ _ local) in Hp; [|now rewrite Ht].
  destruct Hp as (woccs & occs' & D & T & Hp). rewrite <- (same_decoding _ _ _ Hocc2 D) in T.
  pose proof Hp as Hp2.
  apply (vector_all _ _ tv t false Ht occs' None [] _ (or_introl Hi) (or_intror (conj eq_refl eq_refl))) in Hp2.
  destruct Hp2 as (occs2 & ys & Hdec & Hys & Hv).
  assert (E : occs2 = occs') by (clear -Hdec; induction Hdec as [|x y xs ys E _ IH]; auto; cbn in E; congruence). subst occs2.
  exists ys, v. split; [eapply converts_all; eauto; now apply concat_text|].
  rewrite Ev in Hv. unfold given in Hv. rewrite Hd in Hv. split; [auto|]. split; [|auto].
  destruct Hv as [Hv|[Hv _]]; [exact Hv|]. exfalso. rewrite Ev in Hp. unfold given in Hp. rewrite Hd, Hv in Hp.
  destruct T as [|ws xs occs1 occs2 _ T]; [now apply Hocc|].
  assert (G : forall os a b, parsed_all (typed (via_utf8 wlexical_cast) local tv) false a os b ->
    fits_type (tv_type tv) a -> (os <> [] \/ a <> None) -> b <> None).
  { clear -Hi. induction 1 as [a|a xs a' os b H1 _ IH]; intros Hf Hn; [destruct Hn; congruence|].
    assert (Hn' : a' <> None) by (eapply typed_Ok_some; eauto). apply IH; auto.
    cbn [typed vs_parse codecvt_parse] in H1. rewrite tv_xparse_no_implicit in H1 by auto. eapply validate_fits; [|exact H1]. exact Hf. }
  eapply G; [exact Hp|exact I|left; discriminate|reflexivity].
Qed.

(** C64. an option with one value has the conversion of the first wide value it is given. *)
Theorem C64_scalar : forall tv before p after vm name w others,
  Forall wide_source (before ++ p :: after) -> wstores vm_new (before ++ p :: after) vm -> name <> [] ->
  scalar (tv_type tv) -> no_string (tv_type tv) -> tv_composing tv = false -> tv_implicit tv = None ->
  (forall d, wresolves p name d -> od_sem d = wsem tv) ->
  Forall (fun q => woccurrences (wp_options q) name = []) before ->
  woccurrences (wp_options p) name = [w] :: others ->
  others = [] /\ exists y, wconverts wlexical_cast (tv_type tv) w y
    /\ entry vm name = Some (mk_vv (Some y) false (Some (wsem tv))).
Proof.
  intros tv before p after vm name w others Hsrc H Hne Hsc Hns Hco Hi Hsem Hb Hocc.
  apply wstores_stores in H. unfold narrow_history in H. rewrite map_app in H. cbn [map] in H.
  apply Forall_app in Hsrc. destruct Hsrc as [Hsb Hsp]. inversion Hsp as [|? ? Hp _]. subst.
  assert (Hmen : mentions (wp_utf8 p) name).
  { intros E. pose proof (wide_source_occurrences p name Hp) as F. rewrite E, Hocc in F. inversion F. }
  assert (Hnb : never_mentioned (map (fun q => (wp_utf8 q, true)) before) name).
  { clear -Hb Hsb. induction before as [|q before IH]; [constructor|]. inversion Hb. inversion Hsb. subst. constructor; [|now apply IH].
    intros Hm. apply Hm. pose proof (wide_source_occurrences q name H5) as F. rewrite H1 in F. cbn [fst]. now inversion F. }
  assert (Hr : exists d, resolves (wp_utf8 p) name d).
  { clear -H Hmen Hne Hnb. apply stores_app in H. destruct H as (vm1 & H1 & H2). inversion H2 as [|? ? ? vm2 ? ? Hs Hr]. subst.
    destruct (stores_unmentioned _ _ _ name H1 Hne Hnb) as [Hf _].
    destruct (store_entry _ _ _ _ name Hs Hne) as (ds & Eds & [([Ho|Ho] & _)|(_ & _ & d & _ & Hd & _)]).
    - contradiction Hmen.
    - apply Hf in Ho. contradiction.
    - exists d, ds. auto. }
  destruct Hr as [d Hr]. pose proof (Hsem d Hr) as Ed.
  destruct (C36_first_source_wins _ _ _ _ _ _ _ H Hne Hnb Hmen Hr) as (a & Hpa & He); [now rewrite Ed|].
  rewrite Ed in Hpa, He. apply (parsed_all_sim _ _ _ _ _ local) in Hpa; auto. destruct Hpa as (woccs & occs' & D & T & Hpa).
  rewrite <- (same_decoding _ _ _ (wide_source_occurrences p name Hp) D) in T. rewrite Hocc in T.
  inversion T as [|? xs ? occs2 Tx T2]. subst. inversion Tx as [|? x ? ? Hx Tn]. subst. inversion Tn. subst.
  destruct (scalar_all _ _ _ _ Hsc _ _ _ Hpa) as [_ Hot]. specialize (Hot _ _ eq_refl).
  assert (occs2 = []) as -> by (destruct Hot as [|? ? [_ Hc]]; [auto|contradiction]). inversion T2. subst. split; auto.
  inversion Hpa as [|? ? a' ? ? H1 H2]. subst. inversion H2. subst.
  cbn [typed vs_parse codecvt_parse] in H1. rewrite tv_xparse_no_implicit in H1 by auto.
  apply (validate_converts _ local) in H1. destruct H1 as (y & -> & Hy). exists y. split; auto. eapply converts_via; eauto.
Qed.

(** C64. Every wide value that denotes a value of the type is accepted, *)
Theorem C64_accepted : forall tv w x y,
  utf8_text w x -> wconverts wlexical_cast (tv_type tv) w y ->
  vs_parse (wsem tv) None [x] true = (Some y, Ok tt).
Proof.
  intros tv w x y Hx Hy. cbn [wtyped vs_parse]. unfold wcodecvt_parse. cbn [mapM]. rewrite (from_utf8_text _ _ Hx). cbn [bind].
  unfold wtv_xparse. destruct (tv_implicit tv) as [[]|]; now apply wconverts_validate.
Qed.

(** C64. but a wide character outside [0, 255] in a boolean is undefined behaviour, *)
Theorem C64_bool_undefined : forall tv w x,
  tv_type tv = TBool -> utf8_text w x -> Exists (fun c => 256 <= c)%N w ->
  vs_parse (wsem tv) None [x] true = (None, Undef UB_ctype).
Proof.
  intros tv w x Ht Hx Hw. cbn [wtyped vs_parse]. unfold wcodecvt_parse. cbn [mapM]. rewrite (from_utf8_text _ _ Hx). cbn [bind].
  assert (E : mapM wtolower w = Undef UB_ctype).
  { clear -Hw. induction w as [|c w IH]; [inversion Hw|]. cbn [mapM]. unfold wtolower at 1. destruct (N.ltb_spec c 256) as [Hc|Hc]; auto.
    cbn [bind]. rewrite IH; auto. inversion Hw; subst; auto. lia. }
  unfold wtv_xparse. rewrite Ht. destruct (tv_implicit tv) as [[]|]; cbn [wvalidate]; unfold wvalidate_bool;
    cbn [check_first_occurrence any_empty wget_single_string bind]; unfold wbool_of_string; now rewrite E.
Qed.

(** C64. and a narrow string declared with [wvalue] gets a value of another type: notifying a variable or a function
    dereferences a null pointer, *)
Theorem C64_narrow_string_refuted : forall tv w x,
  tv_type tv = TString -> tv_store_to tv <> None \/ tv_notifier tv <> None -> utf8_text w x ->
  exists a, vs_parse (wsem tv) None [x] true = (Some a, Ok tt) /\ value_ty a <> TString
    /\ vs_notify (wsem tv) (Some a) = ([], Undef UB_null).
Proof.
  intros tv w x Ht Hn Hx. exists (VLex wide_string (wide_code w)). split; [|split].
  - cbn [wtyped vs_parse]. unfold wcodecvt_parse. cbn [mapM]. rewrite (from_utf8_text _ _ Hx). cbn [bind].
    unfold wtv_xparse. rewrite Ht. destruct (tv_implicit tv) as [[]|]; reflexivity.
  - discriminate.
  - cbn [wtyped vs_notify]. unfold tv_notify. rewrite Ht. cbn [any_cast value_ty vty_eqb].
    destruct (tv_store_to tv) as [addr|]; [reflexivity|]. destruct (tv_notifier tv) as [[f body]|]; [reflexivity|].
    destruct Hn as [Hn|Hn]; now destruct Hn.
Qed.

(** C64. and a vector of narrow strings accepts no value at all. *)
Theorem C64_narrow_vector_refuted : forall tv w x ws xs,
  tv_type tv = TVec TString -> utf8_text w x -> Forall2 utf8_text ws xs ->
  vs_parse (wsem tv) None (x :: xs) true = (Some (VVec TString []), Throw (plain_exn bad_any_cast)).
Proof.
  intros tv w x ws xs Ht Hx Hxs. cbn [wtyped vs_parse]. unfold wcodecvt_parse. cbn [mapM]. rewrite (from_utf8_text _ _ Hx). cbn [bind].
  assert (E : mapM from_utf8 xs = Ok ws).
  { clear -Hxs. induction Hxs as [|w x ws xs H _ IH]; cbn [mapM]; auto. rewrite (from_utf8_text _ _ H), IH. reflexivity. }
  rewrite E. cbn [bind]. unfold wtv_xparse. rewrite Ht. destruct (tv_implicit tv) as [[]|]; reflexivity.
Qed.

(** C64. An option with narrow values that comes from a wide source sees the wide value in the local encoding. *)
Theorem C64_narrow_option : forall lexical_cast tv v ws xs ls,
  Forall2 utf8_text ws xs -> Forall2 (fun w l => to_local w = Ok l) ws ls ->
  vs_parse (typed lexical_cast (utf8_to_local to_local) tv) v xs true
  = vs_parse (typed lexical_cast (utf8_to_local to_local) tv) v ls false.
Proof.
  intros lc tv v ws xs ls Hx Hl. cbn [typed vs_parse codecvt_parse]. unfold codecvt_parse.
  assert (E : mapM (utf8_to_local to_local) xs = Ok ls).
  { revert ls Hl. induction Hx as [|w x ws xs H _ IH]; intros ls Hl; inversion Hl as [|? l ? ls' H1 H2]; subst; cbn [mapM]; auto.
    unfold utf8_to_local at 1. rewrite (from_utf8_text _ _ H). cbn [bind]. rewrite H1. cbn [bind]. rewrite (IH _ H2). reflexivity. }
  now rewrite E.
Qed.

End WideValues.
Print Assumptions C64_vector.
Print Assumptions C64_scalar.
Print Assumptions C64_accepted.
Print Assumptions C64_bool_undefined.
Print Assumptions C64_narrow_string_refuted.
Print Assumptions C64_narrow_vector_refuted.
Print Assumptions C64_narrow_option.

(** C64. Two wide sources: a command line and a config file, with a vector of wide strings (type 1, each string
    numbered by its length) and a boolean. *)
Definition wlex (n : nat) (w : wstr) : option Z := Some (Z.of_nat (List.length w)).
Definition wnone (w : wstr) : outcome str := Throw conversion_failed.
Definition wsample_names := mk_typed (TVec (TLex 1)) None [] None None true true false false None.
Definition wsample_flag := mk_typed TBool None [] None None false false false false None.
Definition wsample : list option_description :=
  [mk_od [] [$"names"] [] (wtyped wnone (fun _ => Throw conversion_failed) wlex 1 (fun w => Z.of_nat (List.length w)) wsample_names);
   mk_od [] [$"loud"] [] (wtyped wnone (fun _ => Throw conversion_failed) wlex 1 (fun w => Z.of_nat (List.length w)) wsample_flag)].
Definition wsample_args := [widen $"--names"; [zhe]; [zhe; zhe]; widen $"--loud=YES"].
Definition wsample_config := widen $"names = abc" ++ [zhe] ++ [10%N] ++ widen $"loud = off".
Definition ok_or {A} (d : A) (x : outcome A) : A := match x with Ok a => a | _ => d end.
Lemma ok_or_Ok {A} (d : A) x : match x with Ok _ => true | _ => false end = true -> x = Ok (ok_or d x).
Proof. destruct x; cbn; intros H; discriminate || reflexivity. Qed.
Definition wsample_none := mk_wparsed [] (mk_parsed [] None 0).
Definition wsample_p1 := ok_or wsample_none (wparser_run 4 (mk_cl default_style false wsample None None None) wsample_args).
Definition wsample_p2 := ok_or wsample_none (wparse_config_file wsample_config wsample false).
Example C64_ex :
  exists p1 p2 vm,
    wparser_run 4 (mk_cl default_style false wsample None None None) wsample_args = Ok p1
    /\ wparse_config_file wsample_config wsample false = Ok p2
    /\ wstores vm_new [p1; p2] vm
    /\ woccurrences (wp_options p1) $"names" = [[[zhe]; [zhe; zhe]]]
    /\ woccurrences (wp_options p1) $"loud" = [[widen $"YES"]]
    /\ option_map vv_value (entry vm $"names") = Some (Some (VVec (TLex 1) [VLex 1 1; VLex 1 2; VLex 1 4]))
    /\ option_map vv_value (entry vm $"loud") = Some (Some (VBool true)).
Proof.
  exists wsample_p1, wsample_p2, (fst (wstore wsample_p2 (fst (wstore wsample_p1 vm_new)))).
  split; [apply ok_or_Ok; vm_compute; reflexivity|]. split; [apply ok_or_Ok; vm_compute; reflexivity|].
  split; [|split; [vm_compute; reflexivity|split; [vm_compute; reflexivity|split; vm_compute; reflexivity]]].
  assert (G : forall p vm, match snd (wstore p vm) with Ok tt => true | _ => false end = true -> wstore p vm = (fst (wstore p vm), Ok tt)).
  { intros p vm. destruct (wstore p vm) as [v [[]|e|u|]]; cbn; intros H; discriminate || reflexivity. }
  econstructor; [|econstructor; [|constructor]]; apply G; vm_compute; reflexivity.
Qed.

(** C65. Splitting a wide command line splits its UTF-8 form; nothing can fail. *)
Theorem C65_wide_winmain : forall wtext text, utf8_text wtext text ->
  exists wargs, wsplit_winmain wtext = Ok wargs /\ Forall2 utf8_text wargs (split_winmain text).
Proof. exact wide_winmain_lemma. Qed.
Print Assumptions C65_wide_winmain.

(** C65. So splitting a wide command line inverts quoting, *)
Theorem C65_inverts_quoting : forall wargs args wtext text,
  utf8_text wtext text -> Forall2 utf8_text wargs args -> win_line args text -> wsplit_winmain wtext = Ok wargs.
Proof.
  intros wargs args wtext text Ht Ha Hl. destruct (C65_wide_winmain _ _ Ht) as (wargs' & -> & F).
  rewrite (C49_winmain _ _ Hl) in F. f_equal. clear -F Ha. revert wargs' F. induction Ha; intros wargs' F; inversion F; subst; auto.
  f_equal; auto. eapply utf8_text_inj; eauto.
Qed.
Print Assumptions C65_inverts_quoting.

Example C65_ex :
  exists wtext text, utf8_text wtext text /\ win_line [$"a b"; map ascii_of_N [208; 182]%N] text
    /\ wsplit_winmain wtext = Ok [widen $"a b"; [zhe]].
Proof.
  exists ([34; 97; 32; 98; 34; 32; zhe]%N), ([c_dq] ++ $"a b" ++ [c_dq] ++ $" " ++ map ascii_of_N [208; 182]%N).
  split; [|split].
  - exact (ut_cons 34 _ _ _ (utf8_1 34 eq_refl) (ut_cons 97 _ _ _ (utf8_1 97 eq_refl) (ut_cons 32 _ _ _ (utf8_1 32 eq_refl)
      (ut_cons 98 _ _ _ (utf8_1 98 eq_refl) (ut_cons 34 _ _ _ (utf8_1 34 eq_refl) (ut_cons 32 _ _ _ (utf8_1 32 eq_refl)
      (ut_cons zhe _ [] [] (utf8_2 zhe ltac:(vm_compute; split; [discriminate|reflexivity])) ut_nil))))))).
  - apply (wl_arg [] $"a b" ([c_dq] ++ $"a b" ++ [c_dq])).
    + constructor.
    + apply ww_quoted. apply (wb_char 0 "a"%char); try discriminate. apply (wb_char 0 " "%char); try discriminate.
      apply (wb_char 0 "b"%char); try discriminate. exact (wb_end 0).
    + apply (wl_arg $" " (map ascii_of_N [208; 182]%N) (map ascii_of_N [208; 182]%N) [] []).
      * constructor; [right; reflexivity|constructor].
      * apply ww_plain; [discriminate|]. repeat constructor; try discriminate; unfold space; cbn; lia.
      * constructor. constructor.
      * auto.
    + right. eexists _, _. split; [reflexivity|]. right. reflexivity.
  - vm_compute. reflexivity.
Qed.
