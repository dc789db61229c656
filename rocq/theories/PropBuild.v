(** C66-C68: declaring values and options, configuring parsers. *)

From Coq Require Import List Ascii String NArith ZArith Bool Arith Lia.
From Verif Require Import Base Errors Spec BaseFacts Values OptDesc SpecLookup LookupFacts Positional Cmdline
  Parsers SpecCmdline CongruenceFacts Build SpecBuild BuildFacts Samples.
Import ListNotations.

(** ** C66: setters *)

Section C66.
Variables (lexical_cast : nat -> str -> option Z) (utf8_to_local : str -> outcome str)
  (to_text : value -> outcome str).

(** C66. After any chain of setter calls on [value<T>(address)]: an option is required or
    composing iff some call said so, *)
Theorem C66_flags : forall t addr calls tv,
  declare_value to_text t addr calls = Ok tv ->
  let s := typed lexical_cast utf8_to_local tv in
  (vs_required s = true <-> In call_required calls)
  /\ (vs_composing s = true <-> In call_composing calls).
Proof.
  intros t addr calls tv H. apply chain_fields in H. subst tv. cbn. split; apply occurs_call; intros []; cbn; split; congruence.
Qed.

(** C66. the default is that of the last call that gave one, *)
Theorem C66_default : forall t addr calls tv,
  declare_value to_text t addr calls = Ok tv ->
  let s := typed lexical_cast utf8_to_local tv in
  (forall v text, last_call (says_default to_text) calls (v, text) -> vs_default s = Some (Some v))
  /\ (no_call (says_default to_text) calls -> vs_default s = None).
Proof.
  intros t addr calls tv H. apply chain_fields in H. subst tv.
  cbn [typed vs_default tv_default value_of_type]. split.
  - intros v text Hl. now rewrite (latest_last (says_f_default to_text) _ Hl).
  - intros Hn. now rewrite (latest_silent (says_f_default to_text) Hn).
Qed.

(** C66. the number of tokens depends on the calls [multitoken], [zero_tokens] and
    [implicit_value] in this way, whatever their order, *)
Theorem C66_tokens : forall t addr calls tv,
  declare_value to_text t addr calls = Ok tv ->
  let s := typed lexical_cast utf8_to_local tv in
  (In call_multitoken calls -> vs_max s = UINT_MAX)
  /\ (~ In call_multitoken calls -> In call_zero_tokens calls -> vs_max s = 0%Z)
  /\ (~ In call_multitoken calls -> ~ In call_zero_tokens calls -> vs_max s = 1%Z)
  /\ (In call_zero_tokens calls -> vs_min s = 0%Z)
  /\ (forall c x, In c calls -> says_implicit to_text c x -> vs_min s = 0%Z)
  /\ (~ In call_zero_tokens calls -> no_call (says_implicit to_text) calls -> vs_min s = 1%Z).
Proof.
  intros t addr calls tv H. apply chain_fields in H. subst tv.
  cbn [typed vs_max vs_min tv_max_tokens tv_min_tokens tv_multitoken tv_zero_tokens tv_implicit value_of_type].
  assert (M : occurs is_multitoken false calls = true <-> In call_multitoken calls)
    by (apply occurs_call; intros []; cbn; split; congruence).
  assert (Z : occurs is_zero_tokens false calls = true <-> In call_zero_tokens calls)
    by (apply occurs_call; intros []; cbn; split; congruence).
  unfold tv_max_tokens, tv_min_tokens. cbn [tv_multitoken tv_zero_tokens tv_implicit].
  destruct (latest_cases (says_f_implicit to_text) calls None) as [(y & Hy & ->)|[Hn ->]];
    destruct (occurs is_multitoken false calls), (occurs is_zero_tokens false calls); cbn [is_some orb];
    destruct M as [M1 M2], Z as [Z1 Z2];
    repeat split; intros; try reflexivity; exfalso;
    try (now specialize (M2 H)); try (now specialize (Z2 H)); try (now specialize (Z2 H0));
    try (now apply H, M1); try (now apply H, Z1); try (now apply H0, Z1);
    try (now apply (Hn _ _ H H0));
    destruct Hy as (b & c & a & E & Hc & _); apply (H0 c y); auto; rewrite E; apply in_or_app; right; now left.
Qed.

(** C66. an occurrence without value stores the implicit value of the last call that gave one;
    otherwise no setter influences how values are read, *)
Theorem C66_values : forall t addr calls tv,
  declare_value to_text t addr calls = Ok tv ->
  let s := typed lexical_cast utf8_to_local tv in
  let plain := typed lexical_cast utf8_to_local (value_of_type t None) in
  (forall v text, last_call (says_implicit to_text) calls (v, text) ->
     forall stored utf8, vs_parse s stored [] utf8 = (Some v, Ok tt))
  /\ (forall stored xs utf8, xs <> [] \/ no_call (says_implicit to_text) calls ->
        vs_parse s stored xs utf8 = vs_parse plain stored xs utf8).
Proof.
  intros t addr calls tv H. apply chain_fields in H. subst tv.
  cbn [typed vs_parse]. unfold tv_xparse. cbn [tv_implicit tv_type value_of_type]. split.
  - intros v text Hl stored utf8. rewrite (latest_last (says_f_implicit to_text) _ Hl). now destruct utf8.
  - intros stored xs utf8 Hx.
    assert (E : forall ys, ys <> [] \/ no_call (says_implicit to_text) calls ->
      match ys, latest (f_implicit to_text) None calls with
      | [], Some (iv, _) => (Some iv, Ok tt)
      | _, _ => validate lexical_cast t stored ys
      end = match ys with [] => validate lexical_cast t stored ys | _ => validate lexical_cast t stored ys end).
    { intros [|y ys] Hy; [|reflexivity]. destruct Hy as [Hy|Hy]; [congruence|].
      now rewrite (latest_silent (says_f_implicit to_text) Hy). }
    unfold codecvt_parse. destruct utf8; [|now apply E].
    destruct (mapM utf8_to_local xs) as [ys| | |] eqn:Em; try reflexivity. apply E.
    destruct Hx as [Hx|Hx]; [left|now right]. intros ->. destruct xs as [|x xs]; [congruence|].
    cbn [mapM] in Em. destruct (utf8_to_local x); try discriminate. cbn [bind] in Em.
    destruct (mapM utf8_to_local xs); discriminate.
Qed.

(** C66. notification of a value of the declared type assigns the variable, then calls the
    notifier of the last call that gave one, *)
Theorem C66_notify : forall t addr calls tv v,
  declare_value to_text t addr calls = Ok tv -> value_ty v = t ->
  let s := typed lexical_cast utf8_to_local tv in
  let stored := match addr with Some a => [EvStore a v] | None => [] end in
  (forall id body, last_call says_notifier calls (id, body) ->
     vs_notify s (Some v)
     = (stored ++ [EvCall id v], match body v with Some e => Throw e | None => Ok tt end))
  /\ (no_call says_notifier calls -> vs_notify s (Some v) = (stored, Ok tt)).
Proof.
  intros t addr calls tv v H Hv. apply chain_fields in H. subst tv.
  cbn [typed vs_notify]. unfold tv_notify. cbn [tv_type tv_store_to tv_notifier value_of_type any_cast].
  assert (R : forall x, vty_eqb x x = true).
  { intros x. induction x; cbn; auto. apply Nat.eqb_refl. }
  rewrite Hv, R. split.
  - intros id body Hl. rewrite (latest_last says_f_notifier _ Hl). now destruct addr.
  - intros Hn. rewrite (latest_silent says_f_notifier Hn). now destruct addr.
Qed.

Lemma help_shown arg : forall t addr calls tv,
  declare_value to_text t addr calls = Ok tv ->
  forall name d i,
    (last_call says_name calls name /\ name <> []
     \/ (last_call says_name calls [] \/ no_call says_name calls) /\ name = arg) ->
    text_left (says_default to_text) calls d -> text_left (says_implicit to_text) calls i ->
    argument_shown name d i (tv_name_with arg tv).
Proof.
  intros t addr calls tv H name d i Hn Hd Hi. apply chain_fields in H. subst tv.
  unfold tv_name_with. cbn [tv_value_name tv_default tv_implicit value_of_type]. cbv zeta.
  assert (En : (if is_empty (match latest f_name None calls with Some n => n | None => [] end) then arg
                else match latest f_name None calls with Some n => n | None => [] end) = name).
  { destruct Hn as [[Hn Hne]|[[Hn|Hn] ->]].
    - rewrite (latest_last says_f_name _ Hn). apply is_empty_false in Hne. now rewrite Hne.
    - now rewrite (latest_last says_f_name _ Hn).
    - now rewrite (latest_silent says_f_name Hn). }
  rewrite En. clear En Hn.
  assert (Ed : forall says f (Hf : forall c x, says c x <-> f c = Some x) o, text_left says calls o ->
    match o with
    | Some x => exists v, latest f None calls = Some (v, x) /\ is_empty x = false
    | None => latest f None calls = None \/ exists v, latest f None calls = Some (v, [])
    end).
  { intros says f Hf [x|] Ho; cbn [text_left] in Ho.
    - destruct Ho as (Hx & v & Hv). exists v. split; [apply (latest_last Hf _ Hv)|now apply is_empty_false].
    - destruct Ho as [Ho|[v Hv]]; [left; apply (latest_silent Hf Ho)|right; exists v; apply (latest_last Hf _ Hv)]. }
  apply (Ed _ _ (says_f_default to_text)) in Hd. apply (Ed _ _ (says_f_implicit to_text)) in Hi.
  destruct d as [d|], i as [i|].
  - destruct Hd as (v & -> & Ed'), Hi as (w & -> & Ei). rewrite Ed', Ei. cbn [negb].
    apply (as_both name d i).
  - destruct Hd as (v & -> & Ed'). rewrite Ed'. destruct Hi as [->|[w ->]]; cbn [negb is_empty]; apply as_default.
  - destruct Hi as (v & -> & Ei). rewrite Ei. destruct Hd as [->|[w ->]]; cbn [negb is_empty];
      rewrite app_nil_r; apply as_implicit.
  - destruct Hd as [->|[w ->]], Hi as [->|[w' ->]]; cbn [negb is_empty]; apply as_plain.
Qed.

(** C66. and help shows the name, default and implicit text of the last calls that gave them. *)
Theorem C66_help : forall t addr calls tv,
  declare_value to_text t addr calls = Ok tv ->
  forall name d i,
    (last_call says_name calls name /\ name <> []
     \/ (last_call says_name calls [] \/ no_call says_name calls) /\ name = $"arg") ->
    text_left (says_default to_text) calls d -> text_left (says_implicit to_text) calls i ->
    argument_shown name d i (vs_name (typed lexical_cast utf8_to_local tv)).
Proof. exact (help_shown $"arg"). Qed.

(** C66. The chain returns normally if the texts it needs can be made; otherwise the exception
    of the first failing conversion leaves it. *)
Theorem C66_chain_returns : forall t addr calls,
  (forall c v, In c calls -> asks_text c v -> exists text, to_text v = Ok text) ->
  exists tv, declare_value to_text t addr calls = Ok tv.
Proof. intros. now apply text_ok_chain. Qed.

Theorem C66_chain_throws : forall t addr before c v e after,
  (forall c' v', In c' before -> asks_text c' v' -> exists text, to_text v' = Ok text) ->
  asks_text c v -> to_text v = Throw e ->
  declare_value to_text t addr (before ++ c :: after) = Throw e.
Proof. intros. eapply text_bad_chain; eauto. Qed.

(** C66. Nothing but these last calls matters: two chains that agree on them declare the same value. *)
Theorem C66_only_last_calls : forall t addr calls1 calls2 tv1 tv2,
  declare_value to_text t addr calls1 = Ok tv1 -> declare_value to_text t addr calls2 = Ok tv2 ->
  (forall x, last_call (says_default to_text) calls1 x <-> last_call (says_default to_text) calls2 x) ->
  (forall x, last_call (says_implicit to_text) calls1 x <-> last_call (says_implicit to_text) calls2 x) ->
  (forall x, last_call says_name calls1 x <-> last_call says_name calls2 x) ->
  (forall x, last_call says_notifier calls1 x <-> last_call says_notifier calls2 x) ->
  (forall c, In c [call_composing; call_multitoken; call_zero_tokens; call_required] ->
     (In c calls1 <-> In c calls2)) ->
  tv1 = tv2.
Proof.
  intros t addr calls1 calls2 tv1 tv2 H1 H2 Hd Hi Hn Hf Hb.
  apply chain_fields in H1. apply chain_fields in H2. subst tv1 tv2.
  assert (L : forall X (says : tv_call -> X -> Prop) f (Sf : forall c x, says c x <-> f c = Some x),
    (forall x, last_call says calls1 x <-> last_call says calls2 x) ->
    latest f None calls1 = latest f None calls2).
  { intros X says f Sf E. destruct (latest_cases Sf calls1 None) as [(y & Hy & ->)|[Hno ->]].
    - apply E in Hy. symmetry. apply (latest_last Sf _ Hy).
    - destruct (latest_cases Sf calls2 None) as [(y & Hy & _)|[_ ->]]; [|reflexivity].
      apply E in Hy. destruct Hy as (b & c & a & -> & Hc & _). exfalso. apply (Hno c y); [|exact Hc].
      apply in_or_app. right. now left. }
  assert (B : forall is c0, (forall c, is c = true <-> c = c0) -> In c0 [call_composing; call_multitoken; call_zero_tokens; call_required] ->
    occurs is false calls1 = occurs is false calls2).
  { intros is c0 Hc Hin. pose proof (occurs_call is calls1 Hc) as A1. pose proof (occurs_call is calls2 Hc) as A2.
    specialize (Hb c0 Hin). destruct (occurs is false calls1), (occurs is false calls2); intuition. }
  cbn [value_of_type tv_type tv_store_to tv_value_name tv_default tv_implicit tv_composing tv_multitoken
        tv_zero_tokens tv_required tv_notifier].
  rewrite (L _ _ _ (says_f_default to_text) Hd), (L _ _ _ (says_f_implicit to_text) Hi),
    (L _ _ _ says_f_name Hn), (L _ _ _ says_f_notifier Hf).
  rewrite (B is_composing call_composing), (B is_multitoken call_multitoken),
    (B is_zero_tokens call_zero_tokens), (B is_required call_required); try reflexivity;
    try (intros []; cbn; split; congruence); cbn; tauto.
Qed.

(** C66. [bool_switch] is a boolean value with default [false] and no tokens. *)
Theorem C66_bool_switch : forall addr,
  to_text (VBool false) = Ok $"0" ->
  declare_value to_text TBool addr [call_default (VBool false); call_zero_tokens] = Ok (bool_switch addr).
Proof. intros addr H. unfold declare_value. cbn [tv_chain tv_apply]. rewrite H. reflexivity. Qed.

End C66.
Print Assumptions C66_flags.
Print Assumptions C66_default.
Print Assumptions C66_tokens.
Print Assumptions C66_values.
Print Assumptions C66_notify.
Print Assumptions C66_help.
Print Assumptions C66_chain_returns.
Print Assumptions C66_chain_throws.
Print Assumptions C66_only_last_calls.
Print Assumptions C66_bool_switch.

(** Text of sample numbers: only one digit. *)
Definition digit_text (v : value) : outcome str :=
  match v with
  | VLex _ z => if (Z.leb 0 z && Z.leb z 9)%bool then Ok [ascii_of_N (48 + Z.to_N z)]
                else Throw (plain_exn (std_logic_error $"bad lexical cast"))
  | _ => Throw (plain_exn (std_logic_error $"bad lexical cast"))
  end.
Definition ex_calls : list tv_call :=
  [call_default (VLex 0 1); call_zero_tokens; call_implicit (VLex 0 7); call_value_name $"n";
   call_notifier (3, fun _ => None); call_default_text (VLex 0 2) $"two"; call_required].

Example C66_ex :
  (exists tv, declare_value digit_text (TLex 0) (Some 5) ex_calls = Ok tv
     /\ vs_name (typed lex local tv) = $"[=n(=7)] (=two)"
     /\ vs_default (typed lex local tv) = Some (Some (VLex 0 2))
     /\ vs_notify (typed lex local tv) (Some (VLex 0 4)) = ([EvStore 5 (VLex 0 4); EvCall 3 (VLex 0 4)], Ok tt))
  /\ last_call (says_default digit_text) ex_calls (VLex 0 2, $"two")
  /\ last_call (says_implicit digit_text) ex_calls (VLex 0 7, $"7")
  /\ last_call says_name ex_calls $"n"
  /\ no_call says_notifier [call_required; call_composing]
  /\ declare_value digit_text (TLex 0) None [call_composing; call_default (VLex 0 12)]
     = Throw (plain_exn (std_logic_error $"bad lexical cast")).
Proof.
  split; [eexists; repeat split; reflexivity|].
  split; [exists (firstn 5 ex_calls), (call_default_text (VLex 0 2) $"two"), [call_required]; repeat split;
    [constructor|intros c y [<-|[]] Hx; inversion Hx]|].
  split; [exists (firstn 2 ex_calls), (call_implicit (VLex 0 7)), (skipn 3 ex_calls); repeat split;
    [now constructor|intros c y [<-|[<-|[<-|[<-|[]]]]] Hx; inversion Hx]|].
  split; [exists (firstn 3 ex_calls), (call_value_name $"n"), (skipn 4 ex_calls); repeat split;
    intros c y [<-|[<-|[<-|[]]]] Hx; inversion Hx|].
  split; [|reflexivity]. intros c x [<-|[<-|[]]] Hx; inversion Hx.
Qed.

(** ** C67: configuring a parser *)

(** C67. A chain of calls on a parser is accepted if every style in it can be used, *)
Theorem C67_chain_accepted : forall args calls,
  styles_good calls -> exists p, parser_chain (new_parser args) calls = Ok p.
Proof. intros. now apply parser_chain_ok. Qed.
Print Assumptions C67_chain_accepted.

(** C67. and rejected at the first style that cannot. *)
Theorem C67_chain_rejected : forall args before s after,
  styles_good before -> ~ good_style s ->
  exists msg, parser_chain (new_parser args) (before ++ call_style s :: after)
              = Throw (plain_exn (invalid_command_line_style msg)).
Proof. intros. now apply parser_chain_bad. Qed.
Print Assumptions C67_chain_rejected.

(** C67. [run] then parses the arguments with the settings of the last calls; the order of the
    calls does not matter otherwise. *)
Theorem C67_run : forall fuel args calls p c,
  parser_chain (new_parser args) calls = Ok p -> configured calls c ->
  (let* r := parser_object_run fuel p in Ok (fst r)) = parser_run fuel c args.
Proof.
  intros fuel args calls p c H Hc. rewrite (configured_chain _ H Hc). unfold parser_object_run.
  cbn [ps_args ps_style ps_allow_unregistered ps_desc ps_positional ps_additional ps_style_parser].
  replace (mk_cl _ _ _ _ _ _) with c by now destruct c. now destruct (parser_run fuel c args).
Qed.
Print Assumptions C67_run.

(** C67. A second [run] returns no options, whatever is called in between, *)
Theorem C67_second_run_empty : forall fuel fuel' p r p' calls q,
  parser_object_run fuel p = Ok (r, p') -> parser_chain p' calls = Ok q ->
  exists r' q', parser_object_run fuel' q = Ok (r', q') /\ pr_options r' = [].
Proof. intros. eapply second_run_lemma; eauto. Qed.
Print Assumptions C67_second_run_empty.

(** C67. and [run] without a call of [options] violates an assertion. *)
Theorem C67_options_needed_refuted : forall fuel args calls p,
  parser_chain (new_parser args) calls = Ok p -> no_call says_options calls ->
  parser_object_run fuel p = Undef UB_assert.
Proof. intros. eapply no_options_lemma; eauto. Qed.
Print Assumptions C67_options_needed_refuted.

(** C67. [parse_command_line(argc, argv, ...)] parses the [argc - 1] strings after the first
    pointer, which may be anything; what follows them (the null pointer, usually) is not read. *)
Theorem C67_argv : forall fuel program args rest ds style ext,
  parse_argv fuel (1 + Z.of_nat (List.length args)) (program :: map Some args ++ rest) ds style ext
  = parse_command_line fuel args ds style ext.
Proof. intros. apply parse_argv_new, new_parser_argv_lemma. Qed.
Print Assumptions C67_argv.

(** C67. With [argc = 0] there are no arguments. *)
Theorem C67_argc_zero : forall fuel argv ds style ext,
  parse_argv fuel 0 argv ds style ext = parse_command_line fuel [] ds style ext.
Proof.
  intros. apply parse_argv_new. unfold new_parser_argv.
  replace (Z.of_nat (List.length argv) <? 0)%Z with false by (symmetry; apply Z.ltb_ge; lia). reflexivity.
Qed.
Print Assumptions C67_argc_zero.

Definition ex_settings : list parser_call :=
  [call_style 0; call_options []; call_allow_unregistered; call_style slash_style; call_options sample].
Example C67_ex :
  styles_good ex_settings
  /\ configured ex_settings (mk_cl slash_style true sample None None None)
  /\ ~ good_style allow_long
  /\ parser_object_run 5 (new_parser [$"a"]) = Undef UB_assert
  /\ (exists r, parse_argv 9 3 [None; Some $"-v"; Some $"/oX"; None] sample slash_style None = Ok r
       /\ map po_key (pr_options r) = [$"verbose"; $"output"] /\ map po_value (pr_options r) = [[]; [$"X"]]).
Proof.
  split; [|split; [|split; [|split; [reflexivity|]]]].
  - intros s H. assert (E : s = 0%Z \/ s = slash_style).
    { destruct H as [E|[E|[E|[E|[E|[]]]]]]; try discriminate; injection E as <-; auto. }
    destruct E as [->| ->]; [now left|right; unfold consistent_style, bit; cbn; intuition discriminate].
  - split; [|split; [|split; [|split; [|split]]]]; cbn [cl_desc cl_style cl_allow_unregistered cl_positional cl_additional cl_style_parser].
    + exists (firstn 4 ex_settings), (call_options sample), []. repeat split. intros ? ? [].
    + left. exists (firstn 3 ex_settings), (call_style slash_style), [call_options sample]. repeat split.
      * now constructor.
      * intros c y [<-|[]] Hx; inversion Hx.
    + split; [|reflexivity]. intros _. cbn. tauto.
    + intros c x H Hx. unfold says_positional in Hx. subst c.
      destruct H as [E|[E|[E|[E|[E|[]]]]]]; discriminate.
    + right. split; [|reflexivity]. intros c x H Hx. unfold says_extra in Hx. subst c.
      destruct H as [E|[E|[E|[E|[E|[]]]]]]; discriminate.
    + right. split; [|reflexivity]. intros c x H Hx. unfold says_extra_style in Hx. subst c.
      destruct H as [E|[E|[E|[E|[E|[]]]]]]; discriminate.
  - intros [H|H]; [discriminate|]. unfold consistent_style, bit in H. cbn in H. intuition discriminate.
  - eexists. repeat split; reflexivity.
Qed.

(** ** C68: [add_options()] *)

(** C68. A chain of additions appends exactly the options it declares, in order, and changes
    nothing else. *)
Theorem C68_additions : forall flag ds adds,
  (forall a names, In a adds -> c_string (add_name a) names -> names <> []) ->
  exists ds' new, easy_chain flag ds adds = Ok ds' /\ Forall2 (declares flag) adds new
    /\ ods_options ds' = ods_options ds ++ map (fun d => (d, false)) new
    /\ ods_groups ds' = ods_groups ds /\ ods_caption ds' = ods_caption ds
    /\ ods_line_length ds' = ods_line_length ds
    /\ ods_min_description_length ds' = ods_min_description_length ds.
Proof.
  intros flag ds adds H. apply easy_chain_lemma. apply Forall_forall. intros a Ha.
  exact (H a _ Ha (c_text_c_string _)).
Qed.
Print Assumptions C68_additions.

(** C68. One chain or several make no difference. *)
Theorem C68_chains_compose : forall flag ds adds1 adds2,
  easy_chain flag ds (adds1 ++ adds2)
  = let* ds' := easy_chain flag ds adds1 in easy_chain flag ds' adds2.
Proof.
  intros flag ds adds1. revert ds. induction adds1 as [|a adds1 IH]; intros ds adds2; cbn [app easy_chain]; [reflexivity|].
  destruct (easy_init flag ds a); cbn [bind]; auto.
Qed.
Print Assumptions C68_chains_compose.

(** C68. A declaration with an empty name violates an assertion. *)
Theorem C68_empty_name_refuted : forall flag ds before a after,
  (forall b names, In b before -> c_string (add_name b) names -> names <> []) ->
  c_string (add_name a) [] ->
  easy_chain flag ds (before ++ a :: after) = Undef UB_assert.
Proof.
  intros flag ds before a after Hb [_ Ha]. rewrite C68_chains_compose.
  destruct (C68_additions flag ds before Hb) as (ds' & new & -> & _). cbn [bind easy_chain].
  assert (E : c_text (add_name a) = []).
  { destruct Ha as [->|[r ->]]; reflexivity. }
  destruct a; cbn [add_name] in E; unfold easy_init; cbv iota beta; rewrite E; reflexivity.
Qed.
Print Assumptions C68_empty_name_refuted.

(** C68. Wherever it stands (but not behind "--"), an option that takes no value is rejected if
    one is attached to it. *)
Theorem C68_flag_takes_no_value : forall c pre r tok typed v d rest,
  plain c -> ~ In dashdash pre -> parse c pre = Ok r ->
  attached c tok typed v -> lookup c typed = Ok (Some d) ->
  (vs_min (od_sem d) <= 1)%Z -> vs_max (od_sem d) = 0%Z ->
  fails_with (parse c (pre ++ tok :: rest)) (invalid_command_line_syntax extra_parameter).
Proof. intros. eapply extra_lemma; eauto. Qed.
Print Assumptions C68_flag_takes_no_value.

Definition ex_adds : list add_call :=
  [add_flag $"help,h" $"print help"; add_undescribed $",i" tvalue; add_described $"out,o" tvalue $"output"].
Example C68_ex :
  (forall a names, In a ex_adds -> c_string (add_name a) names -> names <> [])
  /\ (exists ds', easy_chain tflag (mk_ods [] 80 40 [] []) ex_adds = Ok ds'
       /\ map (fun d => (od_short d, od_longs d, od_text d)) (ods_list ds')
          = [($"-h", [$"help"], $"print help"); ($"-i", [], []); ($"-o", [$"out"], $"output")])
  /\ attached (sample_cl default_style) $"--help=x" $"help" $"x"
  /\ fails_with (parse (sample_cl default_style) [$"-v"; $"x"; $"--help=x"]) (invalid_command_line_syntax extra_parameter).
Proof.
  split; [|split; [eexists; split; reflexivity|split]].
  - intros a names Ha [_ Hc] ->. destruct Ha as [<-|[<-|[<-|[]]]]; cbn in Hc;
      (destruct Hc as [Hc|[r Hc]]; discriminate).
  - apply (at_long (sample_cl default_style) $"help" $"x"); try reflexivity; try discriminate.
    unfold without. cbn. intuition discriminate.
  - eexists. split; reflexivity.
Qed.
