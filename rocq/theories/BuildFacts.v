(** Facts about chains of calls. *)

From Coq Require Import List Ascii String NArith ZArith Bool Arith Lia.
From Verif Require Import Base Errors Spec BaseFacts Values OptDesc SpecLookup LookupFacts Positional Cmdline
  Parsers SpecCmdline CmdlineFacts RunFacts ParseFacts CongruenceFacts Build SpecBuild.
Import ListNotations.

Set Implicit Arguments.

(** ** The last call *)

Section Last.
Variables (C X : Type) (says : C -> X -> Prop) (f : C -> option X).
Hypothesis says_f : forall c x, says c x <-> f c = Some x.

Fixpoint latest (x : option X) (cs : list C) : option X :=
  match cs with
  | [] => x
  | c :: cs' => latest (match f c with Some y => Some y | None => x end) cs'
  end.

Lemma latest_silent cs : no_call says cs -> forall x, latest x cs = x.
Proof.
  induction cs as [|c cs IH]; intros H x; cbn [latest]; [reflexivity|].
  rewrite IH by (intros d y Hd; apply H; now right).
  destruct (f c) eqn:E; [|reflexivity]. apply says_f in E. now apply H in E; [|left].
Qed.

Lemma latest_app cs1 : forall x cs2, latest x (cs1 ++ cs2) = latest (latest x cs1) cs2.
Proof. induction cs1 as [|c cs1 IH]; intros; cbn [latest app]; auto. Qed.

Lemma latest_last cs x y : last_call says cs y -> latest x cs = Some y.
Proof.
  intros (b & c & a & -> & Hc & Ha). rewrite latest_app. cbn [latest]. apply says_f in Hc. rewrite Hc.
  apply latest_silent. intros d z Hd. now apply Ha.
Qed.

Lemma latest_cases cs : forall x,
  (exists y, last_call says cs y /\ latest x cs = Some y) \/ (no_call says cs /\ latest x cs = x).
Proof.
  induction cs as [|c cs IH]; intros x; cbn [latest].
  - right. split; [intros c y []|reflexivity].
  - destruct (IH (match f c with Some y => Some y | None => x end)) as [(y & (b & d & a & -> & Hd & Ha) & E)|[Hn E]].
    + left. exists y. split; [exists (c :: b), d, a; auto|exact E].
    + destruct (f c) as [y|] eqn:Ef.
      * left. exists y. split; [|exact E]. exists [], c, cs. split; [reflexivity|]. split; [now apply says_f|].
        intros d z Hd. now apply Hn.
      * right. split; [|exact E]. intros d z [<-|Hd]; [|now apply Hn]. rewrite says_f, Ef. discriminate.
Qed.

Lemma latest_none cs : latest None cs = None -> no_call says cs.
Proof.
  intros H. destruct (latest_cases cs None) as [(y & _ & E)|[Hn _]]; [congruence|exact Hn].
Qed.

Lemma latest_some cs y : latest None cs = Some y -> last_call says cs y.
Proof.
  intros H. destruct (latest_cases cs None) as [(z & Hz & E)|[_ E]]; congruence.
Qed.
End Last.
Arguments latest_silent {C X says f} says_f [cs].
Arguments latest_last {C X says f} says_f [cs] x [y].
Arguments latest_cases {C X says f} says_f cs x.
Arguments latest_none {C X says f} says_f cs.
Arguments latest_some {C X says f} says_f cs [y].

(** Whether a call occurs. *)
Fixpoint occurs {C} (is : C -> bool) (b : bool) (cs : list C) : bool :=
  match cs with [] => b | c :: cs' => occurs is (b || is c) cs' end.
Lemma occurs_true {C} (is : C -> bool) cs : forall b,
  occurs is b cs = true <-> b = true \/ exists c, In c cs /\ is c = true.
Proof.
  induction cs as [|c cs IH]; intros b; cbn [occurs].
  - split; [auto|]. now intros [H|(c & [] & _)].
  - rewrite IH, orb_true_iff. split.
    + intros [[H|H]|(d & Hd & H)]; auto; right; [exists c|exists d]; split; auto; [now left|now right].
    + intros [H|(d & [<-|Hd] & H)]; eauto.
Qed.
Lemma occurs_call {C} (is : C -> bool) c0 cs :
  (forall c, is c = true <-> c = c0) -> (occurs is false cs = true <-> In c0 cs).
Proof.
  intros Hi. rewrite occurs_true. split.
  - intros [H|(c & Hc & H)]; [discriminate|]. apply Hi in H. now subst.
  - intros H. right. exists c0. split; [exact H|now apply Hi].
Qed.

(** ** Setters *)

Section SettersFacts.
Variable to_text : value -> outcome str.

Definition f_default (c : tv_call) : option (value * str) :=
  match c with
  | call_default v => match to_text v with Ok t => Some (v, t) | _ => None end
  | call_default_text v t => Some (v, t)
  | _ => None
  end.
Definition f_implicit (c : tv_call) : option (value * str) :=
  match c with
  | call_implicit v => match to_text v with Ok t => Some (v, t) | _ => None end
  | call_implicit_text v t => Some (v, t)
  | _ => None
  end.
Definition f_name (c : tv_call) := match c with call_value_name n => Some n | _ => None end.
Definition f_notifier (c : tv_call) := match c with call_notifier n => Some n | _ => None end.

Lemma says_f_default c x : says_default to_text c x <-> f_default c = Some x.
Proof.
  split.
  - intros []; cbn [f_default]; [rewrite H|]; reflexivity.
  - destruct c; cbn [f_default]; try discriminate.
    + destruct (to_text v) eqn:E; try discriminate. intros [= <-]. now constructor.
    + intros [= <-]. constructor.
Qed.
Lemma says_f_implicit c x : says_implicit to_text c x <-> f_implicit c = Some x.
Proof.
  split.
  - intros []; cbn [f_implicit]; [rewrite H|]; reflexivity.
  - destruct c; cbn [f_implicit]; try discriminate.
    + destruct (to_text v) eqn:E; try discriminate. intros [= <-]. now constructor.
    + intros [= <-]. constructor.
Qed.
Lemma says_f_name c x : says_name c x <-> f_name c = Some x.
Proof. unfold says_name. split; [now intros ->|]. destruct c; cbn; congruence. Qed.
Lemma says_f_notifier c x : says_notifier c x <-> f_notifier c = Some x.
Proof. unfold says_notifier. split; [now intros ->|]. destruct c; cbn; congruence. Qed.

Definition is_composing c := match c with call_composing => true | _ => false end.
Definition is_multitoken c := match c with call_multitoken => true | _ => false end.
Definition is_zero_tokens c := match c with call_zero_tokens => true | _ => false end.
Definition is_required c := match c with call_required => true | _ => false end.

Lemma chain_fields cs : forall tv tv', tv_chain to_text tv cs = Ok tv' ->
  tv' = mk_typed (tv_type tv) (tv_store_to tv)
          (match latest f_name None cs with Some n => n | None => tv_value_name tv end)
          (latest f_default (tv_default tv) cs) (latest f_implicit (tv_implicit tv) cs)
          (occurs is_composing (tv_composing tv) cs) (occurs is_multitoken (tv_multitoken tv) cs)
          (occurs is_zero_tokens (tv_zero_tokens tv) cs) (occurs is_required (tv_required tv) cs)
          (latest f_notifier (tv_notifier tv) cs).
Proof.
  induction cs as [|c cs IH]; intros tv tv'; cbn [tv_chain latest occurs].
  - intros [= <-]. now destruct tv.
  - intros H. destruct (tv_apply to_text tv c) as [tv1| | |] eqn:E; try discriminate.
    apply IH in H. rewrite H. clear H IH.
    destruct c; cbn [tv_apply] in E;
      try (injection E as <-; cbn [f_default f_implicit f_name f_notifier is_composing is_multitoken is_zero_tokens
        is_required tv_type tv_store_to tv_value_name tv_default tv_implicit tv_composing tv_multitoken
        tv_zero_tokens tv_required tv_notifier set_default set_implicit]; rewrite ?orb_false_r, ?orb_true_r; reflexivity).
    + destruct (to_text v) as [t| | |] eqn:Et; try discriminate. cbn [bind] in E. injection E as <-.
      cbn [f_default f_implicit f_name f_notifier is_composing is_multitoken is_zero_tokens
        is_required tv_type tv_store_to tv_value_name tv_default tv_implicit tv_composing tv_multitoken
        tv_zero_tokens tv_required tv_notifier set_default]. rewrite Et, !orb_false_r. reflexivity.
    + destruct (to_text v) as [t| | |] eqn:Et; try discriminate. cbn [bind] in E. injection E as <-.
      cbn [f_default f_implicit f_name f_notifier is_composing is_multitoken is_zero_tokens
        is_required tv_type tv_store_to tv_value_name tv_default tv_implicit tv_composing tv_multitoken
        tv_zero_tokens tv_required tv_notifier set_implicit]. rewrite Et, !orb_false_r. reflexivity.
    + injection E as <-. cbn [f_default f_implicit f_name f_notifier is_composing is_multitoken is_zero_tokens
        is_required tv_type tv_store_to tv_value_name tv_default tv_implicit tv_composing tv_multitoken
        tv_zero_tokens tv_required tv_notifier]. rewrite !orb_false_r. f_equal.
      destruct (latest_cases says_f_name cs None) as [(y & Hy & ->)|[Hn ->]].
      * now rewrite (latest_last says_f_name _ Hy).
      * now rewrite (latest_silent says_f_name Hn).
Qed.

Definition apply_default_of (s : value_semantic) : option any := vs_default s.

Lemma text_ok_chain cs : forall tv,
  (forall c v, In c cs -> asks_text c v -> exists t, to_text v = Ok t) ->
  exists tv', tv_chain to_text tv cs = Ok tv'.
Proof.
  induction cs as [|c cs IH]; intros tv H; cbn [tv_chain]; [eauto|].
  assert (exists tv1, tv_apply to_text tv c = Ok tv1) as [tv1 ->].
  { destruct c; cbn [tv_apply]; eauto.
    - destruct (H (call_default v) v) as [t ->]; [now left|constructor|]. cbn. eauto.
    - destruct (H (call_implicit v) v) as [t ->]; [now left|constructor|]. cbn. eauto. }
  cbn [bind]. apply IH. intros d v Hd. apply H. now right.
Qed.

Lemma text_bad_chain before c v e after : forall tv,
  (forall c' v', In c' before -> asks_text c' v' -> exists t, to_text v' = Ok t) ->
  asks_text c v -> to_text v = Throw e ->
  tv_chain to_text tv (before ++ c :: after) = Throw e.
Proof.
  induction before as [|b before IH]; intros tv H Hc He; cbn [tv_chain app].
  - destruct Hc; cbn [tv_apply]; rewrite He; reflexivity.
  - assert (exists tv1, tv_apply to_text tv b = Ok tv1) as [tv1 ->].
    { destruct b; cbn [tv_apply]; eauto.
      - destruct (H (call_default v0) v0) as [t ->]; [now left|constructor|]. cbn. eauto.
      - destruct (H (call_implicit v0) v0) as [t ->]; [now left|constructor|]. cbn. eauto. }
    cbn [bind]. apply IH; auto. intros d w Hd. apply H. now right.
Qed.
End SettersFacts.

(** ** Calls on a parser *)

Definition f_options c := match c with call_options ds => Some ds | _ => None end.
Definition f_positional c := match c with call_positional p => Some p | _ => None end.
Definition f_extra c := match c with call_extra_parser f => Some f | _ => None end.
Definition f_extra_style c := match c with call_extra_style_parser f => Some f | _ => None end.
Definition f_style c := match c with call_style s => Some (if Z.eqb s 0 then default_style else s) | _ => None end.
Definition is_unregistered c := match c with call_allow_unregistered => true | _ => false end.

Lemma says_f_options c x : says_options c x <-> f_options c = Some x.
Proof. unfold says_options. split; [now intros ->|]. destruct c; cbn; congruence. Qed.
Lemma says_f_positional c x : says_positional c x <-> f_positional c = Some x.
Proof. unfold says_positional. split; [now intros ->|]. destruct c; cbn; congruence. Qed.
Lemma says_f_extra c x : says_extra c x <-> f_extra c = Some x.
Proof. unfold says_extra. split; [now intros ->|]. destruct c; cbn; congruence. Qed.
Lemma says_f_extra_style c x : says_extra_style c x <-> f_extra_style c = Some x.
Proof. unfold says_extra_style. split; [now intros ->|]. destruct c; cbn; congruence. Qed.
Lemma says_f_style c x : says_style c x <-> f_style c = Some x.
Proof.
  split.
  - intros [|s H]; cbn [f_style]; [reflexivity|]. apply Z.eqb_neq in H. now rewrite H.
  - destruct c; cbn [f_style]; try discriminate. intros [= <-].
    destruct (Z.eqb_spec style 0) as [->|H]; constructor. exact H.
Qed.

Definition or_else {A} (o : option A) (x : A) : A := match o with Some y => y | None => x end.

Lemma set_style_ok s r : set_style s = Ok r -> r = if Z.eqb s 0 then default_style else s.
Proof.
  unfold set_style. cbv zeta. destruct (check_style _); try discriminate. cbn [bind]. congruence.
Qed.

Lemma parser_fields cs : forall p p', parser_chain p cs = Ok p' ->
  p' = mk_parser (ps_args p) (or_else (latest f_style None cs) (ps_style p))
         (occurs is_unregistered (ps_allow_unregistered p) cs) (latest f_options (ps_desc p) cs)
         (latest f_positional (ps_positional p) cs) (or_else (latest f_extra None cs) (ps_additional p))
         (or_else (latest f_extra_style None cs) (ps_style_parser p)).
Proof.
  induction cs as [|c cs IH]; intros p p'; cbn [parser_chain latest occurs].
  - intros [= <-]. now destruct p.
  - intros H. destruct (parser_apply p c) as [p1| | |] eqn:E; try discriminate.
    apply IH in H. rewrite H. clear H IH.
    destruct c; cbn [parser_apply] in E;
      try (injection E as <-; cbn [f_options f_positional f_extra f_extra_style f_style is_unregistered
        ps_args ps_style ps_allow_unregistered ps_desc ps_positional ps_additional ps_style_parser];
        rewrite ?orb_false_r, ?orb_true_r; try reflexivity).
    + destruct (set_style style) as [s| | |] eqn:Es; try discriminate. cbn [bind] in E. injection E as <-.
      cbn [f_options f_positional f_extra f_extra_style f_style is_unregistered
        ps_args ps_style ps_allow_unregistered ps_desc ps_positional ps_additional ps_style_parser].
      rewrite orb_false_r. apply set_style_ok in Es. subst s. f_equal.
      destruct (latest_cases says_f_style cs None) as [(y & Hy & ->)|[Hn ->]].
      * now rewrite (latest_last says_f_style _ Hy).
      * now rewrite (latest_silent says_f_style Hn).
    + f_equal. destruct (latest_cases says_f_extra cs None) as [(y & Hy & ->)|[Hn ->]].
      * now rewrite (latest_last says_f_extra _ Hy).
      * now rewrite (latest_silent says_f_extra Hn).
    + f_equal. destruct (latest_cases says_f_extra_style cs None) as [(y & Hy & ->)|[Hn ->]].
      * now rewrite (latest_last says_f_extra_style _ Hy).
      * now rewrite (latest_silent says_f_extra_style Hn).
Qed.

Lemma good_style_ok s : good_style s -> exists r, set_style s = Ok r.
Proof.
  intros H. destruct (Z.eq_dec s 0) as [->|Hn]; [eexists; reflexivity|].
  exists s. apply consistent_lemma; [exact Hn|]. destruct H; [contradiction|assumption].
Qed.

Lemma parser_chain_ok cs : forall p, styles_good cs -> exists p', parser_chain p cs = Ok p'.
Proof.
  induction cs as [|c cs IH]; intros p H; cbn [parser_chain]; [eauto|].
  assert (exists p1, parser_apply p c = Ok p1) as [p1 ->].
  { destruct c; cbn [parser_apply]; eauto.
    destruct (@good_style_ok style) as [r ->]; [apply H; now left|]. cbn. eauto. }
  cbn [bind]. apply IH. intros s Hs. apply H. now right.
Qed.

Lemma parser_chain_bad before s after : forall p, styles_good before -> ~ good_style s ->
  exists msg, parser_chain p (before ++ call_style s :: after) = Throw (plain_exn (invalid_command_line_style msg)).
Proof.
  induction before as [|b before IH]; intros p H Hs; cbn [parser_chain app].
  - cbn [parser_apply]. destruct (@inconsistent_lemma s) as [msg Hm].
    + intros ->. apply Hs. now left.
    + intros Hc. apply Hs. now right.
    + exists msg. now rewrite Hm.
  - assert (exists p1, parser_apply p b = Ok p1) as [p1 ->].
    { destruct b; cbn [parser_apply]; eauto.
      destruct (@good_style_ok style) as [r ->]; [apply H; now left|]. cbn. eauto. }
    cbn [bind]. apply IH; auto. intros t Ht. apply H. now right.
Qed.

Lemma last_or_latest {C X} (says : C -> X -> Prop) f (Hf : forall c x, says c x <-> f c = Some x) cs x0 x :
  last_or says cs x0 x -> or_else (latest f None cs) x0 = x.
Proof.
  intros [H|[H ->]].
  - now rewrite (latest_last Hf _ H).
  - now rewrite (latest_silent Hf H).
Qed.

Arguments last_or_latest {C X says f} Hf [cs x0 x].

Lemma unregistered_iff cs : occurs is_unregistered false cs = true <-> In call_allow_unregistered cs.
Proof. apply occurs_call. intros []; cbn; split; congruence. Qed.

Lemma configured_chain args calls p c :
  parser_chain (new_parser args) calls = Ok p -> configured calls c ->
  p = mk_parser args (cl_style c) (cl_allow_unregistered c) (Some (cl_desc c)) (cl_positional c)
        (cl_additional c) (cl_style_parser c).
Proof.
  intros H (Hd & Hs & Hu & Hp & Ha & Hx). apply parser_fields in H. rewrite H. cbn [new_parser ps_args ps_style
    ps_allow_unregistered ps_desc ps_positional ps_additional ps_style_parser]. f_equal.
  - exact (last_or_latest says_f_style Hs).
  - pose proof (unregistered_iff calls) as U. rewrite <- Hu in U.
    destruct (occurs _ _ _), (cl_allow_unregistered c); intuition.
  - exact (latest_last says_f_options None Hd).
  - destruct (cl_positional c) as [q|].
    + exact (latest_last says_f_positional None Hp).
    + exact (latest_silent says_f_positional Hp None).
  - exact (last_or_latest says_f_extra Ha).
  - exact (last_or_latest says_f_extra_style Hx).
Qed.

Lemma run_nothing fuel c : run fuel c [] = Ok [].
Proof.
  unfold run. replace (main_loop fuel c []) with (@Ok (list popt) []) by now destruct fuel.
  cbn. now destruct (cl_positional c).
Qed.

Lemma second_run_lemma fuel p r p' calls q fuel' :
  parser_object_run fuel p = Ok (r, p') -> parser_chain p' calls = Ok q ->
  exists r' q', parser_object_run fuel' q = Ok (r', q') /\ pr_options r' = [].
Proof.
  unfold parser_object_run. destruct (ps_desc p) as [ds|] eqn:Ed; [|discriminate].
  destruct (parser_run _ _ _) as [r1| | |]; try discriminate. cbn [bind]. intros [= <- <-] H.
  apply parser_fields in H. subst q. cbn [ps_args ps_style
    ps_allow_unregistered ps_desc ps_positional ps_additional ps_style_parser].
  assert (exists ds', latest f_options (Some ds) calls = Some ds') as [ds' ->].
  { destruct (latest_cases says_f_options calls (Some ds)) as [(y & _ & ->)|[_ ->]]; eauto. }
  unfold parser_run. rewrite run_nothing. cbn [bind]. eauto.
Qed.

Lemma no_options_lemma fuel args calls p :
  parser_chain (new_parser args) calls = Ok p -> no_call says_options calls ->
  parser_object_run fuel p = Undef UB_assert.
Proof.
  intros H Hn. apply parser_fields in H. subst p. unfold parser_object_run. cbn [ps_desc new_parser].
  now rewrite (latest_silent says_f_options Hn).
Qed.

(** [argv] *)
Lemma argv_strings_some args : argv_strings (map Some args) = Ok args.
Proof. induction args as [|a args IH]; cbn [map argv_strings]; [reflexivity|]. now rewrite IH. Qed.

Lemma new_parser_argv_lemma prog args rest :
  new_parser_argv (1 + Z.of_nat (List.length args)) (prog :: map Some args ++ rest) = Ok (new_parser args).
Proof.
  unfold new_parser_argv. cbn [List.length tl]. rewrite app_length, map_length.
  set (n := List.length args).
  replace (1 + Z.of_nat n <? 0)%Z with false by (symmetry; apply Z.ltb_ge; lia).
  replace (Z.of_nat (S (n + List.length rest)) <? 1 + Z.of_nat n)%Z with false by (symmetry; apply Z.ltb_ge; lia).
  replace (1 + Z.of_nat n =? 0)%Z with false by (symmetry; apply Z.eqb_neq; lia). cbn [orb].
  replace (Z.to_nat (1 + Z.of_nat n) - 1) with (List.length (map Some args)) by (rewrite map_length; fold n; lia).
  rewrite firstn_app, Nat.sub_diag, firstn_all, firstn_O, app_nil_r, argv_strings_some. reflexivity.
Qed.

Lemma parse_argv_new fuel argc argv args ds style ext :
  new_parser_argv argc argv = Ok (new_parser args) ->
  parse_argv fuel argc argv ds style ext = parse_command_line fuel args ds style ext.
Proof.
  intros H. unfold parse_argv. rewrite H. cbn [bind parser_chain parser_apply].
  unfold parse_command_line. destruct (set_style style) as [s| | |]; cbn [bind]; try reflexivity.
  unfold parser_object_run. cbn [ps_args ps_style
    ps_allow_unregistered ps_desc ps_positional ps_additional ps_style_parser new_parser].
  now destruct (parser_run _ _ _).
Qed.

(** ** [add_options()] *)

Lemma c_text_c_string s : c_string s (c_text s).
Proof.
  induction s as [|c s [W IH]]; cbn [c_text].
  - split; [intros []|now left].
  - destruct (char_eqb_spec c "000"%char) as [->|N].
    + split; [intros []|]. right. now exists s.
    + split; [intros [H|H]; [congruence|now apply W]|]. destruct IH as [IH|[r IH]].
      * left. now rewrite <- IH.
      * right. exists r. cbn [app]. now rewrite <- IH.
Qed.

Lemma split_commas s : exists init last, Forall (without c_comma) init /\ without c_comma last
  /\ s = join [c_comma] (init ++ [last]).
Proof.
  induction s as [|c s (init & last & Hi & Hl & ->)].
  - exists [], []. split; [constructor|]. split; [intros []|reflexivity].
  - destruct (char_eqb_spec c c_comma) as [->|N].
    + exists ([] :: init), last. split; [constructor; [intros []|assumption]|]. split; [assumption|].
      destruct init; reflexivity.
    + destruct init as [|i init].
      * exists [], (c :: last). split; [constructor|]. split; [intros [H|H]; [congruence|now apply Hl]|reflexivity].
      * inversion Hi; subst. exists ((c :: i) :: init), last. split; [|split; [assumption|]].
        -- constructor; [|assumption]. intros [H|H]; [congruence|now apply H1].
        -- cbn [app join]. destruct (init ++ [last]) eqn:E; [now destruct init|]. reflexivity.
Qed.

Lemma join_snoc_nil init : init <> [] -> join [c_comma] (init ++ [[]]) = join [c_comma] init ++ [c_comma].
Proof.
  induction init as [|i init IH]; intros H; [congruence|]. cbn [app join].
  destruct init as [|j init]; [reflexivity|]. cbn [app] in *. rewrite IH by discriminate.
  rewrite <- !app_assoc. reflexivity.
Qed.

Lemma some_pieces names : names <> [] -> exists pieces, comma_separated pieces names
  /\ forall sem text, exists d, new_option names sem text = Ok d
       /\ decoded pieces (od_short d) (od_longs d) /\ od_text d = text /\ od_sem d = sem.
Proof.
  intros N. destruct (split_commas names) as (init & last & Hi & Hl & ->).
  destruct last as [|c last].
  - assert (Hn : init <> []) by (intros ->; now apply N). rewrite join_snoc_nil in * by exact Hn.
    exists init. split; [repeat split; auto|]. intros. now apply names_trailing_comma_lemma.
  - exists (init ++ [c :: last]). split.
    + split; [now destruct init|]. split; [apply Forall_app; auto|]. left. split; [reflexivity|].
      rewrite last_last. discriminate.
    + intros. now apply names_decoded_lemma.
Qed.

Lemma easy_init_lemma flag ds a : c_text (add_name a) <> [] ->
  exists d, easy_init flag ds a = Ok (ods_add ds d) /\ declares flag a d.
Proof.
  intros N. destruct (some_pieces N) as (pieces & Hp & Hd).
  destruct a as [n t|n s|n s t]; cbn [add_name] in *; unfold easy_init; cbv iota beta.
  - destruct (Hd flag (c_text t)) as (d & -> & Hdec & Ht & Hs). exists d. split; [reflexivity|].
    split; [exists (c_text n), pieces; auto using c_text_c_string|].
    split; [assumption|]. rewrite Ht. apply c_text_c_string.
  - destruct (Hd s []) as (d & -> & Hdec & Ht & Hs). exists d. split; [reflexivity|].
    split; [exists (c_text n), pieces; auto using c_text_c_string|]. now split.
  - destruct (Hd s (c_text t)) as (d & -> & Hdec & Ht & Hs). exists d. split; [reflexivity|].
    split; [exists (c_text n), pieces; auto using c_text_c_string|].
    split; [assumption|]. rewrite Ht. apply c_text_c_string.
Qed.

Lemma easy_chain_lemma flag adds : forall ds,
  Forall (fun a => c_text (add_name a) <> []) adds ->
  exists ds' new, easy_chain flag ds adds = Ok ds' /\ Forall2 (declares flag) adds new
    /\ ods_options ds' = ods_options ds ++ map (fun d => (d, false)) new
    /\ ods_groups ds' = ods_groups ds /\ ods_caption ds' = ods_caption ds
    /\ ods_line_length ds' = ods_line_length ds
    /\ ods_min_description_length ds' = ods_min_description_length ds.
Proof.
  induction adds as [|a adds IH]; intros ds H; cbn [easy_chain].
  - exists ds, []. rewrite app_nil_r. repeat split. constructor.
  - inversion H; subst. destruct (@easy_init_lemma flag ds a) as (d & -> & Hd); [assumption|]. cbn [bind].
    destruct (IH (ods_add ds d)) as (ds' & new & -> & Hn & Ho & Hg & Hc & Hl & Hm); [assumption|].
    exists ds', (d :: new). split; [reflexivity|]. split; [now constructor|].
    cbn [ods_add ods_options] in Ho. rewrite Ho, <- app_assoc. repeat split; assumption.
Qed.

(** ** A value for an option that takes none *)

Lemma extra_step c tok typed v d rest :
  plain c -> attached c tok typed v -> lookup c typed = Ok (Some d) ->
  (vs_min (od_sem d) <= 1)%Z -> vs_max (od_sem d) = 0%Z ->
  exists e, main_step c (tok :: rest) = Throw e /\ ex_class e = invalid_command_line_syntax extra_parameter.
Proof.
  intros Hp Hs Hl Hmin Hmax.
  assert (Hfin : forall n ps tk, n = typed -> n <> [] ->
     exists e, finish_all c ps [raw n [v] [tk]] rest = Throw e
       /\ ex_class e = invalid_command_line_syntax extra_parameter).
  { intros n ps tk -> Hn. cbn [finish_all]. unfold finish_option. cbn [raw po_key po_orig po_value].
    apply is_empty_false in Hn. rewrite Hn, Hl. cbn [with_context bind List.length].
    rewrite Hmax. destruct (Z.leb_spec (vs_min (od_sem d)) (Z.of_nat 1 + Z.of_nat (List.length rest))); [|lia].
    cbn [is_empty negb andb Z.eqb]. cbn. eexists. split; reflexivity. }
  destruct Hs.
  - destruct (parsers_long c Hp) as [after E]; auto. unfold dashdash. cbn [app].
    destruct (Hfin n (style_parsers c) (c_dash :: c_dash :: n ++ c_eq :: v)) as (e & He & Hc); auto.
    exists e. split; [|exact Hc].
    eapply main_step_finish_throw; [exact E|intros q []|apply long_reads_eq; auto|exact He].
  - destruct (parsers_slash c Hp) as (before & after & E & Hb); auto.
    destruct (Hfin [c_dash; x] (style_parsers c) ([c_slash; x] ++ v)) as (e & He & Hc); auto; [discriminate|].
    exists e. split; [|exact Hc].
    cbn [app]. eapply main_step_finish_throw with (os := [raw [c_dash; x] [v] [c_slash :: x :: v]]) (rest1 := rest);
      [exact E| | |exact He].
    + intros q Hq. destruct (Hb q Hq) as [->| ->].
      * apply long_skips. intros n En. discriminate En.
      * unfold parse_short_option. cbn [at_index nth_error bind].
        change (char_eqb c_slash c_dash) with false. reflexivity.
    + unfold parse_dos_option. cbn [at_index nth_error bind].
      change (char_eqb c_slash c_slash) with true. cbn [erase_front bind].
      destruct v; [congruence|]. reflexivity.
Qed.

Lemma extra_lemma c pre r tok typed v d rest :
  plain c -> ~ In dashdash pre -> parse c pre = Ok r ->
  attached c tok typed v -> lookup c typed = Ok (Some d) ->
  (vs_min (od_sem d) <= 1)%Z -> vs_max (od_sem d) = 0%Z ->
  fails_with (parse c (pre ++ tok :: rest)) (invalid_command_line_syntax extra_parameter).
Proof.
  intros Hp Hn Hpre Hs Hl Hmin Hmax.
  destruct (extra_step rest Hp Hs Hl Hmin Hmax) as (e & He & Hc).
  exists e. split; [|exact Hc]. unfold parse, run in Hpre |- *.
  apply bind_Ok in Hpre. destruct Hpre as (r1 & Hm & _). rewrite app_length.
  assert (Hloop : main_loop (List.length (tok :: rest)) c (tok :: rest) = Throw e)
    by (cbn [List.length main_loop]; now rewrite He).
  rewrite (main_loop_app c _ _ pre (tok :: rest) r1); auto.
  - now rewrite Hloop.
  - apply Hp.
  - rewrite Hloop. discriminate.
Qed.
