(** C109: options declared without a type, and switches. *)

From Coq Require Import List Ascii String NArith ZArith Bool Arith Lia Sorting.Sorted.
From Verif Require Import Base Errors Spec BaseFacts Values OptDesc SpecLookup LookupFacts Positional Cmdline
  Parsers VarMap SpecCmdline SpecStore StoreFacts SemFacts SpecEnd EndFacts Samples.
From Verif Require PropStore.
Import ListNotations.

Section C109.
Variable lexical_cast : nat -> str -> option Z.
Variable utf8_to_local : str -> outcome str.

(** C109. An option declared without a type: it takes no value, or one; it is neither required nor composing, has
    no default, and nothing happens when it is notified. *)
Theorem C109_interface : forall zero,
  vs_min (untyped utf8_to_local zero) = (if zero then 0 else 1)%Z
  /\ vs_max (untyped utf8_to_local zero) = (if zero then 0 else 1)%Z
  /\ vs_composing (untyped utf8_to_local zero) = false /\ vs_required (untyped utf8_to_local zero) = false
  /\ vs_default (untyped utf8_to_local zero) = None
  /\ forall v, vs_notify (untyped utf8_to_local zero) v = ([], Ok tt).
Proof. intros zero. repeat split. Qed.

(** C109. Its value is the text given, the empty text if none; two texts are too many, and so is a second occurrence. *)
Theorem C109_value : forall zero a xs ys utf8,
  decoded utf8_to_local utf8 xs ys ->
  vs_parse (untyped utf8_to_local zero) a xs utf8
  = match a, ys with
    | Some x, _ => (Some x, Throw mk_multiple_occurrences)
    | None, [] => (Some (VString []), Ok tt)
    | None, [y] => (Some (VString y), Ok tt)
    | None, _ => (None, Throw mk_multiple_values)
    end.
Proof.
  intros zero a xs ys utf8 H. cbn [untyped vs_parse]. rewrite (codecvt_decoded _ _ _ _ _ _ H).
  destruct a; [reflexivity|]. now destruct ys as [|y [|]].
Qed.

(** C109. Once sources with one description have been stored, [count] tells whether the option was given in any of them;
    its value is that of the first source that gave it, and was given there once. *)
Theorem C109_count : forall h vm ds d name zero,
  stores vm_new h vm -> name <> [] -> h <> [] -> Forall (fun pu => pr_desc (fst pu) = Some ds) h ->
  exactly_one (fun d' => is_key d' [] name) ds d -> find ds name false false false = Ok d ->
  od_sem d = untyped utf8_to_local zero ->
  (never_mentioned h name -> entry vm name = None)
  /\ (forall before p utf8 after, h = before ++ (p, utf8) :: after -> never_mentioned before name -> mentions p name ->
        exists toks text, occurrences (pr_options p) name = [toks]
          /\ (toks = [] /\ text = [] \/ exists tok, toks = [tok] /\ decoded utf8_to_local utf8 [tok] [text])
          /\ entry vm name = Some (mk_vv (Some (VString text)) false (Some (od_sem d)))).
Proof.
  intros h vm ds d name zero H Hne Hh Hds Hone Hf Hsem. split.
  - intros Hnm. rewrite (PropStore.C38_same_description h vm ds d name H Hne Hh Hds Hone Hnm), Hsem. reflexivity.
  - intros before p utf8 after -> Hb Hm.
    assert (Hr : resolves p name d).
    { exists ds. split; auto. rewrite Forall_forall in Hds. apply (Hds (p, utf8)). apply in_or_app. right. now left. }
    destruct (PropStore.C36_first_source_wins before p utf8 after vm name d H Hne Hb Hm Hr) as (a & Hp & He).
    { now rewrite Hsem. }
    rewrite Hsem in Hp. unfold mentions in Hm. destruct (occurrences (pr_options p) name) as [|toks others]; [contradiction|].
    inversion Hp as [|? ? a' ? ? H1 H2]; subst. pose proof H1 as H3. apply untyped_Ok in H3. destruct H3 as (_ & s & ->).
    assert (others = []) as ->.
    { destruct others as [|xs others]; auto. inversion H2 as [|? ? a'' ? ? H3 _]; subst.
      apply untyped_Ok in H3. destruct H3. discriminate. }
    inversion H2; subst. exists toks, s. split; [reflexivity|]. split; [|exact He].
    cbn [untyped vs_parse] in H1. apply codecvt_Ok in H1. destruct H1 as (ys & Hd & H1).
    cbn [untyped_xparse any_empty negb] in H1. destruct ys as [|y [|]]; try discriminate; injection H1 as <-.
    + left. split; auto. unfold decoded in Hd. destruct utf8; [now inversion Hd|congruence].
    + right. pose proof Hd as Hd'. unfold decoded in Hd. destruct utf8.
      * inversion Hd as [|tok ? ? ? ? Hr']; subst. inversion Hr'; subst. eauto.
      * subst toks. eauto.
Qed.

(** C109. A program all of whose options are declared without a type can always be notified, and nothing happens then. *)
Theorem C109_notify : forall h vm,
  stores vm_new h vm ->
  (forall p utf8 ds d, In (p, utf8) h -> pr_desc p = Some ds -> In d ds -> exists zero, od_sem d = untyped utf8_to_local zero) ->
  notify vm = ([], Ok tt).
Proof.
  intros h vm H Hall. rewrite (nothing_missing_lemma h vm H).
  - assert (Hs : forall k v, In (k, v) (vm_map vm) -> exists zero, vv_sem v = Some (untyped utf8_to_local zero)).
    { intros k v Hin. destruct (stores_sorted _ _ _ H) as [Hs _]; [constructor|constructor|].
      assert (He : entry vm k = Some v) by (apply sm_find_In_pair; auto).
      assert (Hne : k <> []) by (intros ->; rewrite (stores_nil _ _ _ H) in He; discriminate).
      destruct (stores_origin _ _ _ _ _ H Hne He) as [E|(p & u & ds & d & Hp & Hd & Hi & E & _)]; [discriminate|].
      destruct (Hall p u ds d Hp Hd Hi) as [zero Ez]. exists zero. congruence. }
    clear - Hs. induction (vm_map vm) as [|[k v] m IH]; [reflexivity|]. cbn [run_notify].
    destruct (Hs k v (or_introl eq_refl)) as [zero E]. rewrite E. cbn [untyped vs_notify].
    rewrite IH; [reflexivity|]. intros k' v' Hi. apply (Hs k' v'). now right.
  - intros name (_ & Hx & _). apply Exists_exists in Hx. destruct Hx as ([z d] & Hi & _ & Hr). cbn [snd] in Hr.
    unfold declarations in Hi. apply in_concat in Hi. destruct Hi as (l & Hl & Hi). apply in_map_iff in Hl.
    destruct Hl as ([p u] & E & Hp). cbn [fst] in E. destruct (pr_desc p) as [ds|] eqn:Ed; subst l; [|contradiction].
    apply in_map_iff in Hi. destruct Hi as (d' & [= _ <-] & Hi). destruct (Hall p u ds d' Hp Ed Hi) as [zero Ez].
    rewrite Ez in Hr. discriminate.
Qed.

(** C109. A switch always has a value: [false], and [defaulted], if no source gives it; [true] if the first source that
    gives it does so without a value. *)
Theorem C109_switch : forall h vm ds d name addr,
  stores vm_new h vm -> name <> [] -> h <> [] -> Forall (fun pu => pr_desc (fst pu) = Some ds) h ->
  exactly_one (fun d' => is_key d' [] name) ds d -> find ds name false false false = Ok d ->
  od_sem d = typed lexical_cast utf8_to_local (bool_switch addr) ->
  (never_mentioned h name -> entry vm name = Some (mk_vv (Some (VBool false)) true (Some (od_sem d))))
  /\ (forall before p utf8 after, h = before ++ (p, utf8) :: after -> never_mentioned before name ->
        occurrences (pr_options p) name = [[]] ->
        entry vm name = Some (mk_vv (Some (VBool true)) false (Some (od_sem d)))).
Proof.
  intros h vm ds d name addr H Hne Hh Hds Hone Hf Hsem. split.
  - intros Hnm. rewrite (PropStore.C38_same_description h vm ds d name H Hne Hh Hds Hone Hnm), Hsem. reflexivity.
  - intros before p utf8 after -> Hb Ho.
    assert (Hr : resolves p name d).
    { exists ds. split; auto. rewrite Forall_forall in Hds. apply (Hds (p, utf8)). apply in_or_app. right. now left. }
    destruct (PropStore.C36_first_source_wins before p utf8 after vm name d H Hne Hb) as (a & Hp & He); auto.
    { unfold mentions. rewrite Ho. discriminate. }
    { now rewrite Hsem. }
    rewrite Hsem, Ho in Hp. inversion Hp as [|? ? a' ? ? H1 H2]; subst. inversion H2; subst.
    assert (E : vs_parse (typed lexical_cast utf8_to_local (bool_switch addr)) None [] utf8 = (Some (VBool true), Ok tt)).
    { cbn [typed vs_parse]. unfold codecvt_parse. cbn [mapM]. destruct utf8; reflexivity. }
    rewrite E in H1. injection H1 as <-. exact He.
Qed.

End C109.
Print Assumptions C109_interface.
Print Assumptions C109_value.
Print Assumptions C109_count.
Print Assumptions C109_notify.
Print Assumptions C109_switch.

Definition flagged (os : list popt) : parsed_options := mk_parsed os (Some [o_help; o_output; PropStore.o_quiet]) allow_long.
Definition flag_sources : history :=
  [(flagged [PropStore.given_as $"output" [$"a"]], false);
   (flagged [PropStore.given_as $"help" []; PropStore.given_as $"output" [$"b"]; PropStore.given_as $"quiet" []], true)].

Example C109_ex :
  let vm := fst (PropStore.run_all vm_new flag_sources) in
  stores vm_new flag_sources vm
  /\ option_map vv_value (entry vm $"help") = Some (Some (VString []))
  /\ option_map vv_value (entry vm $"output") = Some (Some (VString $"a"))
  /\ option_map vv_value (entry vm $"quiet") = Some (Some (VBool true))
  /\ never_mentioned (firstn 1 flag_sources) $"help" /\ mentions (fst (nth 1 flag_sources (flagged [], false))) $"help"
  /\ exactly_one (fun d' => is_key d' [] $"help") [o_help; o_output; PropStore.o_quiet] o_help
  /\ find [o_help; o_output; PropStore.o_quiet] $"help" false false false = Ok o_help
  /\ od_sem o_help = untyped local true /\ od_sem PropStore.o_quiet = typed lex local (bool_switch (Some 3)).
Proof.
  split; [PropStore.run_stores|]. split; [reflexivity|]. split; [reflexivity|]. split; [reflexivity|].
  split; [PropStore.unmentioned|]. split; [discriminate|].
  split.
  { exists [], [o_output; PropStore.o_quiet]. split; [reflexivity|]. split; [left; exists $"help", []; repeat split|].
    - intros [E|[E|[E|[E|[]]]]]; discriminate.
    - repeat constructor; intros [(f & r & [= <- <-] & _ & E)|[(f & r & [= <- <-] & _ & E)|[E _]]]; discriminate. }
  repeat split.
Qed.
