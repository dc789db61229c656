(** C110: storing a source again. *)

From Coq Require Import List Ascii String NArith ZArith Bool Arith Lia.
From Verif Require Import Base Errors Spec BaseFacts Values OptDesc SpecLookup LookupFacts Positional Cmdline
  Parsers VarMap SpecCmdline SpecStore StoreFacts AgainFacts Samples.
From Verif Require PropStore.
Import ListNotations.

(** The options the source mentions do not compose. *)
Definition decisive (p : parsed_options) : Prop :=
  forall name d, name <> [] -> mentions p name -> resolves p name d -> vs_composing (od_sem d) = false.

(** C110. A source that has been stored and mentions no composing option can be stored again at any time, whatever was
    stored in between: it is accepted and the map stays as it is, with all that [notify] will do. *)
Theorem C110_again : forall before p utf8 after vm utf8',
  stores vm_new (before ++ (p, utf8) :: after) vm -> decisive p -> store p vm utf8' = (vm, Ok tt).
Proof. exact again_lemma. Qed.
Print Assumptions C110_again.

(** C110. So a repetition can be left out or put in anywhere. *)
Theorem C110_repetition : forall before p utf8 between utf8' after vm,
  decisive p ->
  stores vm_new (before ++ (p, utf8) :: between ++ (p, utf8') :: after) vm
  <-> stores vm_new (before ++ (p, utf8) :: between ++ after) vm.
Proof. intros. now apply drop_again. Qed.
Print Assumptions C110_repetition.

(** C110. A source that only declares options, such as an empty command line, is such a source. *)
Theorem C110_empty : forall before p utf8 after vm utf8',
  pr_options p = [] -> stores vm_new (before ++ (p, utf8) :: after) vm -> store p vm utf8' = (vm, Ok tt).
Proof.
  intros before p utf8 after vm utf8' E H. eapply again_lemma; eauto. intros name d _ Hm _. exfalso. apply Hm.
  unfold occurrences. now rewrite E.
Qed.
Print Assumptions C110_empty.

(** C110. Composing options get their values twice, *)
Theorem C110_composing_refuted :
  exists p vm vm', stores vm_new [(p, false)] vm /\ store p vm false = (vm', Ok tt)
    /\ option_map vv_value (entry vm $"include") = Some (Some (VVec (TLex 0) [VLex 0 1; VLex 0 2]))
    /\ option_map vv_value (entry vm' $"include") = Some (Some (VVec (TLex 0) [VLex 0 1; VLex 0 2; VLex 0 1; VLex 0 2])).
Proof.
  exists PropStore.src1, (fst (PropStore.run_all vm_new [(PropStore.src1, false)])),
    (fst (store PropStore.src1 (fst (PropStore.run_all vm_new [(PropStore.src1, false)])) false)).
  split; [PropStore.run_stores|]. split; [PropStore.run_store|]. split; PropStore.calc.
Qed.
Print Assumptions C110_composing_refuted.

Definition number_source (level : str) : parsed_options :=
  PropStore.source [PropStore.given_as $"number" [$"5"]; PropStore.given_as $"level" [level]].

Lemma number_source_decisive level : decisive (number_source level).
Proof.
  intros name d _ Hm (ds & [= <-] & Hf). unfold mentions, occurrences, number_source in Hm.
  cbn [PropStore.source pr_options filter PropStore.given_as po_key po_unreg] in Hm.
  destruct (str_eqb_spec $"number" name) as [<-|_].
  { change (find PropStore.known $"number" false false false) with (Ok o_number) in Hf. injection Hf as <-. reflexivity. }
  destruct (str_eqb_spec $"level" name) as [<-|_].
  { change (find PropStore.known $"level" false false false) with (Ok o_level) in Hf. injection Hf as <-. reflexivity. }
  contradiction Hm. reflexivity.
Qed.

(** C110. and only a source that could be stored can be stored again: what [store] did before it threw stays in the
    map, so that a second attempt fails for another reason than the first. *)
Theorem C110_failed_refuted :
  exists p, decisive p /\ fails_with (snd (store p vm_new false)) invalid_option_value
    /\ fails_with (snd (store p (fst (store p vm_new false)) false)) multiple_occurrences.
Proof.
  exists (number_source $"x"). split; [apply number_source_decisive|].
  split; eexists; (split; [PropStore.calc|reflexivity]).
Qed.
Print Assumptions C110_failed_refuted.

Example C110_ex :
  let h := [(PropStore.src1, false)] ++ (number_source $"1", true) :: [(PropStore.src3, false)] in
  stores vm_new h (fst (PropStore.run_all vm_new h)) /\ decisive (number_source $"1")
  /\ option_map vv_value (entry (fst (PropStore.run_all vm_new h)) $"number") = Some (Some (VLex 0 5)).
Proof. split; [PropStore.run_stores|]. split; [apply number_source_decisive|PropStore.calc]. Qed.
