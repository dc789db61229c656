(** * C121: parsers that are not given a description *)

From Coq Require Import Ascii String List NArith ZArith Bool Arith Lia.
From Verif Require Import Base Errors Spec BaseFacts Values OptDesc Positional Cmdline Parsers Build Release NoDesc SpecNoDesc NoDescFacts.
Import ListNotations.

Definition gives_options (c : parser_call) : Prop := match c with call_options _ => True | _ => False end.

Lemma chain_desc cs : forall p p', Forall (fun c => ~ gives_options c) cs -> parser_chain p cs = Ok p' -> ps_desc p' = ps_desc p /\ ps_args p' = ps_args p.
Proof.
  induction cs as [|c cs IH]; intros p p' Hn H; cbn [parser_chain] in H; [injection H as <-; now split|].
  inversion Hn as [|? ? Hc Hn']; subst. destruct c as [ds|q|s|f| |f]; cbn [parser_apply] in H; try (destruct (Hc I)); cbn [bind] in H;
    try (destruct (IH _ _ Hn' H) as [-> ->]; now split).
  destruct (set_style s); cbn [bind] in H; try discriminate. destruct (IH _ _ Hn' H) as [-> ->]. now split.
Qed.

(** If none of the calls is [options], then with assertions [run] stops at one; without them it is undefined if the parser was
    constructed from a vector. *)
Theorem C121_never_given args cs p fuel :
  parser_chain (new_parser args) cs = Ok p -> Forall (fun c => ~ gives_options c) cs ->
  parser_object_run fuel p = Undef UB_assert /\ rel_object_run true fuel p = Undef UB_dangling.
Proof.
  intros H Hn. destruct (chain_desc cs _ _ Hn H) as [Hd _]. unfold parser_object_run, rel_object_run. rewrite Hd. now split.
Qed.
Print Assumptions C121_never_given.

(** Otherwise, constructed from [argc] and [argv], it is undefined or gives the same options as with any description at all: no
    description is ever missed. *)
Theorem C121_any_description args cs p p' fuel ds :
  parser_chain (new_parser args) cs = Ok p -> Forall (fun c => ~ gives_options c) cs -> parser_apply p (call_options ds) = Ok p' ->
  rel_object_run false fuel p = Undef UB_null
  \/ (let* r := rel_object_run false fuel p in Ok (pr_options r)) = (let* r := rel_object_run false fuel p' in Ok (pr_options r)).
Proof.
  intros H Hn Hp. destruct (chain_desc cs _ _ Hn H) as [Hd _]. injection Hp as <-.
  unfold rel_object_run. rewrite Hd. cbn [ps_desc ps_args new_parser]. 
  rewrite (null_run_desc fuel (cmdline_of p []) (ps_args p) ds).
  destruct (run_le (cmdline_of p ds) fuel (ps_args p)) as [E|E]; unfold cmdline_of in *; cbn in *; rewrite E; [now left|].
  right. now destruct (rel_run _ _ _).
Qed.
Print Assumptions C121_any_description.

(** In a command line of words, and anything after "--", it gives these words. *)
Theorem C121_words p fuel ws more :
  ps_desc p = None -> no_user_parsers (cmdline_of p []) -> ps_positional p = None -> Forall (word (ps_style p)) ws ->
  ps_args p = (map fst ws ++ match more with Some after => $"--" :: after | None => [] end)%list -> List.length (ps_args p) <= fuel ->
  exists r, rel_object_run false fuel p = Ok r
    /\ pr_options r = words_at (has (ps_style p) short_case_insensitive) 0
                        (ws ++ map (fun a => (a, a)) match more with Some after => after | None => [] end)%list.
Proof.
  intros Hd Hu Hp Hw Ha Hf. unfold rel_object_run. rewrite Hd, Ha. rewrite Ha in Hf.
  rewrite (words_run (cmdline_of p []) Hu ws more Hp Hw fuel Hf). cbn [bind]. eexists. split; reflexivity.
Qed.
Print Assumptions C121_words.

(** The first token in the form of an option is undefined behaviour, even if unregistered options are allowed, *)
Theorem C121_option p fuel ws tok rest :
  ps_desc p = None -> no_user_parsers (cmdline_of p []) -> Forall (word (ps_style p)) ws -> ps_args p = (map fst ws ++ tok :: rest)%list ->
  List.length (ps_args p) <= fuel ->
  optionish (ps_style p) tok -> (forall v, ~ no_name_given (ps_style p) tok v) -> ~ no_value_given (ps_style p) tok ->
  rel_object_run false fuel p = Undef UB_null.
Proof.
  intros Hd Hu Hw Ha Hf Ho Hn Hv. unfold rel_object_run. rewrite Hd, Ha. rewrite Ha, app_length, map_length in Hf. cbn [List.length] in Hf.
  rewrite (loop_at (cmdline_of p []) Hu ws tok rest _ Hw (option_step (cmdline_of p []) Hu tok rest Ho Hn Hv)); [reflexivity|discriminate|lia].
Qed.
Print Assumptions C121_option.

(** but "--name=" is the usual error. *)
Theorem C121_no_value p fuel ws tok rest :
  ps_desc p = None -> no_user_parsers (cmdline_of p []) -> Forall (word (ps_style p)) ws -> ps_args p = (map fst ws ++ tok :: rest)%list ->
  List.length (ps_args p) <= fuel -> no_value_given (ps_style p) tok ->
  exists e, rel_object_run false fuel p = Throw e /\ ex_class e = invalid_command_line_syntax empty_adjacent_parameter.
Proof.
  intros Hd Hu Hw Ha Hf Hv. unfold rel_object_run. rewrite Hd, Ha. rewrite Ha, app_length, map_length in Hf. cbn [List.length] in Hf.
  destruct (empty_step (cmdline_of p []) Hu tok rest Hv) as (e & E & Hc). exists e. split; [|exact Hc].
  rewrite (loop_at (cmdline_of p []) Hu ws tok rest _ Hw E); [reflexivity|discriminate|lia].
Qed.
Print Assumptions C121_no_value.

Lemma optionish_dec style tok : optionish style tok \/ ~ optionish style tok.
Proof.
  destruct tok as [|c1 [|c2 r]]; [right; intros H; inversion H|right; intros H; inversion H|].
  destruct (Ascii.ascii_dec c1 c_dash) as [->|H1].
  - destruct (Ascii.ascii_dec c2 c_dash) as [->|H2].
    + destruct r as [|c3 r]; [right; intros H; inversion H; subst; congruence|].
      destruct (has style allow_long) eqn:E; [left; now apply os_long|]. right. intros H. inversion H; subst; congruence.
    + destruct (has style allow_long_disguise) eqn:E1; [left; apply os_dash; auto|].
      destruct (has style allow_short) eqn:E2; [destruct (has style allow_dash_for_short) eqn:E3; [left; apply os_dash; auto|]|];
        right; intros H; inversion H as [? ? ? E|? ? [X|[X Y]] ? E|? ? ? ? E]; subst; congruence.
  - destruct (Ascii.ascii_dec c1 c_slash) as [->|H2].
    + destruct (has style allow_slash_for_short) eqn:E1.
      * destruct (has style allow_long_disguise) eqn:E2; [left; apply os_slash; auto|].
        destruct (has style allow_short) eqn:E3; [left; apply os_slash; auto|].
        right. intros H. inversion H as [| |? ? ? [X|X] E]; subst; congruence.
      * right. intros H. inversion H; subst; congruence.
    + right. intros H. inversion H; subst; congruence.
Qed.

(** These are all command lines. *)
Theorem C121_cases style args :
  (exists ws more, Forall (word style) ws /\ args = (map fst ws ++ match more with Some after => $"--" :: after | None => [] end)%list)
  \/ exists ws tok rest, Forall (word style) ws /\ args = (map fst ws ++ tok :: rest)%list /\ optionish style tok
       /\ (forall v, ~ no_name_given style tok v).
Proof.
  induction args as [|a args IH]; [left; exists [], None; split; [constructor|reflexivity]|].
  assert (Hword : forall v, word style (a, v) ->
    (exists ws more, Forall (word style) ws /\ a :: args = (map fst ws ++ match more with Some after => $"--" :: after | None => [] end)%list)
    \/ exists ws tok rest, Forall (word style) ws /\ a :: args = (map fst ws ++ tok :: rest)%list /\ optionish style tok
       /\ (forall v, ~ no_name_given style tok v)).
  { intros v Hv. destruct IH as [(ws & more & Hw & ->)|(ws & tok & rest & Hw & -> & Ho & Hn)].
    - left. exists ((a, v) :: ws), more. split; [now constructor|reflexivity].
    - right. exists ((a, v) :: ws), tok, rest. split; [now constructor|]. split; [reflexivity|]. now split. }
  destruct (optionish_dec style a) as [Ho|Ho].
  - destruct (has style allow_long) eqn:El.
    + assert (D : (exists v, no_name_given style a v) \/ forall v, ~ no_name_given style a v).
      { destruct a as [|a1 [|a2 [|a3 [|a4 r]]]]; try (right; intros v (_ & Hv & E); destruct v; [congruence|discriminate E]; fail).
        destruct (Ascii.ascii_dec a1 c_dash) as [->|N1]; [|right; intros v (_ & _ & E); cbn in E; congruence].
        destruct (Ascii.ascii_dec a2 c_dash) as [->|N2]; [|right; intros v (_ & _ & E); cbn in E; congruence].
        destruct (Ascii.ascii_dec a3 c_eq) as [->|N3]; [|right; intros v (_ & _ & E); cbn in E; congruence].
        left. exists (a4 :: r). split; [exact El|]. split; [discriminate|reflexivity]. }
      destruct D as [[v Hv]|Hn]; [apply (Hword v); now apply wd_nameless|].
      right. exists [], a, args. split; [constructor|]. split; [reflexivity|]. now split.
    + right. exists [], a, args. split; [constructor|]. split; [reflexivity|]. split; [exact Ho|]. intros v [E _]. congruence.
  - destruct (list_eq_dec Ascii.ascii_dec a $"--") as [->|Hd].
    + left. exists [], (Some args). split; [constructor|reflexivity].
    + apply (Hword a). now apply wd_word.
Qed.
Print Assumptions C121_cases.

(** ** Examples *)

Definition forgotten (args : list str) : parser := new_parser args.

Example C121_ex_words :
  exists r, rel_object_run false 5 (forgotten [$"in"; $"--=x"; $"-"; $"--"; $"-o"]) = Ok r
  /\ pr_options r = words_at false 0 [($"in", $"in"); ($"--=x", $"x"); ($"-", $"-"); ($"-o", $"-o")]
  /\ Forall (word default_style) [($"in", $"in"); ($"--=x", $"x"); ($"-", $"-")].
Proof.
  eexists. split; [vm_compute; reflexivity|]. split; [vm_compute; reflexivity|].
  apply Forall_cons; [apply wd_word; [intros H; inversion H|discriminate]|].
  apply Forall_cons; [apply wd_nameless; split; [reflexivity|split; [discriminate|reflexivity]]|].
  apply Forall_cons; [apply wd_word; [intros H; inversion H|discriminate]|]. apply Forall_nil.
Qed.

Example C121_ex_option :
  optionish default_style $"-o" /\ optionish default_style $"--out"
  /\ rel_object_run false 5 (forgotten [$"in"; $"-o"]) = Undef UB_null
  /\ rel_object_run false 5 (forgotten [$"in"; $"--out"]) = Undef UB_null.
Proof.
  split; [apply os_dash; [right; now split|discriminate]|]. split; [now apply os_long|]. split; vm_compute; reflexivity.
Qed.

Example C121_ex_no_value :
  no_value_given default_style $"--out="
  /\ exists e, rel_object_run false 5 (forgotten [$"in"; $"--out="]) = Throw e /\ ex_class e = invalid_command_line_syntax empty_adjacent_parameter.
Proof.
  split; [split; [reflexivity|exists $"out"; split; [reflexivity|intros [H|[H|[H|[]]]]; discriminate H]]|].
  eexists. split; [vm_compute; reflexivity|reflexivity].
Qed.

Example C121_ex_any :
  exists p p', parser_chain (new_parser [$"in"]) [call_allow_unregistered] = Ok p /\ parser_apply p (call_options []) = Ok p'
  /\ exists r, rel_object_run false 5 p = Ok r /\ pr_options r = words_at false 0 [($"in", $"in")].
Proof. eexists _, _. split; [reflexivity|]. split; [reflexivity|]. eexists. split; [vm_compute; reflexivity|reflexivity]. Qed.
