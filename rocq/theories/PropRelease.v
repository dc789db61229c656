(** C115: programs built without assertions. *)

From Coq Require Import List Ascii String NArith ZArith Bool Arith Lia.
From Verif Require Import Base BaseFacts Errors Spec Values OptDesc SpecLookup LookupFacts Positional Cmdline SpecCmdline CmdlineFacts
  SpecReject SpecGrammar Parsers Streams SpecConfig ConfigFacts VarMap SpecStore StoreFacts SpecFrame FrameFacts SpecUserEnv Release
  SpecRelease ReleaseFacts Samples Witness PropFrame.
Import ListNotations.

(** Assertions have no effect but to fail: without them the functions do the same where no assertion fails. *)
Theorem C115_same :
  (forall fuel c args, as_with_assertions (run fuel c args) (rel_run fuel c args))
  /\ (forall env ds mapper, as_with_assertions (parse_environ env ds mapper) (rel_parse_environ env ds mapper))
  /\ (forall p calls, as_with_assertions (add_all p calls) (rel_add_all p calls))
  /\ (forall p n, as_with_assertions (name_for_position p n) (Ok (rel_name_for_position p n)))
  /\ (forall names s text, as_with_assertions (new_option names s text) (Ok (rel_new_option names s text)))
  /\ (forall caption w m, as_with_assertions (new_options caption w m) (Ok (rel_new_options caption w m))).
Proof.
  split; [|split; [|split; [|split; [|split]]]].
  - intros fuel c args. unfold run, rel_run. apply same_bind; [apply same_refl|]. intros r _.
    apply same_bind; [apply merge_same'|]. intros; apply same_refl.
  - intros env ds mapper. unfold parse_environ, rel_parse_environ. apply same_bind; [apply env_loop_same|]. intros; apply same_refl.
  - intros p calls. apply add_all_same.
  - intros p n. unfold name_for_position, rel_name_for_position. destruct (Z.ltb n _); [|left; eauto].
    right. now destruct (nth_error (pos_names p) (Z.to_nat n)).
  - intros names s text. unfold new_option, rel_new_option. destruct (set_names names) as [n|e|u|] eqn:E; cbn [bind].
    + right. now rewrite (set_names_same _ _ E).
    + exfalso. unfold set_names in E. destruct (is_empty _); [discriminate|]. destruct (1 <? _)%nat; [|discriminate].
      destruct (rev _) as [|[|x [|]] l]; discriminate.
    + left; eauto.
    + exfalso. unfold set_names in E. destruct (is_empty _); [discriminate|]. destruct (1 <? _)%nat; [|discriminate].
      destruct (rev _) as [|[|x [|]] l]; discriminate.
  - intros caption w m. unfold new_options, rel_new_options. destruct (Z.ltb _ _); [now right|left; eauto].
Qed.
Print Assumptions C115_same.

(** A string of the environment without '=' is its own name and its own value. *)
Theorem C115_environment : forall strings pairs beyond ds g,
  Forall2 (fun s p => env_entry s (fst p) (snd p)) strings pairs ->
  rel_parse_environ (Some (map Some strings ++ None :: beyond)) ds (fun n => Ok (g n))
  = Ok (mk_parsed (env_named (map g (map fst pairs)) (map snd pairs)) (Some ds) 0).
Proof.
  intros strings pairs beyond ds g H. unfold rel_parse_environ.
  pose proof (rel_env_list g beyond strings pairs H [] (S (List.length (map Some strings ++ None :: beyond)))) as E.
  cbn [app List.length] in E. rewrite E; [reflexivity|]. rewrite app_length, map_length. lia.
Qed.
Print Assumptions C115_environment.

(** Every string is taken for exactly one name and value. *)
Theorem C115_environment_read : forall s,
  (exists n v, env_entry s n v) /\ forall n v n' v', env_entry s n v -> env_entry s n' v' -> n = n' /\ v = v'.
Proof.
  intros s. split.
  - destruct (find_char c_eq s) as [k|] eqn:E.
    + destruct (proj1 (find_char_Some c_eq s k) E) as (a & b & -> & Ha & _). exists a, b. now constructor.
    + apply find_char_None in E. exists s, s. now constructor.
  - intros n v n' v' H H'. pose proof (env_entry_split _ _ _ H (env_entry_name _ _ _ H)) as E.
    rewrite (env_entry_split _ _ _ H' (env_entry_name _ _ _ H')) in E. now injection E as <- <-.
Qed.
Print Assumptions C115_environment_read.

(** The last name added without a limit replaces the one before. *)
Theorem C115_positional : forall p calls, Forall (fun nk => (-1 <= snd nk)%Z) calls ->
  rel_add_all p calls = Ok (mk_pos (pos_names p ++ expand (limited calls)) (unlimited calls (pos_trailing p))).
Proof. intros p calls H. now apply rel_add_all_value. Qed.
Print Assumptions C115_positional.

(** A position without a name has the empty name. *)
Theorem C115_position : forall p n, (max_total_count p <= n < UINT_MAX)%Z -> rel_name_for_position p n = [].
Proof.
  intros p n H. unfold max_total_count in H. destruct (is_empty (pos_trailing p)) eqn:E; [|lia].
  unfold rel_name_for_position. destruct (nth_error (pos_names p) (Z.to_nat n)) as [x|] eqn:En.
  - exfalso. assert (Z.to_nat n < List.length (pos_names p)) by (apply nth_error_Some; congruence). lia.
  - now destruct (pos_trailing p).
Qed.
Print Assumptions C115_position.

(** An option declared with the empty string has no names. *)
Theorem C115_unnamed : forall s text, unnamed (rel_new_option [] s text) /\ new_option [] s text = Undef UB_assert.
Proof. intros s text. split; [split; reflexivity|reflexivity]. Qed.
Print Assumptions C115_unnamed.

(** It has no effect on command lines, as far as no argument has an '=' in the place of a name, *)
Theorem C115_unnamed_command_line : forall c ds1 s text ds2 args,
  cl_desc c = ds1 ++ ds2 -> cl_style_parser c = None -> has (cl_style c) long_case_insensitive = false ->
  unclaimed c [] -> Forall (fun d => ~ In [] (od_longs d) /\ (od_longs d = [] -> od_short d <> [])) (cl_desc c) ->
  Forall (fun tok => ~ nameless tok) args ->
  parse (with_desc c (ds1 ++ rel_new_option [] s text :: ds2)) args = parse c args.
Proof.
  intros c ds1 s text ds2 args Hds Hp Hl Hu Hn Ha. destruct (C115_unnamed s text) as (Hd & _).
  apply C86_new_option; auto.
  - now apply unnamed_foldable.
  - intros d0 typed k Hin Hk. rewrite Forall_forall in Hn. destruct (Hn _ Hin) as (He & Hs).
    destruct Hk as [(f & r & E & _ & ->)|[(f & r & _ & _ & ->)|(E & ->)]]; [|now left|]; right; unfold spared; rewrite Hl;
      (apply unnamed_passes; [exact Hd| |discriminate]).
    + intros ->. apply He. rewrite E. now left.
    + now apply Hs.
  - eapply Forall_impl; [|exact Ha]. intros tok H. now apply unnamed_silent.
Qed.
Print Assumptions C115_unnamed_command_line.

(** nor on what is stored and missing: its default is not stored, and it is not required even if it is declared so. *)
Theorem C115_unnamed_store : forall s text h h' vm,
  let d := rel_new_option [] s text in
  Forall2 (upgraded d) h h' -> stores vm_new h vm ->
  exists vm', stores vm_new h' vm'
    /\ forall name, name <> [] -> SpecStore.entry vm' name = SpecStore.entry vm name /\ (missing h' vm' name <-> missing h vm name).
Proof.
  intros s text h h' vm d Hu Hs. destruct (C115_unnamed s text) as (Hd & _). fold d in Hd.
  destruct (C88_new_option d h h' vm Hu) as (vm' & H1 & H2); auto.
  - apply Forall_forall. intros a _ ds o _ _ Hk _. apply unnamed_passes; [exact Hd|exact Hk|discriminate].
  - exists vm'. split; [exact H1|]. intros name Hn. apply H2; [exact Hn|].
    destruct Hd as (D1 & D2). intros [(f & r & E & _)|[(f & r & E & _)|(_ & E)]]; congruence.
Qed.
Print Assumptions C115_unnamed_store.

(** Such arguments do notice it, where long options may be written with a single dash. *)
Theorem C115_unnamed_command_line_refuted :
  let c := mk_cl (disguise_style - allow_guessing) false [o_help; o_output] None None None in
  (exists e, parse c [$"-=x"] = Throw e)
  /\ exists r, parse (with_desc c ([o_help; o_output] ++ rel_new_option [] tflag [] :: [])) [$"-=x"] = Ok r.
Proof. cbv zeta. split; (eexists; reflexivity). Qed.
Print Assumptions C115_unnamed_command_line_refuted.

(** Values are lost if the user's style parser returns several in an option without a name, and an option that can take more
    comes before: here "x" is kept and "y" is lost. *)
Definition pairing : style_parser := fun args =>
  match args with
  | a :: x :: y :: rest => if str_eqb a $"@" then Ok ([mk_popt [] (-1) [x; y] [a; x; y] false false], rest) else Ok ([], args)
  | _ => Ok ([], args)
  end.

Theorem C115_values_kept_refuted :
  let c := mk_cl default_style false sample None None (Some pairing) in
  let args := [$"--input=a"; $"@"; $"x"; $"y"] in
  parse c args = Undef UB_assert
  /\ exists o, rel_run (List.length args) c args = Ok [o] /\ po_key o = $"input" /\ po_value o = [$"a"; $"x"].
Proof. cbv zeta. split; [reflexivity|]. eexists. split; [reflexivity|]. split; reflexivity. Qed.
Print Assumptions C115_values_kept_refuted.

Definition ex_strings : list str := [$"HOME=/"; $"WORD"; $"X=a=b"].
Example C115_ex :
  Forall2 (fun s p => env_entry s (fst p) (snd p)) ex_strings [($"HOME", $"/"); ($"WORD", $"WORD"); ($"X", $"a=b")]
  /\ parse_environ (Some (map Some ex_strings ++ [None])) [] (fun n => Ok n) = Undef UB_assert
  /\ rel_parse_environ (Some (map Some ex_strings ++ [None])) [] (fun n => Ok n)
     = Ok (mk_parsed [env_option $"HOME" $"/"; env_option $"WORD" $"WORD"; env_option $"X" $"a=b"] (Some []) 0)
  /\ add_all positional_empty [($"a", (-1)%Z); ($"c", 2%Z); ($"b", (-1)%Z)] = Undef UB_assert
  /\ rel_add_all positional_empty [($"a", (-1)%Z); ($"c", 2%Z); ($"b", (-1)%Z)] = Ok (mk_pos [$"c"; $"c"] $"b")
  /\ rel_name_for_position (mk_pos [$"c"; $"c"] []) 2 = [].
Proof.
  split; [|repeat split; reflexivity].
  constructor; [exact (ee_variable $"HOME" $"/" ltac:(intros H; repeat (destruct H as [H|H]; [discriminate H|]); exact H))|].
  constructor; [exact (ee_word $"WORD" ltac:(intros H; repeat (destruct H as [H|H]; [discriminate H|]); exact H))|].
  constructor; [exact (ee_variable $"X" $"a=b" ltac:(intros H; repeat (destruct H as [H|H]; [discriminate H|]); exact H))|constructor].
Qed.

(** The description of the samples meets the conditions, and so does this command line. *)
Example C115_ex_unnamed :
  let c := sample_cl default_style in
  let required := mk_typed (TLex 0) None [] (Some (VLex 0 80, $"80")) None false false false true None in
  let args := [$"--output=x"; $"-n"; $"5"; $"=y"] in
  has (cl_style c) long_case_insensitive = false /\ unclaimed c []
  /\ Forall (fun d => ~ In [] (od_longs d) /\ (od_longs d = [] -> od_short d <> [])) (cl_desc c)
  /\ Forall (fun tok => ~ nameless tok) args
  /\ (exists r, parse c args = Ok r)
  /\ (let d := rel_new_option [] (typed lex local required) [] in
      upgraded d (frame_source, false) (with_options frame_source (sample ++ d :: []), false)
      /\ exists vm, stores vm_new [(frame_source, false)] vm /\ SpecStore.entry vm $"output" <> None).
Proof.
  cbv zeta. split; [reflexivity|]. split; [intros n v (f & E & _); discriminate E|]. split.
  { repeat constructor; cbn; try discriminate; intuition discriminate. }
  split; [repeat constructor; intros (v & [E|[E|E]]); discriminate E|]. split; [eexists; reflexivity|]. split.
  - right. exists sample, []. split; [now rewrite app_nil_r|reflexivity].
  - exists (fst (store frame_source vm_new false)). split; [eapply sts_cons; [apply done_ok; vm_compute; reflexivity|constructor]|].
    apply some_ex; vm_compute; reflexivity.
Qed.
